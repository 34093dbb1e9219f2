(** C48-C52, C63, C64: enums. *)
From Coq Require Import List NArith ZArith Arith Bool Lia.
From Verif Require Import Base EnumModel EnumSpec EnumProofs.
Import ListNotations.

(** C48: names and values, for every table and every value of the type. *)
Theorem enum_names_round_trip : forall t tab def,
  int_type t -> Forall (of_type t) (map fst tab) -> (N.of_nat (length tab) < 2 ^ 63)%N ->
  (forall v, of_type t v -> ~ In v (map fst tab) -> to_string t tab v def = Ok def) /\
  (forall v n, NoDup (map fst tab) -> In (v, n) tab -> to_string t tab v def = Ok n) /\
  (forall n, ~ In n (map snd tab) -> from_string tab n = None) /\
  (forall v n, NoDup (map snd tab) -> In (v, n) tab -> from_string tab n = Some v) /\
  (forall v, NoDup (map snd tab) -> In v (map fst tab) ->
     exists n, to_string t tab v def = Ok n /\ from_string tab n = Some v) /\
  (forall n v, NoDup (map fst tab) -> from_string tab n = Some v -> to_string t tab v def = Ok n).
Proof. exact reflector_lemma. Qed.
Print Assumptions enum_names_round_trip.

(** C48: the index path never leaves the table and agrees with the search. *)
Theorem enum_fast_path_sound : forall t tab v def,
  int_type t -> Forall (of_type t) (map fst tab) -> (N.of_nat (length tab) < 2 ^ 63)%N ->
  of_type t v -> to_string t tab v def = Ok (find_name tab v def).
Proof. exact to_string_search. Qed.
Print Assumptions enum_fast_path_sound.

(** C49: the operations are the set operations on the flags. *)
Theorem enum_set_is_set : forall t a b, int_type t -> of_type t a -> of_type t b ->
  (of_type t (es_and t a b) /\ of_type t (es_or t a b) /\ of_type t (es_xor t a b) /\
   of_type t (es_not t a)) /\
  (forall i, i < ibits t ->
     (flag (es_and t a b) i <-> flag a i /\ flag b i) /\
     (flag (es_or t a b) i <-> flag a i \/ flag b i) /\
     (flag (es_xor t a b) i <-> (flag a i <-> ~ flag b i)) /\
     (flag (es_not t a) i <-> ~ flag a i) /\
     ~ flag es_empty i) /\
  (es_eq a b = true <-> forall i, i < ibits t -> (flag a i <-> flag b i)) /\
  (es_bool a = true <-> exists i, i < ibits t /\ flag a i) /\
  (es_has_any t a b = true <-> exists i, i < ibits t /\ flag a i /\ flag b i) /\
  (es_has_all t a b = true <-> forall i, i < ibits t -> flag b i -> flag a i) /\
  es_test t a b = es_has_all t a b.
Proof. exact enum_set_lemma. Qed.
Print Assumptions enum_set_is_set.

(** C50: a range that compiles and whose end is representable. *)
Theorem enum_range_visits_each_once : forall r n, good_range r -> count r = Some n ->
  compiles r = true /\ n = Z.of_nat (length (elements r)) /\ NoDup (elements r) /\
  (forall e, in_range_e r e = true <-> In e (elements r)) /\
  (exists last, range_end r = Some last /\
     forall fuel, length (elements r) <= fuel ->
       walk fuel (rty r) (range_begin r) last = Ok (Some (elements r)) /\
       for_each_enum fuel (rty r) (range_begin r) last = Ok (Some (elements r))).
Proof. exact range_lemma. Qed.
Print Assumptions enum_range_visits_each_once.

(** C51: for enums whose promoted underlying type is signed (in particular
    every enum without an explicit type), difference and order of iterators
    are always the wrong way round. *)
Theorem enum_iterator_order_inverted_refuted : forall t a b,
  int_type t -> isigned (promote t) = true -> of_type t a -> of_type t b ->
  of_type (promote t) (a - b) -> of_type (promote t) (b - a) ->
  fa_minus (it_distance_to t) a b = Ok (b - a)%Z /\
  fa_lt (it_distance_to t) a b = Ok (b <? a)%Z.
Proof. exact inverted_lemma. Qed.
Print Assumptions enum_iterator_order_inverted_refuted.

(** C51: with an unsigned 32-bit type the difference is also not even minus
    the number of elements. *)
Theorem enum_iterator_distance_refuted : exists r last,
  good_range r /\ compiles r = true /\ range_end r = Some last /\ length (elements r) = 3 /\
  fa_minus (it_distance_to (rty r)) last (range_begin r) = Ok 4294967293%Z /\
  fa_lt (it_distance_to (rty r)) (range_begin r) last = Ok true /\
  fa_lt (it_distance_to (rty r)) last (range_begin r) = Ok true.
Proof.
  exists (mkerange (mkity false 32) 0 3 true), 3%Z.
  split; [unfold good_range, int_type, of_type; cbn; intuition lia|]. repeat split; vm_compute; reflexivity.
Qed.
Print Assumptions enum_iterator_distance_refuted.

(** C63: the facade's operators are right for an iterator whose [distance_to]
    is own position minus the other's (the convention of the facade's test). *)
Theorem facade_operators_follow_distance : forall (I : Type) (d : I -> I -> outcome Z) (at_ : I -> Z),
  (forall a b, d a b = Ok (at_ a - at_ b)%Z) ->
  forall a b, fa_minus d a b = Ok (at_ a - at_ b)%Z /\
    fa_lt d a b = Ok (at_ a <? at_ b)%Z /\ fa_gt d a b = Ok (at_ b <? at_ a)%Z /\
    fa_le d a b = Ok (at_ a <=? at_ b)%Z /\ fa_ge d a b = Ok (at_ b <=? at_ a)%Z.
Proof. exact @facade_lemma. Qed.
Print Assumptions facade_operators_follow_distance.

(** C52: a closed range of [uint8_t] up to 255 compiles, but nothing is in range
    and the count is 2^64 minus 5. *)
Theorem closed_range_at_maximum_refuted : exists r,
  int_type (rty r) /\ of_type (rty r) (rmin r) /\ rmax r = ity_max (rty r) /\ half_open r = false /\
  compiles r = true /\ count r = Some (2 ^ 64 - 5)%Z /\ forall e, in_range_e r e = false.
Proof.
  exists (mkerange (mkity false 8) 5 255 false).
  split; [unfold int_type; cbn; auto|]. split; [unfold of_type; cbn; lia|].
  repeat split; try reflexivity. intros e. unfold in_range_e.
  change (max_value _) with (Some 0%Z). change (min_value _) with 5%Z.
  destruct (Z.leb_spec 5 e); [|reflexivity]. cbn [andb]. destruct (Z.ltb_spec e 0); [lia|reflexivity].
Qed.
Print Assumptions closed_range_at_maximum_refuted.

(** C64: the assertion on [count()] does not reject reversed ranges. *)
Theorem reversed_range_rejected_refuted : exists r,
  int_type (rty r) /\ of_type (rty r) (rmin r) /\ of_type (rty r) (rmax r) /\ half_open r = true /\
  (rmax r < rmin r)%Z /\ compiles r = true.
Proof.
  exists (mkerange (mkity true 32) 7 3 true).
  split; [unfold int_type; cbn; auto|]. repeat split; vm_compute; congruence.
Qed.
Print Assumptions reversed_range_rejected_refuted.

(* ------------------------------------------------------------------ *)

Definition ex_tab : table := [(0%Z, [97%N]); (1%Z, [98%N]); (2%Z, [99%N])].
Definition ex_holes : table := [(2%Z, [97%N]); ((-1)%Z, [98%N]); (5%Z, [99%N]); (2%Z, [100%N])].

Example ex_ordinary : is_ordinary (mkity true 32) ex_tab = true. Proof. reflexivity. Qed.
Example ex_not_ordinary : is_ordinary (mkity true 32) ex_holes = false. Proof. reflexivity. Qed.
Example ex_table_ok : Forall (of_type (mkity true 8)) (map fst ex_holes).
Proof. repeat constructor; cbn; discriminate. Qed.
Example ex_to_string : to_string (mkity true 32) ex_tab 2 [63]%N = Ok [99]%N /\
  to_string (mkity true 32) ex_tab 3 [63]%N = Ok [63]%N /\
  to_string (mkity true 32) ex_tab (-1) [63]%N = Ok [63]%N /\
  to_string (mkity true 32) ex_holes (-1) [63]%N = Ok [98]%N /\
  from_string ex_holes [100]%N = Some 2%Z.
Proof. repeat split; reflexivity. Qed.

Example ex_set : es_not (mkity false 8) 5 = 250%Z /\ es_not (mkity true 8) 5 = (-6)%Z /\
  es_has_all (mkity true 8) (-6) 2 = true /\ es_has_any (mkity true 8) (-6) 5 = false.
Proof. repeat split; reflexivity. Qed.

(** [colour_space] of tests/enum_range_test.cpp: closed range 2..8. *)
Example ex_range : let r := mkerange (mkity true 32) 2 8 false in
  good_range r /\ count r = Some 7%Z /\
  walk 7 (rty r) 2 9 = Ok (Some [2; 3; 4; 5; 6; 7; 8])%Z.
Proof. split; [unfold good_range, int_type, of_type; cbn; intuition lia|]. split; reflexivity. Qed.

Example ex_inverted : let t := mkity true 32 in
  fa_minus (it_distance_to t) 9%Z 2%Z = Ok (-7)%Z /\ fa_lt (it_distance_to t) 2%Z 9%Z = Ok false.
Proof. split; reflexivity. Qed.
