(** bit_cast, and raw objects in streams. *)
From Coq Require Import List NArith ZArith Arith Bool Lia.
From Verif Require Import Base BinModel BinSpec BinProofs BinWrite CastModel CastSpec CastProofs CastLayProofs.
Import ListNotations.

(** ** Filled padding *)
Lemma fill_agrees cells : forall pad, Forall2 agrees cells (fill pad cells).
Proof. induction cells as [|[b|] cells IH]; intros pad; cbn [fill]; constructor; try reflexivity; try exact I; apply IH. Qed.

Lemma fill_same cells bs : Forall2 agrees cells bs -> fill (fun i => nth i bs 0%N) cells = bs.
Proof.
  induction 1 as [|c b cells bs A F IH]; [reflexivity|]. destruct c as [x|]; cbn [fill nth]; cbn in A; [subst x|]; f_equal; exact IH.
Qed.

Lemma fill_padding cells : forall pad i, nth_error cells i = Some None -> nth_error (fill pad cells) i = Some (pad i).
Proof.
  induction cells as [|c cells IH]; intros pad i H; [destruct i; discriminate|]. destruct i as [|i]; cbn [nth_error] in H.
  - injection H as ->. reflexivity.
  - destruct c; cbn [fill nth_error]; now rewrite (IH (fun i => pad (S i))).
Qed.

Lemma fill_octets ks cells : Forall2 shape1 ks cells -> forall pad, octets pad -> Forall is_octet (fill pad cells).
Proof.
  induction 1 as [|k c ks cells Sh F IH]; intros pad O; [constructor|].
  assert (O' : octets (fun i => pad (S i))) by (intros i; apply O).
  destruct c as [b|]; cbn [fill]; constructor; try (apply IH; exact O'); [|apply O].
  destruct k as [[|]|]; cbn in Sh; try contradiction; [exact Sh | unfold is_octet; lia].
Qed.

Lemma object_octets t pad v : real t -> value t v -> octets pad -> Forall is_octet (object t pad v).
Proof. intros R V O. exact (fill_octets _ _ (store_shape t R v V) pad O). Qed.

Lemma object_length t pad v : real t -> value t v -> length (object t pad v) = sizeof t.
Proof. intros R V. unfold object. rewrite <- (Forall2_length _ _ _ (fill_agrees (store t v) pad)). now apply length_store. Qed.

Lemma object_value t pad v : real t -> value t v -> load t (object t pad v) = Ok v.
Proof. intros R V. rewrite <- (app_nil_r (object t pad v)). apply (load_store t R v); [exact V | apply fill_agrees]. Qed.

Lemma sound0 t bs : real t -> Forall is_octet bs -> length bs = sizeof t ->
  (exists v, load t bs = Ok v /\ value t v /\ Forall2 agrees (store t v) bs /\ Forall2 ok1 (kinds t) bs) \/
  (load t bs = UB /\ ~ Forall2 ok1 (kinds t) bs).
Proof. intros R O L. pose proof (load_sound t R bs [] O L) as H. now rewrite app_nil_r in H. Qed.

(** ** Casting *)
Lemma castable_size from to : castable from to = true -> sizeof to = sizeof from.
Proof. unfold castable. intros H. apply andb_prop in H as [H _]. now apply Nat.eqb_eq. Qed.

Lemma whole {A} (l : list A) n : length l = n -> firstn n l = l.
Proof. intros <-. apply firstn_all. Qed.

Lemma cast_reinterprets to copied bs : real to -> Forall is_octet bs -> length bs = sizeof to ->
  obind (bit_cast to copied bs) (load to) = load to bs.
Proof.
  intros R O L. unfold bit_cast. rewrite whole by assumption. destruct copied as [pad|]; [|reflexivity]. cbn [give_back].
  destruct (sound0 to bs R O L) as [(v & E & V & _)|[E _]]; rewrite E; cbn [obind]; [now apply object_value | reflexivity].
Qed.

Lemma ok_flags ks bs : length ks = length bs -> Forall is_octet bs ->
  (Forall2 ok1 ks bs <-> forall i b, nth_error ks i = Some (Some Flag) -> nth_error bs i = Some b -> (b < 2)%N).
Proof.
  revert bs. induction ks as [|k ks IH]; intros [|b bs] L O; try discriminate.
  - split; [intros _ i b H; destruct i; discriminate | constructor].
  - injection L as L. inversion O as [|? ? O1 O2]; subst. split.
    + intros F i x Hk Hb. inversion F as [|? ? ? ? [_ K] F']; subst. destruct i as [|i]; cbn [nth_error] in *.
      * injection Hb as <-. injection Hk as ->. now apply K.
      * exact (proj1 (IH bs L O2) F' i x Hk Hb).
    + intros H. constructor; [split; [exact O1|]; intros ->; exact (H 0 b eq_refl eq_refl)|]. apply IH; [exact L | exact O2|].
      intros i x Hk Hb. exact (H (S i) x Hk Hb).
Qed.

Lemma flags_bad ks bs : length ks = length bs -> Forall is_octet bs ->
  ~ Forall2 ok1 ks bs -> exists i b, nth_error ks i = Some (Some Flag) /\ nth_error bs i = Some b /\ (2 <= b)%N.
Proof.
  revert bs. induction ks as [|k ks IH]; intros [|b bs] L O H; try discriminate; [destruct H; constructor|].
  injection L as L. inversion O as [|? ? O1 O2]; subst.
  assert (D : (k = Some Flag /\ (2 <= b)%N) \/ ok1 k b).
  { destruct k as [[|]|]; try (right; split; [exact O1 | discriminate]).
    destruct (N.lt_ge_cases b 2); [right; split; auto | left; auto]. }
  destruct D as [[-> B]|K]; [exists 0, b; auto|].
  destruct (IH bs L O2) as (i & x & A & B & C); [intros F; apply H; now constructor|]. exists (S i), x. auto.
Qed.

Lemma load_undefined t bs : real t -> Forall is_octet bs -> length bs = sizeof t ->
  (load t bs = UB <-> exists i b, holds t i Flag /\ nth_error bs i = Some b /\ (2 <= b)%N) /\
  (load t bs = UB \/ exists v, load t bs = Ok v /\ value t v).
Proof.
  intros R O L. assert (LK : length (kinds t) = length bs) by (rewrite length_kinds by assumption; congruence).
  destruct (sound0 t bs R O L) as [(v & E & V & _ & K)|[E K]]; rewrite E.
  - split; [|right; eauto]. split; [discriminate|]. intros (i & b & H & Hb & B). apply (kinds_holds t R) in H.
    pose proof (proj1 (ok_flags _ _ LK O) K i b H Hb). lia.
  - split; [|now left]. split; [|reflexivity]. intros _. destruct (flags_bad _ _ LK O K) as (i & b & A & B & C).
    exists i, b. split; [now apply (kinds_holds t R) | auto].
Qed.

(** ** Casting there and back *)
Definition passes (kf kt : option part) : Prop :=
  match kf, kt with
  | Some Digit, Some Digit | Some Flag, Some _ | None, Some Digit | None, None => True
  | _, _ => False
  end.

Lemma nth_length {A B} (a : list A) (b : list B) i x : length a = length b -> nth_error a i = Some x -> exists y, nth_error b i = Some y.
Proof.
  intros L H. assert (i < length b) by (rewrite <- L; apply nth_error_Some; now rewrite H).
  destruct (nth_error b i) eqn:E; [eauto|]. apply nth_error_None in E. lia.
Qed.

Lemma Forall2_nth {A B} (R : A -> B -> Prop) a b : length a = length b ->
  (forall i x y, nth_error a i = Some x -> nth_error b i = Some y -> R x y) -> Forall2 R a b.
Proof.
  revert b. induction a as [|x a IH]; intros [|y b] L H; try discriminate; constructor; [exact (H 0 x y eq_refl eq_refl)|].
  apply IH; [now injection L|]. intros i. exact (H (S i)).
Qed.

Lemma nth_Forall2 {A B} (R : A -> B -> Prop) a b i x y : Forall2 R a b -> nth_error a i = Some x -> nth_error b i = Some y -> R x y.
Proof.
  intros F. revert i. induction F as [|u v a b H F IH]; intros i Ha Hb; destruct i as [|i]; try discriminate; cbn [nth_error] in *.
  - congruence.
  - eauto.
Qed.

Lemma covered_passes from to : real from -> real to -> sizeof to = sizeof from ->
  (covered from to <-> Forall2 passes (kinds from) (kinds to)).
Proof.
  intros Rf Rt E. assert (L : length (kinds from) = length (kinds to)) by (now rewrite !length_kinds by assumption).
  split.
  - intros (C1 & C2 & C3). apply Forall2_nth; [exact L|]. intros i kf kt Hf Ht. destruct kf as [[|]|].
    + apply (kinds_holds from Rf) in Hf. apply C1 in Hf. apply (kinds_holds to Rt) in Hf. rewrite Hf in Ht. injection Ht as <-. exact I.
    + apply (kinds_holds from Rf) in Hf. destruct (C2 i Hf) as [p Hp]. apply (kinds_holds to Rt) in Hp. rewrite Hp in Ht. injection Ht as <-. exact I.
    + destruct kt as [[|]|]; try exact I. apply (kinds_holds to Rt) in Ht. apply C3 in Ht. apply (kinds_holds from Rf) in Ht. congruence.
  - intros F. split; [|split].
    + intros i H. apply (kinds_holds from Rf) in H. destruct (nth_length _ (kinds to) i _ L H) as [kt Ht].
      pose proof (nth_Forall2 _ _ _ _ _ _ F H Ht) as P. destruct kt as [[|]|]; cbn in P; try contradiction. now apply (kinds_holds to Rt).
    + intros i H. apply (kinds_holds from Rf) in H. destruct (nth_length _ (kinds to) i _ L H) as [kt Ht].
      pose proof (nth_Forall2 _ _ _ _ _ _ F H Ht) as P. destruct kt as [p|]; cbn in P; [|contradiction]. exists p. now apply (kinds_holds to Rt).
    + intros i H. apply (kinds_holds to Rt) in H. destruct (nth_length _ (kinds from) i _ (eq_sym L) H) as [kf Hf].
      pose proof (nth_Forall2 _ _ _ _ _ _ F Hf H) as P. destruct kf as [[|]|]; cbn in P; try contradiction. now apply (kinds_holds from Rf).
Qed.

(** What survives a copy as another type. *)
Lemma passes_through ksf kst cells bs cells2 : Forall2 passes ksf kst -> Forall2 shape1 ksf cells -> Forall2 agrees cells bs ->
  Forall2 shape1 kst cells2 -> Forall2 agrees cells2 bs -> forall bs2, Forall2 agrees cells2 bs2 -> Forall2 agrees cells bs2.
Proof.
  intros P. revert cells bs cells2. induction P as [|kf kt ksf kst P F IH]; intros cells bs cells2 S A S2 A2 bs2 A3.
  - inversion S; subst. inversion S2; subst. inversion A3; subst. constructor.
  - inversion S as [|? c ? cs Sc S']; subst. inversion S2 as [|? c2 ? cs2 Sc2 S2']; subst.
    inversion A as [|? b ? bs' Ac A']; subst. inversion A2 as [|? ? ? ? Ac2 A2']; subst. inversion A3 as [|? b3 ? bs3 Ac3 A3']; subst.
    constructor; [|eapply IH; eassumption].
    destruct kf as [[|]|], kt as [[|]|]; cbn in P; try contradiction; destruct c as [x|], c2 as [x2|]; cbn in *; try contradiction; try congruence; exact I.
Qed.

Lemma passes_ok ksf kst cells bs : Forall2 passes ksf kst -> Forall2 shape1 ksf cells -> Forall2 agrees cells bs -> Forall is_octet bs -> Forall2 ok1 kst bs.
Proof.
  intros P. revert cells bs. induction P as [|kf kt ksf kst P F IH]; intros cells bs S A O.
  - inversion S; subst. inversion A; subst. constructor.
  - inversion S as [|? c ? cs Sc S']; subst. inversion A as [|? b ? bs' Ac A']; subst. inversion O as [|? ? O1 O2]; subst.
    constructor; [|eapply IH; eassumption]. split; [exact O1|]. intros ->.
    destruct kf as [[|]|]; cbn in P; try contradiction. destruct c as [x|]; cbn in *; [congruence | contradiction].
Qed.

Definition back (from to : lay) (r1 r2 : option (nat -> N)) (bs : list N) : outcome cv :=
  obind (bit_cast to r1 bs) (fun o => obind (bit_cast from r2 o) (load from)).

Lemma covered_back from to : real from -> real to -> sizeof to = sizeof from -> covered from to ->
  forall v pad r1 r2, value from v -> octets pad -> octets_of r1 -> octets_of r2 -> back from to r1 r2 (object from pad v) = Ok v.
Proof.
  intros Rf Rt E C v pad r1 r2 V O O1 O2. apply (covered_passes from to Rf Rt E) in C. unfold back.
  set (bs := object from pad v). assert (Ob : Forall is_octet bs) by (now apply object_octets).
  assert (Lb : length bs = sizeof to) by (rewrite E; now apply object_length).
  assert (A : Forall2 agrees (store from v) bs) by apply fill_agrees.
  assert (K : Forall2 ok1 (kinds to) bs) by (exact (passes_ok _ _ _ _ C (store_shape from Rf v V) A Ob)).
  unfold bit_cast at 1. rewrite whole by assumption. destruct r1 as [p1|]; cbn [give_back obind].
  - destruct (sound0 to bs Rt Ob Lb) as [(w & Ew & W & Aw & _)|[_ N]]; [|contradiction]. rewrite Ew. cbn [obind].
    rewrite cast_reinterprets; [|assumption | now apply object_octets | rewrite <- E; now apply object_length].
    rewrite <- (app_nil_r (object to p1 w)). apply (load_store from Rf v); [exact V|].
    eapply passes_through; [exact C | exact (store_shape from Rf v V) | exact A | exact (store_shape to Rt w W) | exact Aw | apply fill_agrees].
  - rewrite cast_reinterprets by (try assumption; congruence). now apply object_value.
Qed.

(** Any bytes are some object's. *)
Lemma as_object t bs v : load t bs = Ok v -> real t -> Forall is_octet bs -> length bs = sizeof t ->
  value t v /\ object t (fun i => nth i bs 0%N) v = bs.
Proof.
  intros E R O L. destruct (sound0 t bs R O L) as [(w & Ew & W & A & _)|[Eu _]]; [|congruence].
  rewrite E in Ew. injection Ew as <-. split; [exact W | now apply fill_same].
Qed.

Lemma nth_octets bs : Forall is_octet bs -> octets (fun i => nth i bs 0%N).
Proof.
  intros F i. destruct (nth_in_or_default i bs 0%N) as [H| ->]; [|reflexivity]. rewrite Forall_forall in F. now apply F.
Qed.

Definition const_octets (x : N) : is_octet x -> octets (fun _ => x) := fun H _ => H.

(** All bytes 0 but one. *)
Definition single (n i : nat) (x : N) : list N := map (fun j => if j =? i then x else 0%N) (seq 0 n).

Lemma single_nth n i x j : j < n -> nth_error (single n i x) j = Some (if j =? i then x else 0%N).
Proof.
  intros H. unfold single. rewrite nth_error_map. replace (nth_error (seq 0 n) j) with (Some j); [reflexivity|].
  symmetry. rewrite (nth_error_nth' _ 0) by (now rewrite seq_length). f_equal. now rewrite seq_nth.
Qed.

Lemma single_length n i x : length (single n i x) = n.
Proof. unfold single. now rewrite map_length, seq_length. Qed.

Lemma single_octets n i x : is_octet x -> Forall is_octet (single n i x).
Proof.
  intros H. unfold single. apply Forall_forall. intros y Hy. apply in_map_iff in Hy as (j & <- & _). destruct (j =? i); [exact H | reflexivity].
Qed.

Lemma single_load t i x : real t -> is_octet x -> nth_error (kinds t) i <> Some (Some Flag) \/ (x < 2)%N ->
  exists v, load t (single (sizeof t) i x) = Ok v.
Proof.
  intros R O H. destruct (sound0 t (single (sizeof t) i x) R (single_octets _ _ _ O) (single_length _ _ _)) as [(v & E & _)|[_ N]]; [eauto|].
  destruct N. apply ok_flags; [now rewrite single_length, length_kinds | now apply single_octets|]. intros j b Hk Hb.
  assert (Hj : j < sizeof t) by (rewrite <- (length_kinds t R); apply nth_error_Some; now rewrite Hk).
  rewrite single_nth in Hb by assumption. injection Hb as <-. destruct (Nat.eqb_spec j i) as [->|]; [|lia].
  destruct H as [H|H]; [contradiction | exact H].
Qed.

Lemma back_covered from to : real from -> real to -> sizeof to = sizeof from ->
  (forall v pad r1 r2, value from v -> octets pad -> octets_of r1 -> octets_of r2 -> back from to r1 r2 (object from pad v) = Ok v) ->
  covered from to.
Proof.
  intros Rf Rt E H. apply (covered_passes from to Rf Rt E).
  assert (LK : length (kinds from) = length (kinds to)) by (now rewrite !length_kinds by assumption).
  apply Forall2_nth; [exact LK|]. intros i kf kt Hf Ht.
  assert (Hi : i < sizeof from) by (rewrite <- (length_kinds from Rf); apply nth_error_Some; now rewrite Hf).
  (* a byte 2 where the other type has a bool *)
  assert (Bad : kt = Some Flag -> kf <> Some Flag -> False).
  { intros -> NF. destruct (single_load from i 2 Rf eq_refl) as [v Ev]; [left; congruence|].
    destruct (as_object _ _ _ Ev Rf (single_octets _ _ 2%N eq_refl) (single_length _ _ _)) as [V Eo].
    specialize (H v _ (Some (fun _ => 0%N)) None V (nth_octets _ (single_octets (sizeof from) i 2%N eq_refl)) (const_octets 0 eq_refl) I).
    rewrite Eo in H. unfold back in H. unfold bit_cast in H at 1. rewrite E, whole in H by apply single_length. cbn [give_back] in H.
    assert (U : load to (single (sizeof from) i 2) = UB).
    { apply load_undefined; [exact Rt | now apply single_octets | now rewrite single_length|].
      exists i, 2%N. split; [now apply (kinds_holds to Rt)|]. split; [|lia]. rewrite single_nth by assumption. now rewrite Nat.eqb_refl. }
    rewrite U in H. discriminate. }
  (* padding on the other side *)
  assert (Lost : kt = None -> kf <> None -> False).
  { intros -> NF. destruct (single_load from i 0 Rf eq_refl) as [v Ev]; [right; lia|].
    destruct (as_object _ _ _ Ev Rf (single_octets _ _ 0%N eq_refl) (single_length _ _ _)) as [V Eo].
    specialize (H v _ (Some (fun _ => 1%N)) None V (nth_octets _ (single_octets (sizeof from) i 0%N eq_refl)) (const_octets 1 eq_refl) I).
    rewrite Eo in H. unfold back in H. unfold bit_cast in H at 1. rewrite E, whole in H by apply single_length. cbn [give_back] in H.
    destruct (single_load to i 0 Rt eq_refl) as [w Ew]; [right; lia|]. rewrite E in Ew. rewrite Ew in H. cbn [obind] in H.
    destruct (as_object _ _ _ Ew Rt (single_octets _ _ 0%N eq_refl) ltac:(now rewrite single_length)) as [W _].
    assert (O1 : Forall is_octet (object to (fun _ => 1%N) w)) by (apply object_octets; [exact Rt | exact W | exact (const_octets 1 eq_refl)]).
    assert (L1 : length (object to (fun _ => 1%N) w) = sizeof from) by (rewrite <- E; now apply object_length).
    rewrite cast_reinterprets in H by assumption.
    assert (N1 : nth_error (object to (fun _ => 1%N) w) i = Some 1%N).
    { apply (fill_padding (store to w) (fun _ => 1%N) i).
      destruct (nth_length _ (store to w) i _ (Forall2_length _ _ _ (store_shape to Rt w W)) Ht) as [c Hc].
      pose proof (nth_Forall2 _ _ _ _ _ _ (store_shape to Rt w W) Ht Hc) as S. destruct c; [destruct S | exact Hc]. }
    destruct (sound0 from _ Rf O1 L1) as [(u & Eu & U & A & _)|[Eu _]]; [|congruence]. rewrite H in Eu. injection Eu as <-.
    destruct (sound0 from _ Rf (single_octets (sizeof from) i 0%N eq_refl) (single_length _ _ _)) as [(u & Eu & _ & A' & _)|[Eu _]]; [|congruence].
    rewrite Ev in Eu. injection Eu as <-.
    destruct (nth_length _ (store from v) i _ (Forall2_length _ _ _ (store_shape from Rf v V)) Hf) as [c Hc].
    pose proof (nth_Forall2 _ _ _ _ _ _ (store_shape from Rf v V) Hf Hc) as S.
    pose proof (nth_Forall2 _ _ _ _ _ _ A Hc N1) as X1. assert (Z0 : nth_error (single (sizeof from) i 0) i = Some 0%N).
    { rewrite single_nth by assumption. now rewrite Nat.eqb_refl. }
    pose proof (nth_Forall2 _ _ _ _ _ _ A' Hc Z0) as X0.
    destruct c as [x|]; [cbn in X0, X1; congruence|]. destruct kf as [[|]|]; [destruct S | destruct S | now apply NF]. }
  destruct kf as [[|]|], kt as [[|]|]; cbn; try exact I; (exfalso; now apply Bad) || (exfalso; now apply Lost).
Qed.

Lemma back_iff from to : real from -> real to -> castable from to = true ->
  ((forall v pad r1 r2, value from v -> octets pad -> octets_of r1 -> octets_of r2 ->
      obind (bit_cast to r1 (object from pad v)) (fun o => obind (bit_cast from r2 o) (load from)) = Ok v) <-> covered from to).
Proof.
  intros Rf Rt C. pose proof (castable_size _ _ C) as E. split.
  - now apply back_covered.
  - intros K. now apply covered_back.
Qed.

(** ** Streams *)
Lemma raw_trip t v pad old c : real t -> value t v -> octets pad -> inside c -> err c = false ->
  (pos c + N.of_nat (sizeof t) <= size_bytes c)%N ->
  exists c', write_object t (object t pad v) c = Ok c' /\ err c' = false /\ pos c' = (pos c + N.of_nat (sizeof t))%N /\
    size_bytes c' = size_bytes c /\
    exists bytes, load t bytes = Ok v /\
      read_object t old (set_pos c' (pos c)) = Ok (c', bytes) /\ peek_object t old (set_pos c' (pos c)) = Ok bytes.
Proof.
  intros R V O Hi He Hs. unfold write_object. rewrite whole by (now apply object_length). set (bs := object t pad v).
  assert (Lb : length bs = sizeof t) by (now apply object_length). assert (Ob : Forall is_octet bs) by (now apply object_octets).
  pose proof Hi as (H1 & H2 & H3). unfold write_impl. rewrite He, left_inside, Lb by assumption. cbn [orb].
  destruct (N.ltb_spec (size_bytes c - pos c) (N.of_nat (sizeof t))); [lia|]. unfold copy_in. fold (size_bytes c). rewrite Lb.
  destruct (N.ltb_spec (size_bytes c) (pos c + N.of_nat (sizeof t))); [lia|]. cbn [obind].
  assert (M : ((pos c + N.of_nat (sizeof t)) mod size_modulus = pos c + N.of_nat (sizeof t))%N).
  { unfold size_modulus. change (2 ^ 63)%N with 9223372036854775808%N in H2. apply N.mod_small. lia. }
  rewrite M. set (b := firstn (N.to_nat (pos c)) (buf c) ++ bs ++ skipn (N.to_nat (pos c) + sizeof t) (buf c)).
  eexists. split; [reflexivity|]. cbn [err pos set_pos set_buf]. split; [exact He|]. split; [reflexivity|].
  assert (Lf : length (firstn (N.to_nat (pos c)) (buf c)) = N.to_nat (pos c)).
  { rewrite firstn_length. unfold size_bytes in *. lia. }
  assert (SB : N.of_nat (length b) = size_bytes c).
  { unfold b, size_bytes in *. rewrite !app_length, Lf, Lb, skipn_length. lia. }
  split; [exact SB|]. exists bs. split; [now apply object_value|].
  set (c0 := set_pos _ (pos c)).
  assert (I0 : inside c0).
  { split; [|split].
    - unfold c0, size_bytes. cbn [pos set_pos buf set_buf]. rewrite SB. exact H1.
    - unfold c0, size_bytes. cbn [set_pos buf set_buf]. rewrite SB. exact H2.
    - unfold c0. cbn [set_pos buf set_buf]. unfold b. rewrite !Forall_app. split; [|split; [exact Ob|]].
      + rewrite <- (firstn_skipn (N.to_nat (pos c)) (buf c)) in H3. now apply Forall_app in H3.
      + rewrite <- (firstn_skipn (N.to_nat (pos c) + sizeof t) (buf c)) in H3. now apply Forall_app in H3. }
  assert (CO : copy_out b (pos c) (N.of_nat (sizeof t)) = Ok bs).
  { unfold copy_out. rewrite SB. destruct (N.ltb_spec (size_bytes c) (pos c + N.of_nat (sizeof t))); [lia|]. f_equal.
    unfold b. rewrite skipn_len by exact Lf. rewrite Nat2N.id. now apply firstn_len. }
  assert (PK : peek_impl c0 (N.of_nat (sizeof t)) = Ok (Some bs)).
  { unfold peek_impl. rewrite left_inside by exact I0. unfold c0 at 1 2 3. unfold size_bytes. cbn [err pos buf set_pos set_buf].
    rewrite He, SB. cbn [orb]. destruct (N.ltb_spec (size_bytes c - pos c) (N.of_nat (sizeof t))); [lia|].
    unfold c0. cbn [pos buf set_pos set_buf]. now rewrite CO. }
  split.
  - unfold read_object, read_impl. rewrite PK. cbn [obind]. unfold c0 at 1 2. cbn [pos set_pos set_buf buf err asked]. rewrite M. reflexivity.
  - unfold peek_object. rewrite PK. reflexivity.
Qed.

Lemma padding_kinds t i : real t -> (padding t i <-> nth_error (kinds t) i = Some None).
Proof.
  intros R. unfold padding. split.
  - intros [L N]. rewrite <- (length_kinds t R) in L. destruct (nth_error (kinds t) i) as [[p|]|] eqn:E.
    + apply (kinds_holds t R) in E. now apply N in E.
    + reflexivity.
    + apply nth_error_None in E. lia.
  - intros E. split; [rewrite <- (length_kinds t R); apply nth_error_Some; now rewrite E|]. intros p H. apply (kinds_holds t R) in H. congruence.
Qed.

Lemma same_bytes t : real t ->
  (forall v pad, value t v -> load t (object t pad v) = Ok v) /\
  (forall i, padding t i -> forall v pad, value t v -> nth_error (object t pad v) i = Some (pad i)) /\
  (forall v pad pad', value t v -> (forall i, padding t i -> pad i = pad' i) -> object t pad v = object t pad' v).
Proof.
  intros R. split; [intros; now apply object_value|]. split.
  - intros i P v pad V. apply (padding_kinds t i R) in P. apply fill_padding.
    destruct (nth_length _ (store t v) i _ (Forall2_length _ _ _ (store_shape t R v V)) P) as [c Hc].
    pose proof (nth_Forall2 _ _ _ _ _ _ (store_shape t R v V) P Hc) as S. destruct c; [destruct S | exact Hc].
  - intros v pad pad' V H. pose proof (store_shape t R v V) as Sh.
    assert (H' : forall i, nth_error (kinds t) i = Some None -> pad i = pad' i) by (intros i P; apply H; now apply padding_kinds).
    clear H. unfold object. revert pad pad' H'. induction Sh as [|k c ks cs S1 S2 IH]; intros pad pad' H; [reflexivity|].
    assert (T : fill (fun i => pad (S i)) cs = fill (fun i => pad' (S i)) cs) by (apply IH; intros i P; exact (H (S i) P)).
    destruct c as [b|]; cbn [fill]; [now rewrite T|]. rewrite T. f_equal. apply (H 0). destruct k as [[|]|]; cbn in S1; try contradiction. reflexivity.
Qed.

Lemma known_bytes t : real t ->
  ((forall v pad pad', value t v -> octets pad -> octets pad' -> object t pad v = object t pad' v) <-> forall i, ~ padding t i) /\
  (forall i, padding t i -> forall v pad, value t v -> nth_error (object t pad v) i = Some (pad i)).
Proof.
  intros R. destruct (same_bytes t R) as (_ & P & D). split; [|exact P]. split.
  - intros H i Pi. destruct (single_load t 0 0 R eq_refl) as [v E]; [right; lia|].
    destruct (as_object _ _ _ E R (single_octets _ _ 0%N eq_refl) (single_length _ _ _)) as [V _].
    pose proof (H v _ _ V (const_octets 0 eq_refl) (const_octets 1 eq_refl)) as Eq.
    pose proof (P i Pi v (fun _ => 0%N) V) as A. pose proof (P i Pi v (fun _ => 1%N) V) as B. rewrite Eq, B in A. discriminate.
  - intros N v pad pad' V _ _. apply D; [exact V|]. intros i Pi. now apply N in Pi.
Qed.

Lemma cast_read from to copied bs : real from -> real to -> castable from to = true -> Forall is_octet bs -> length bs = sizeof from ->
  obind (bit_cast to copied bs) (load to) = load to bs /\
  (load to bs = UB <-> exists i b, holds to i Flag /\ nth_error bs i = Some b /\ (2 <= b)%N) /\
  (load to bs = UB \/ exists v, load to bs = Ok v /\ value to v).
Proof.
  intros Rf Rt C O L. rewrite <- (castable_size _ _ C) in L. split; [now apply cast_reinterprets | now apply load_undefined].
Qed.
