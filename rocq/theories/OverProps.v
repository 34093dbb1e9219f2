(** Handlers of variants, and ranges (C127, C128). *)
From Coq Require Import List Arith ZArith Bool Permutation Lia.
From Verif Require Import Base OverModel OverSpec OverProofs OverEffortProofs OverMatchProofs OverRangeProofs OverMoreProofs OverSamples.
Import ListNotations.

(** * match (C127) *)

(** With one handler for each alternative, the one for the held alternative is called, once, with the value itself;
    the variant changes only if that handler takes a reference that is not const. *)
Theorem match_dispatches : forall V R conv put_back W c rt v (hs : list (handler V R)) k x t n h r y s,
  sound W -> plain_handlers rt hs -> own_handlers c (v_alts v) hs ->
  v_held v = Some (k, x) -> nth_error (v_alts v) k = Some t -> nth_error hs n = Some h -> for_type c t (c_param (h_cand h)) ->
  h_run h x (h_state h) = (r, y, s) ->
  match_ conv put_back W c v hs = Called n x r
    (mkvariant (v_alts v) (Some (k, match p_ref (c_param (h_cand h)), p_const (c_param (h_cand h)) with lref, false => y | _, _ => x end))) hs.
Proof. exact match_dispatch. Qed.
Print Assumptions match_dispatches.

Theorem match_valueless : forall V R conv put_back W c rt v (hs : list (handler V R)), sound W -> plain_handlers rt hs -> own_handlers c (v_alts v) hs ->
  v_held v = None -> match_ conv put_back W c v hs = Thrown v hs.
Proof. intros V R conv put_back W c rt v hs Sd P O H. apply match_throws; [exact H | exact (plain_visitable V R W c rt _ hs Sd P O)]. Qed.
Print Assumptions match_valueless.

(** A handler for a type wins against conversions and against handlers that take anything, unless it adds a const. *)
Theorem own_handler_wins : forall W c t cs n h, sound W -> nth_error cs n = Some h -> for_type c t (c_param h) -> ~ adds_const c (c_param h) ->
  c_mutable h = false -> (forall m g, m <> n -> nth_error cs m = Some g -> c_mutable g = false /\ p_pat (c_param g) <> Exactly t) ->
  resolve W false (mkarg true c t) cs = Some n.
Proof. exact own_handler. Qed.
Print Assumptions own_handler_wins.

(** A type without a handler goes to the one that takes anything, even if it could be converted. *)
Theorem generic_handler_wins : forall W c t cs n f, sound W -> nth_error cs n = Some f -> generic (c_param f) -> c_mutable f = false ->
  p_ref (c_param f) <> rref ->
  (forall m g, m <> n -> nth_error cs m = Some g -> c_mutable g = false /\ exists u, p_pat (c_param g) = Exactly u /\ u <> t) ->
  resolve W false (mkarg true c t) cs = Some n.
Proof. exact fallback. Qed.
Print Assumptions generic_handler_wins.

(** Among handlers for other types the one that is called needs the least conversion, *)
Theorem least_effort_handler : forall W oc a cs n m c d u u', sound W -> resolve W oc a cs = Some n -> nth_error cs n = Some c -> p_pat (c_param c) = Exactly u ->
  nth_error cs m = Some d -> p_pat (c_param d) = Exactly u' -> viable W oc a d <> None -> effort W (a_type a) u <= effort W (a_type a) u'.
Proof. exact least_effort. Qed.
Print Assumptions least_effort_handler.

(** ... and among handlers for bases it is never one for a base of another's. *)
Theorem nearest_base_handler : forall W oc a cs n m c d u u', sound W -> resolve W oc a cs = Some n -> nth_error cs n = Some c -> p_pat (c_param c) = Exactly u ->
  nth_error cs m = Some d -> p_pat (c_param d) = Exactly u' -> viable W oc a d <> None -> derives W (a_type a) u' = true -> derives W u' u = false.
Proof. exact nearest_base. Qed.
Print Assumptions nearest_base_handler.

(** The order in which handlers are written does not matter. *)
Theorem handler_order : forall W oc a cs ds, sound W -> Permutation cs ds -> chosen W oc a cs = chosen W oc a ds.
Proof. exact chosen_permutation. Qed.
Print Assumptions handler_order.

(** Whatever the handlers: what one gets, and what the variant holds afterwards. *)
Theorem match_call : forall V R conv put_back W c v (hs : list (handler V R)) n x' r v' hs', sound W ->
  match_ conv put_back W c v hs = Called n x' r v' hs' ->
  exists k x t h y s, hs' = hs /\ v_held v = Some (k, x) /\ nth_error (v_alts v) k = Some t /\
    resolve W false (mkarg true c t) (map h_cand hs) = Some n /\ nth_error hs n = Some h /\ h_run h x' (h_state h) = (r, y, s) /\
    x' = match p_pat (c_param (h_cand h)) with Exactly u => if ty_eqb t u then x else conv t u x | _ => x end /\
    v' = mkvariant (v_alts v) (Some (k,
      if reaches c (c_param (h_cand h))
      then match p_pat (c_param (h_cand h)) with Exactly u => if ty_eqb t u then y else put_back t u x y | _ => y end
      else x)).
Proof. exact match_called. Qed.
Print Assumptions match_call.

(** Every alternative has a handler, and they all return the same type. *)
Theorem match_needs_handlers : forall V R conv put_back W c v (hs : list (handler V R)), match_ conv put_back W c v hs <> Ill ->
  forall t, In t (v_alts v) -> exists n h, resolve W false (mkarg true c t) (map h_cand hs) = Some n /\ nth_error hs n = Some h /\
  forall t' n' h', In t' (v_alts v) -> resolve W false (mkarg true c t') (map h_cand hs) = Some n' -> nth_error hs n' = Some h' -> h_returns h' = h_returns h.
Proof. exact match_compiles. Qed.
Print Assumptions match_needs_handlers.

(** [auto&] comes before [auto&&] and [const auto&]; for const variants [const auto&] comes before [auto&] and [auto&&]. *)
Theorem auto_ref_handler : forall W t cs n f, sound W -> nth_error cs n = Some f -> generic (c_param f) -> p_ref (c_param f) = lref -> p_const (c_param f) = false ->
  c_mutable f = false ->
  (forall m g, m <> n -> nth_error cs m = Some g -> c_mutable g = false /\
    ((exists u, p_pat (c_param g) = Exactly u /\ u <> t) \/
     (generic (c_param g) /\ (p_ref (c_param g) = forwarding /\ p_const (c_param g) = false \/ p_ref (c_param g) = lref /\ p_const (c_param g) = true)))) ->
  resolve W false (mkarg true false t) cs = Some n.
Proof. exact auto_ref. Qed.
Print Assumptions auto_ref_handler.

Theorem const_auto_ref_handler : forall W t cs n f, sound W -> nth_error cs n = Some f -> generic (c_param f) -> p_ref (c_param f) = lref -> p_const (c_param f) = true ->
  c_mutable f = false ->
  (forall m g, m <> n -> nth_error cs m = Some g -> c_mutable g = false /\
    ((exists u, p_pat (c_param g) = Exactly u /\ u <> t) \/
     (generic (c_param g) /\ p_const (c_param g) = false /\ (p_ref (c_param g) = forwarding \/ p_ref (c_param g) = lref)))) ->
  resolve W false (mkarg true true t) cs = Some n.
Proof. exact const_auto_ref. Qed.
Print Assumptions const_auto_ref_handler.

(** A function that takes its argument by value is a handler for that type. *)
Theorem function_handler : forall c t, for_type c t (c_param (func_overload (mkparam false by_value (Exactly t)))).
Proof. exact func_overload_own. Qed.
Print Assumptions function_handler.

(** A handler for [const T&] loses [T] to one for [auto&] or [auto&&] if the variant is not const. *)
Theorem const_ref_handler_refuted : forall W t cs n m h g, sound W -> nth_error cs n = Some h -> for_type false t (c_param h) ->
  adds_const false (c_param h) -> c_mutable h = false ->
  nth_error cs m = Some g -> generic (c_param g) -> p_const (c_param g) = false -> p_ref (c_param g) = lref \/ p_ref (c_param g) = forwarding ->
  resolve W false (mkarg true false t) cs <> Some n.
Proof. exact const_ref_loses. Qed.
Print Assumptions const_ref_handler_refuted.

(** A mutable lambda that takes [auto] takes every alternative from lambdas that are not mutable. *)
Theorem mutable_handler_refuted : forall W c t cs n f, sound W -> nth_error cs n = Some f -> generic (c_param f) -> p_ref (c_param f) = by_value ->
  c_mutable f = true -> (forall m g, m <> n -> nth_error cs m = Some g -> c_mutable g = false) ->
  resolve W false (mkarg true c t) cs = Some n.
Proof. exact mutable_takes_all. Qed.
Print Assumptions mutable_handler_refuted.

(** A forgotten handler is not always an error: [bool] goes to the one for [int]. *)
Theorem missing_handler_refuted : exists W v (hs : list (handler Z Z)) t n x r v', sound W /\ In t (v_alts v) /\
  (forall h, In h hs -> exists u, p_pat (c_param (h_cand h)) = Exactly u /\ u <> t) /\
  match_ conv0 put0 W false v hs = Called n x r v' hs.
Proof.
  exists there, (holding [tint; tbool] 1 1%Z), [answers 10 (takes (value tint))], tbool, 0, 1%Z, 10%Z, (holding [tint; tbool] 1 1%Z).
  split; [exact there_sound|]. split; [right; left; reflexivity|]. split; [|vm_compute; reflexivity].
  intros h [<-|[]]. exists tint. split; [reflexivity | discriminate].
Qed.
Print Assumptions missing_handler_refuted.

(** An rvalue variant is not passed on as one: with handlers for [T&&] the program does not compile. *)
Theorem rvalue_handler_refuted : forall V R conv put_back W c v t (hs : list (handler V R)), In t (v_alts v) ->
  (forall h, In h hs -> exists u, p_pat (c_param (h_cand h)) = Exactly u /\ p_ref (c_param (h_cand h)) = rref /\ (u = t \/ convert W t u = None)) ->
  match_ conv put_back W c v hs = Ill.
Proof. exact match_rref. Qed.
Print Assumptions rvalue_handler_refuted.

(** What handlers return by reference comes out as a copy. *)
Theorem reference_result_refuted : forall V R W c alts (hs : list (handler V R)) b t, match_type W c alts hs = Some (b, t) -> b = false.
Proof. exact match_type_value. Qed.
Print Assumptions reference_result_refuted.

Example match_int : match_ conv0 put0 there false (holding [tint; tdouble; Class 0] 2 7)
    [answers 1 (takes (value tint)); answers 2 (func_overload (value tdouble)); answers 3 (takes (plain_ref (Class 0)))]
  = Called 2 7%Z 3%Z (holding [tint; tdouble; Class 0] 2 8)
    [answers 1 (takes (value tint)); answers 2 (func_overload (value tdouble)); answers 3 (takes (plain_ref (Class 0)))].
Proof. vm_compute. reflexivity. Qed.
Example match_own : own_handlers false [tint; tdouble; Class 0]
    [answers 1 (takes (value tint)); answers 2 (func_overload (value tdouble)); answers 3 (takes (plain_ref (Class 0)))].
Proof.
  intros t [<-|[<-|[<-|[]]]].
  - exists 0. eexists. split; [reflexivity|]. split; [split; [reflexivity | left; reflexivity]|].
    intros [|[|[|m]]] g D N; try (contradiction D; reflexivity); try (injection N as <-; discriminate). destruct m; discriminate N.
  - exists 1. eexists. split; [reflexivity|]. split; [split; [reflexivity | right; split; reflexivity]|].
    intros [|[|[|m]]] g D N; try (contradiction D; reflexivity); try (injection N as <-; discriminate). destruct m; discriminate N.
  - exists 2. eexists. split; [reflexivity|]. split; [split; [reflexivity | right; split; [reflexivity | discriminate]]|].
    intros [|[|[|m]]] g D N; try (contradiction D; reflexivity); try (injection N as <-; discriminate). destruct m; discriminate N.
Qed.
Example stolen : resolve there false (mkarg true false (Class 0)) [takes (const_ref (Class 0)); takes auto_fwd] = Some 1
  /\ resolve there false (mkarg true true (Class 0)) [takes (const_ref (Class 0)); takes auto_fwd] = Some 0.
Proof. vm_compute. split; reflexivity. Qed.
Example base_handler : resolve there false (mkarg true false (Class 1)) [takes (const_ref (Class 0)); takes (value tint)] = Some 0
  /\ resolve there false (mkarg true false (Class 2)) [takes (const_ref (Class 0)); takes (value tint)] = Some 1.
Proof. vm_compute. split; reflexivity. Qed.
Example efforts : map (effort there tbool) [tbool; tint; tdouble] = [0; 1; 2] /\ effort there (Class 2) tint = 3
  /\ resolve there false (mkarg true false tbool) [takes (value tdouble); takes (value tint)] = Some 1.
Proof. vm_compute. repeat split; reflexivity. Qed.
Example ambiguous_handlers : resolve there false (mkarg true false tbool) [takes (value tdouble); takes (value (Arith TLong))] = None
  /\ resolve there false (mkarg true false tint) [takes (value tint); mutable (takes (value tdouble))] = None.
Proof. vm_compute. split; reflexivity. Qed.
Example generic_handlers : resolve there false (mkarg true false tint) [takes auto_fwd; takes (mkparam false lref Any); takes (mkparam true lref Any)] = Some 1
  /\ resolve there false (mkarg true true tint) [takes auto_fwd; takes (mkparam false lref Any); takes (mkparam true lref Any)] = Some 2.
Proof. vm_compute. split; reflexivity. Qed.
(** A handler for the base writes to a part of the alternative. *)
Example base_written : match_ conv0 put0 there false (holding [Class 1] 0 7) [answers 1 (takes (plain_ref (Class 0)))]
  = Called 0 (conv0 (Class 1) (Class 0) 7%Z) 1%Z (holding [Class 1] 0 (put0 (Class 1) (Class 0) 7 (conv0 (Class 1) (Class 0) 7 + 1))%Z) [answers 1 (takes (plain_ref (Class 0)))].
Proof. vm_compute. reflexivity. Qed.
Example returns_reference : match_type there false [tint] [mkhandler (V := Z) (R := Z) (takes (plain_ref tint)) (true, tint) 0 (fun x s => (x, x, s))] = Some (false, tint).
Proof. vm_compute. reflexivity. Qed.

(** * range (C128) *)

(** [range{c}] goes over [c]: with its iterators if it can be changed, with constant iterators if it is const or temporary. *)
Theorem range_of_container : forall sh pointer iter_converts W lv c t i ci, sound W -> shapes sh -> iter_converts i i = true -> iter_converts ci ci = true ->
  (forall u n, t <> Array u n) -> (forall j, t <> Range j) -> container (sh t) i ci ->
  let k := if lv && negb c then i else ci in
  deduced sh pointer W (mkarg lv c t) = Some k /\
  construct sh pointer iter_converts W k (mkarg lv c t) = Some (if lv && negb c then members else const_members).
Proof.
  intros sh pointer ic W lv c t i ci Sd Sh R1 R2 A B C. assert (St : simple t) by (destruct t as [| |u n|j]; [exact I | exact I | exact (A u n eq_refl) | exact (B j eq_refl)]).
  cbv zeta. rewrite (deduced_container sh pointer W Sd lv c t i ci St C), (construct_container sh pointer ic W Sd lv c t _ i ci St C).
  destruct lv, c; cbn [andb negb]; rewrite ?R1, ?R2; split; reflexivity.
Qed.
Print Assumptions range_of_container.

Theorem range_of_array : forall sh pointer iter_converts W lv c t n, sound W -> shapes sh -> (forall k, iter_converts k k = true) ->
  deduced sh pointer W (mkarg lv c (Array t n)) = Some (if lv && negb c then pointer false t else pointer true t) /\
  (lv = true \/ c = true -> construct sh pointer iter_converts W (if lv && negb c then pointer false t else pointer true t) (mkarg lv c (Array t n)) = Some decays).
Proof.
  intros sh pointer ic W lv c t n Sd Sh R. split; [apply deduced_array; assumption|]. intros L. rewrite construct_array by assumption.
  destruct lv, c; cbn [andb negb]; rewrite ?R; try reflexivity. destruct L as [L|L]; discriminate L.
Qed.
Print Assumptions range_of_array.

(** A copy of a range is a range of the same iterators. *)
Theorem range_of_range : forall sh pointer iter_converts W lv c i, sound W -> shapes sh -> iter_converts i i = true ->
  deduced sh pointer W (mkarg lv c (Range i)) = Some i /\
  construct sh pointer iter_converts W i (mkarg lv c (Range i)) = Some (if lv && negb c then members else copies).
Proof. intros sh pointer ic W lv c i Sd Sh R. split; [apply deduced_range; assumption | apply construct_copy; assumption]. Qed.
Print Assumptions range_of_range.

(** A range of other iterators is converted if it is an lvalue that is not const, and never else. *)
Theorem range_converts : forall sh pointer iter_converts W lv c i j, sound W -> shapes sh -> i <> j ->
  construct sh pointer iter_converts W i (mkarg lv c (Range j)) = if lv && negb c && iter_converts j i then Some members else None.
Proof. exact (fun sh pointer ic W lv c i j Sd Sh => construct_other sh pointer ic Sh W Sd lv c i j). Qed.
Print Assumptions range_converts.

Theorem range_conversion_refuted : exists sh pointer iter_converts W lv i j, sound W /\ shapes sh /\ iter_converts j i = true /\
  construct sh pointer iter_converts W i (mkarg true false (Range j)) = Some members /\
  construct sh pointer iter_converts W i (mkarg true true (Range j)) = None /\
  construct sh pointer iter_converts W i (mkarg lv false (Range j)) = None.
Proof. exists shapes0, pointer0, to_const, there, false, 1, 0. split; [exact there_sound|]. split; [exact shapes0_ok|]. vm_compute. repeat split. Qed.
Print Assumptions range_conversion_refuted.

(** A const container without [cbegin], as [std::initializer_list], does not compile though the type is deduced. *)
Theorem range_without_cbegin_refuted : exists sh pointer iter_converts W t i, sound W /\ shapes sh /\ s_begin (sh t) true = Some i /\ iter_converts i i = true /\
  deduced sh pointer W (mkarg true true t) = Some i /\ construct sh pointer iter_converts W i (mkarg true true t) = None.
Proof. exists shapes0, pointer0, to_const, there, (Class 1), 3. split; [exact there_sound|]. split; [exact shapes0_ok|]. vm_compute. repeat split. Qed.
Print Assumptions range_without_cbegin_refuted.

(** The elements between the positions are visited in order, and counted. *)
Theorem range_visits : forall A (xs : list A) first last fuel, first <= last -> last <= length xs -> last - first <= fuel ->
  visit fuel xs first last = Some (firstn (last - first) (skipn first xs)).
Proof. intros A xs first last fuel L B F. eapply visit_more; [apply visit_from; lia | exact F]. Qed.
Print Assumptions range_visits.

Theorem range_size_counts : forall first last, first <= last -> (Z.of_nat last < 2 ^ 64)%Z -> range_size first last = Z.of_nat (last - first).
Proof. exact size_counts. Qed.
Print Assumptions range_size_counts.

(** With the positions swapped it never ends well, but [size()] answers. *)
Theorem range_swapped_refuted : exists first last, (forall A (xs : list A) fuel, visit fuel xs first last = None) /\ range_size first last = (2 ^ 64 - 1)%Z.
Proof. exists 1, 0. split; [intros A xs fuel; apply visit_reversed; lia | vm_compute; reflexivity]. Qed.
Print Assumptions range_swapped_refuted.

Example range_of_vector : deduced shapes0 pointer0 there (mkarg true false (Class 0)) = Some 0 /\ deduced shapes0 pointer0 there (mkarg false false (Class 0)) = Some 1.
Proof. vm_compute. split; reflexivity. Qed.
Example range_over_all : visit 3 [4; 5; 6] 0 3 = Some [4; 5; 6].
Proof. reflexivity. Qed.
