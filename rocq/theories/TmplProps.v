(** The class templates of kl that compute types (C123-C126). *)
From Coq Require Import String List Arith NArith Bool.
From Verif Require Import TmplModel TmplSpec TmplProofs TmplMoreProofs TmplSamples.
Import ListNotations.
Local Open Scope string_scope.
Local Open Scope list_scope.

(** * filter (C123) *)

(** [ws] are the types given, where packs at the very end are spread. *)
Theorem filter_keeps : forall W P p ts ws, decides W P p -> spreads ts ws -> arguments ts ->
  has_member W "filter" (Tm P :: ts) "type" (pack (filter p ws)).
Proof. exact filter_type. Qed.
Print Assumptions filter_keeps.

Theorem filter_any : forall ts, exists ws, spreads ts ws.
Proof. exact spreads_total. Qed.
Print Assumptions filter_any.

(** One pack is what the comment in the header speaks of. *)
Theorem filter_pack : forall W P p ts, decides W P p -> arguments ts -> (forall us ts', ts <> ts' ++ [pack us]) ->
  has_member W "filter" [Tm P; pack ts] "type" (pack (filter p ts)).
Proof.
  intros W P p ts D A N. apply (filter_type W P p [pack ts] ts D).
  - exact (spreads_last [] ts ts (spreads_none ts N)).
  - apply arguments_cons; [reflexivity | intros us E; injection E as <-; exact A | apply arguments_nil].
Qed.
Print Assumptions filter_pack.

Theorem push_front_adds : forall W t ts, argument t -> has_member W "push_front" [t; pack ts] "type" (pack (t :: ts)).
Proof. intros W t ts A. eapply member_insts; [apply push_front_insts, A | reflexivity]. Qed.
Print Assumptions push_front_adds.

(** A type that is itself a pack is not filtered but spread, if it comes last. *)
Theorem filter_keeps_order_refuted : exists W P p ts, decides W P p /\ arguments ts /\
  exists us, has_member W "filter" (Tm P :: ts) "type" us /\ us <> pack (filter p ts).
Proof.
  exists here, "is_int", is_int, [dbl; pack [int; dbl]]. split; [exact here_decides|].
  assert (A : arguments [dbl; pack [int; dbl]]).
  { apply arguments_cons; [reflexivity | discriminate |]. apply arguments_cons; [reflexivity | | apply arguments_nil].
    intros us E. injection E as <-. apply arguments_cons; [reflexivity | discriminate |].
    apply arguments_cons; [reflexivity | discriminate | apply arguments_nil]. }
  split; [exact A|]. exists (pack [int]). split; [|discriminate].
  apply (filter_type here "is_int" is_int _ [dbl; int; dbl] here_decides); [|exact A].
  apply (spreads_last [dbl] [int; dbl] [int; dbl]). apply spreads_none.
  intros us ts' E. destruct ts' as [|x [|y [|z ts']]]; discriminate E.
Qed.
Print Assumptions filter_keeps_order_refuted.

Example filter_ints : member_of here 60 "filter" [Tm "is_int"; int; dbl; int; Lref int] "type" = Some (pack [int; int]).
Proof. vm_compute. reflexivity. Qed.
Example filter_of_pack : member_of here 60 "filter" [Tm "is_int"; pack [dbl; int]] "type" = Some (pack [int]).
Proof. vm_compute. reflexivity. Qed.

(** * at_type, type_pack (C124) *)

Theorem at_type_nth : forall W ts k t, Forall argument ts ->
  (nth_error ts (N.to_nat k) = Some t <-> has_member W "at_type" (Num k :: ts) "type" t).
Proof. exact at_type_exact. Qed.
Print Assumptions at_type_nth.

Theorem at_type_outside : forall W ts k, (N.of_nat (length ts) <= k)%N -> ill_formed W "at_type" (Num k :: ts).
Proof. exact at_ill. Qed.
Print Assumptions at_type_outside.

Theorem type_pack_counts : forall W ts, has_member W "type_pack" ts "value" (Num (N.of_nat (length ts))).
Proof. exact type_pack_size. Qed.
Print Assumptions type_pack_counts.

Theorem type_pack_extracts : forall W ts k t, Forall argument ts ->
  (nth_error ts (N.to_nat k) = Some t <-> has_nested W "type_pack" ts "extract" k t).
Proof. exact type_pack_extract. Qed.
Print Assumptions type_pack_extracts.

Example at_type_documented : member_of here 60 "at_type" [Num 1; int; Lref dbl] "type" = Some (Lref dbl).
Proof. vm_compute. reflexivity. Qed.
Example extract_last : nested_of here 60 "type_pack" [int; dbl; int] "extract" 1 "type" = Some dbl.
Proof. vm_compute. reflexivity. Qed.

(** * func_traits (C125) *)

Theorem func_traits_describes : forall W F c r ts, signature W F c r ts -> Forall argument ts ->
  has_member W "func_traits" [F] "return_type" r /\
  has_member W "func_traits" [F] "signature_type" (Fn r ts plain) /\
  has_member W "func_traits" [F] "args_type" (pack ts) /\
  has_member W "func_traits" [F] "arity" (Num (N.of_nat (length ts))) /\
  (forall k t, nth_error ts (N.to_nat k) = Some t <-> has_nested W "func_traits" [F] "arg" k t) /\
  match c with
  | Some d => has_member W "func_traits" [F] "class_type" d
  | None => no_member W "func_traits" [F] "class_type"
  end.
Proof. exact func_traits_members. Qed.
Print Assumptions func_traits_describes.

(** There is nothing else that it takes. *)
Theorem func_traits_only : forall W F, (forall c r ts, ~ signature W F c r ts) -> ill_formed W "func_traits" [F].
Proof. exact func_traits_ill. Qed.
Print Assumptions func_traits_only.

(** It does not take a function, a pointer to one or a lambda that is [noexcept], and no [const] pointer. *)
Theorem func_traits_noexcept_refuted : exists W F, callable W F /\ is_class (no_cv F) = true /\ ill_formed W "func_traits" [F].
Proof.
  exists here, (Name "lambda3"). split; [|split; [reflexivity | exact (func_traits_ill _ _ lambda3_none)]].
  apply (call_object here (Name "lambda3") (Name "lambda3") int [int] const_noexcept); reflexivity.
Qed.
Print Assumptions func_traits_noexcept_refuted.

Theorem func_traits_noexcept_function_refuted : forall W r ts q, q_noexcept q = true ->
  callable W (Fn r ts q) /\ ill_formed W "func_traits" [Fn r ts q] /\
  callable W (Ptr (Fn r ts q)) /\ ill_formed W "func_traits" [Ptr (Fn r ts q)].
Proof.
  intros W r ts q Q. split; [apply call_function|]. split; [apply func_traits_ill; intros c s us; exact (proj1 (noexcept_none W r ts q c s us Q))|].
  split; [apply call_pointer | apply func_traits_ill; intros c s us; exact (proj2 (noexcept_none W r ts q c s us Q))].
Qed.
Print Assumptions func_traits_noexcept_function_refuted.

Theorem func_traits_const_pointer_refuted : forall W r ts q,
  callable W (Cv true false (Ptr (Fn r ts q))) /\ ill_formed W "func_traits" [Cv true false (Ptr (Fn r ts q))].
Proof. intros W r ts q. split; [apply call_cv, call_pointer | apply func_traits_ill, const_pointer_none]. Qed.
Print Assumptions func_traits_const_pointer_refuted.

Example lambda_traits : map (member_of here 60 "func_traits" [Rref (Cv true false (Name "lambda1"))])
    ["return_type"; "signature_type"; "arity"; "class_type"]
  = [Some dbl; Some (Fn dbl [int; Lref (Cv true false int)] fq0); Some (Num 2); Some (Name "lambda1")].
Proof. vm_compute. reflexivity. Qed.
Example derived_traits : map (member_of here 60 "func_traits" [Lref (Name "derived")]) ["return_type"; "class_type"; "arity"]
  = [Some (Name "void"); Some (Name "lambda2"); Some (Num 0)].
Proof. vm_compute. reflexivity. Qed.
Example lambda_signature : signature here (Rref (Cv true false (Name "lambda1"))) (Some (Name "lambda1")) dbl [int; Lref (Cv true false int)].
Proof. apply sig_rref; [reflexivity|]. apply (sig_object here _ _ _ _ fq_const); try reflexivity. right. reflexivity. Qed.

(** * is_same, remove_cvref, enable_if, member_pointer_traits (C126) *)

Theorem is_same_all : forall W a b ts, Forall argument (a :: b :: ts) ->
  exists v, has_member W "is_same" (a :: b :: ts) "value" (number v) /\ (v = true <-> all_equal (a :: b :: ts)).
Proof. exact is_same_exact. Qed.
Print Assumptions is_same_all.

Theorem is_same_two_at_least : forall W ts, length ts < 2 -> ill_formed W "is_same" ts.
Proof. exact is_same_few. Qed.
Print Assumptions is_same_two_at_least.

Theorem remove_cvref_removes : forall W t u, bare t -> referring t u -> has_member W "remove_cvref" [u] "type" t.
Proof. exact remove_cvref_bare. Qed.
Print Assumptions remove_cvref_removes.

Theorem enable_if_all : forall W ts, conditions W ts true -> has_member W "enable_if" ts "type" (Name "bool").
Proof. exact enable_if_true. Qed.
Print Assumptions enable_if_all.

Theorem enable_if_not_all : forall W ts, conditions W ts false -> no_member W "enable_if" ts "type".
Proof. intros W ts H. exact (insts_ill _ _ _ (enable_if_false W ts H) "type"). Qed.
Print Assumptions enable_if_not_all.

Theorem member_pointer_describes : forall W c t n, argument c -> argument t ->
  has_member W "member_pointer_traits" [Member c t n] "value_type" t /\
  has_member W "member_pointer_traits" [Member c t n] "class_type" c.
Proof. exact member_pointer_members. Qed.
Print Assumptions member_pointer_describes.

Example same_three : member_of here 60 "is_same" [int; int; int] "value" = Some (Num 1).
Proof. vm_compute. reflexivity. Qed.
Example same_not : member_of here 60 "is_same" [int; int; dbl] "value" = Some (Num 0).
Proof. vm_compute. reflexivity. Qed.
Example bare_const : member_of here 60 "remove_cvref" [Lref (Cv true true int)] "type" = Some int.
Proof. vm_compute. reflexivity. Qed.
Example later_unseen : conditions here [App "is_int" [int]; App "is_int" [dbl]; App "nonsense" []] false.
Proof.
  apply (conditions_true here _ _ 1); [discriminate | exact (here_decides int eq_refl)|]. apply conditions_false. exact (here_decides dbl eq_refl).
Qed.
