(** Customization points: which function is called. *)
From Coq Require Import List Arith Bool Sorted.
From Verif Require Import DispModel DispSpec DispProofs DispSamples.
Import ListNotations.

(* ------------------------------------------------------------------ *)
(** ** Priorities *)

Theorem priority_takes_highest : forall A n (l : list (tagged A)) a, with_priority n l = Some a <->
  exists l1 x l2, l = l1 ++ x :: l2 /\ does x = a /\ valid x = true /\ tag x <= n /\
  forall y, In y (l1 ++ l2) -> valid y = true -> tag y <= n -> tag y < tag x.
Proof. exact @priority_iff. Qed.
Print Assumptions priority_takes_highest.

Theorem validators_always_compile : forall p t, exists c, validator p t = Some c.
Proof. exact validator_total. Qed.
Print Assumptions validators_always_compile.

Theorem matchers_always_compile : forall p t, exists c, matcher p t = Some c.
Proof. exact matcher_total. Qed.
Print Assumptions matchers_always_compile.

(* ------------------------------------------------------------------ *)
(** ** Validators *)

Theorem member_validator_first : forall p t c, has_member t c <-> validator p t = Some (Member c).
Proof. exact member_first. Qed.
Print Assumptions member_validator_first.

Theorem called_validators_fit : forall p t f, validator p t = Some (Free f) ->
  (forall c, ~ has_member t c) /\ In f (p_fns p) /\ candidate p t f /\ f_deleted f = false /\
  match f_param f with
  | Named q => match f_pass f with ByRef => exists k, binds t q k | _ => made t q end
  | Any => True
  | AnyOpt => exists t', t = Opt t'
  end.
Proof. exact called_validator. Qed.
Print Assumptions called_validators_fit.

(** A function for the type or its nearest base is called, unless another one takes that type by value or the same
    way; a template is better than one for a base. *)
Theorem nearest_validator_called : forall p t l1 f l2 q k, (forall c, ~ has_member t c) -> p_fns p = l1 ++ f :: l2 ->
  candidate p t f -> f_param f = Named q -> f_pass f = ByRef -> binds t q k ->
  (forall g, In g (l1 ++ l2) -> candidate p t g ->
    match f_param g with
    | Named q' => forall j, binds t q' j -> k < j \/ k = j /\ f_pass g = ByConst
    | Any => k = 0
    | AnyOpt => k = 0 \/ core t = t
    end) -> validator p t = Some (if f_deleted f then Nothing else Free f).
Proof. exact nearest_validator. Qed.
Print Assumptions nearest_validator_called.

Theorem nearest_const_validator_called : forall p t l1 f l2 q k, (forall c, ~ has_member t c) -> p_fns p = l1 ++ f :: l2 ->
  candidate p t f -> f_param f = Named q -> f_pass f = ByConst -> binds t q k ->
  (forall g, In g (l1 ++ l2) -> candidate p t g ->
    match f_param g with
    | Named q' => forall j, binds t q' j -> k < j
    | Any | AnyOpt => k = 0 /\ f_pass g <> ByRef
    end) -> validator p t = Some (if f_deleted f then Nothing else Free f).
Proof. exact nearest_const_validator. Qed.
Print Assumptions nearest_const_validator_called.

Theorem template_validator_called : forall p t l1 f l2, (forall c, ~ has_member t c) -> p_fns p = l1 ++ f :: l2 ->
  candidate p t f -> f_param f = Any -> f_pass f = ByRef ->
  (forall g, In g (l1 ++ l2) -> candidate p t g ->
    match f_param g with
    | Named q' => binds t q' 0 -> f_pass g = ByConst
    | Any => f_pass g = ByConst
    | AnyOpt => f_pass g = ByConst \/ core t = t
    end) -> validator p t = Some (if f_deleted f then Nothing else Free f).
Proof. exact template_validator. Qed.
Print Assumptions template_validator_called.

(** A template for optionals comes before one for everything. *)
Theorem optional_template_called : forall p t l1 f l2, p_fns p = l1 ++ f :: l2 -> candidate p (Opt t) f ->
  f_param f = AnyOpt -> f_pass f = ByRef ->
  (forall g, In g (l1 ++ l2) -> candidate p (Opt t) g ->
    match f_param g with
    | Named q' => binds (Opt t) q' 0 -> f_pass g = ByConst
    | Any => True
    | AnyOpt => f_pass g = ByConst
    end) -> validator p (Opt t) = Some (if f_deleted f then Nothing else Free f).
Proof. exact opt_template_validator. Qed.
Print Assumptions optional_template_called.

(** Of two functions with the same parameters, in different namespaces, neither is called. *)
Theorem twin_validators_not_called : forall p t l1 f l2 g l3, p_fns p = l1 ++ f :: l2 ++ g :: l3 -> candidate p t f -> candidate p t g ->
  f_param f = f_param g -> f_pass f = f_pass g -> validator p t <> Some (Free f) /\ validator p t <> Some (Free g).
Proof. exact twins_validator. Qed.
Print Assumptions twin_validators_not_called.

(** A function for the very type need not be called: another one makes the call ambiguous, and nothing is validated. *)
Theorem declared_validator_runs_refuted : exists p t f q, In f (p_fns p) /\ candidate p t f /\ f_deleted f = false /\
  f_param f = Named q /\ binds t q 0 /\ validator p t = Some Nothing.
Proof.
  exists (prog [for_base; for_base_copy]), (Obj [base]), for_base, (NClass 10).
  repeat split; [now left|right; exists [base], base; repeat split; now left|apply (B_class [] base []); intros x []].
Qed.
Print Assumptions declared_validator_runs_refuted.

(** A member that cannot be called hides the one of the base. *)
Theorem inherited_member_runs_refuted : exists p l ls c, has_member (Obj ls) c /\ validator p (Obj (l :: ls)) = Some Nothing.
Proof. exists (prog []), hiding, [checked], 11. split; [exists [], checked, []; repeat split; intros x []|reflexivity]. Qed.
Print Assumptions inherited_member_runs_refuted.

(** The validator of the base need not run for a class without one of its own. *)
Theorem inherited_validator_runs_refuted : exists p l ls f, l_member l = None /\
  (forall g, In g (p_fns p) -> f_param g <> Named (NClass (l_class l))) /\
  validator p (Obj ls) = Some (Free f) /\ validator p (Obj (l :: ls)) <> Some (Free f).
Proof.
  exists (prog [for_base; for_all]), derived, [base], for_base. repeat split; [|vm_compute; discriminate].
  intros g [<-|[<-|[]]]; discriminate.
Qed.
Print Assumptions inherited_validator_runs_refuted.

(* ------------------------------------------------------------------ *)
(** ** Optionals *)

Theorem validate_levels : forall p t d i c, In (i, c) (validate p t d 0) <->
  exists t', i <= d /\ inside_of i t t' /\ validator p t' = Some c /\ c <> Nothing.
Proof.
  intros p t d i c. rewrite (validate_in p t d 0 i c). split.
  - intros (n & t' & -> & H). exists t'. exact H.
  - intros (t' & H). exists i, t'. split; [reflexivity|exact H].
Qed.
Print Assumptions validate_levels.

Theorem validate_outside_first : forall p t d, StronglySorted lt (map fst (validate p t d 0)).
Proof. intros p t d. exact (validate_sorted p t d 0). Qed.
Print Assumptions validate_outside_first.

Theorem reference_validators_run_once : forall p t d f i j, f_pass f = ByRef -> (exists q, f_param f = Named q) ->
  In (i, Free f) (validate p t d 0) -> In (j, Free f) (validate p t d 0) -> i = j.
Proof. exact reference_once. Qed.
Print Assumptions reference_validators_run_once.

(** One for [const optional<T>&] runs for the optional, and again for a copy of its content. *)
Theorem validators_run_once_refuted : exists p t d f q, f_param f = Named q /\
  In (0, Free f) (validate p t d 0) /\ In (1, Free f) (validate p t d 0).
Proof. exists (prog [for_const_opt]), (Opt (Obj [base])), 1, for_const_opt, (NOpt (NClass 10)). vm_compute. tauto. Qed.
Print Assumptions validators_run_once_refuted.

(* ------------------------------------------------------------------ *)
(** ** Keys *)

Theorem called_matchers_fit : forall p t f, matcher p t = Some (Free f) -> In f (p_fns p) /\ candidate p t f /\ f_deleted f = false /\
  match f_param f with
  | Named q => f_pass f <> ByRef /\ made t q
  | Any => True
  | AnyOpt => exists t', t = Opt t'
  end.
Proof. exact called_matcher. Qed.
Print Assumptions called_matchers_fit.

Theorem const_matcher_called : forall p t l1 f l2 q k, p_fns p = l1 ++ f :: l2 -> candidate p t f ->
  f_param f = Named q -> f_pass f = ByConst -> binds t q k ->
  (forall g, In g (l1 ++ l2) -> candidate p t g ->
    match f_param g with
    | Named q' => forall j, binds t q' j -> k < j \/ f_pass g = ByRef
    | Any | AnyOpt => k = 0
    end) -> matcher p t = Some (if f_deleted f then Nothing else Free f).
Proof. exact const_matcher. Qed.
Print Assumptions const_matcher_called.

Theorem const_template_matcher_called : forall p t l1 f l2, p_fns p = l1 ++ f :: l2 -> candidate p t f ->
  f_param f = Any -> f_pass f = ByConst ->
  (forall g, In g (l1 ++ l2) -> candidate p t g ->
    match f_param g with
    | Named q' => binds t q' 0 -> f_pass g = ByRef
    | Any => f_pass g = ByRef
    | AnyOpt => f_pass g = ByRef \/ core t = t
    end) -> matcher p t = Some (if f_deleted f then Nothing else Free f).
Proof. exact const_template_matcher. Qed.
Print Assumptions const_template_matcher_called.

Theorem twin_matchers_not_called : forall p t l1 f l2 g l3, p_fns p = l1 ++ f :: l2 ++ g :: l3 -> candidate p t f -> candidate p t g ->
  f_param f = f_param g -> f_pass f = f_pass g -> matcher p t <> Some (Free f) /\ matcher p t <> Some (Free g).
Proof. exact twins_matcher. Qed.
Print Assumptions twin_matchers_not_called.

(** One that takes the element by reference is not called; the keys are compared as text. *)
Theorem declared_matcher_used_refuted : exists p t f q, p_fns p = [f] /\ candidate p t f /\ f_deleted f = false /\
  f_param f = Named q /\ binds t q 0 /\ matcher p t = Some Nothing.
Proof.
  exists (prog [for_base]), (Obj [base]), for_base, (NClass 10).
  repeat split; [right; exists [base], base; repeat split; now left|apply (B_class [] base []); intros x []].
Qed.
Print Assumptions declared_matcher_used_refuted.

(* ------------------------------------------------------------------ *)
(** ** Examples *)

Example ex_priority : with_priority 2 [mktagged 0 true 0; mktagged 2 false 2; mktagged 1 true 1; mktagged 3 true 3] = Some 1.
Proof. reflexivity. Qed.
Example ex_two_of_a_tag : with_priority 2 [mktagged 0 true 0; mktagged 1 true 1; mktagged 1 true 2] = None.
Proof. reflexivity. Qed.
Example ex_derived : validator (prog [for_const_opt; for_base; for_derived; for_all; for_opt]) (Obj [derived; base]) = Some (Free for_derived).
Proof. reflexivity. Qed.
Example ex_inherited : validator (prog [for_const_base; for_base; for_const_opt]) (Obj [derived; base]) = Some (Free for_base).
Proof. reflexivity. Qed.
(** The namespace of the base counts, that of unrelated functions does not. *)
Example ex_not_found : validator (prog [mkfn 8 9 ByRef Any true false]) (Obj [derived; base]) = Some Nothing.
Proof. reflexivity. Qed.
(** The template is better than a function for the const type. *)
Example ex_template : validator (prog [for_const_base; for_all]) (Obj [base]) = Some (Free for_all).
Proof. reflexivity. Qed.
Example ex_deleted : validator (prog [mkfn 9 1 ByRef (Named (NClass 10)) true true; for_all]) (Obj [base]) = Some Nothing.
Proof. reflexivity. Qed.
Example ex_opt_template : validator (prog [mkfn 9 3 ByRef AnyOpt true false; for_all]) (Opt (Obj [base])) = Some (Free (mkfn 9 3 ByRef AnyOpt true false)).
Proof. reflexivity. Qed.
Example ex_twins : validator (prog [for_base; mkfn 9 3 ByRef (Named (NClass 10)) true false]) (Obj [base]) = Some Nothing.
Proof. reflexivity. Qed.
Example ex_hidden_free : validator (prog [for_all]) (Obj [hiding; checked]) = Some (Free for_all).
Proof. reflexivity. Qed.
Example ex_both_levels : validate (prog [for_base; for_opt]) (Opt (Opt (Obj [derived; base]))) 2 0 = [(2, Free for_base)].
Proof. reflexivity. Qed.
Example ex_two_levels : validate (prog [for_base; for_opt]) (Opt (Opt (Obj [base]))) 2 0 = [(1, Free for_opt); (2, Free for_base)].
Proof. reflexivity. Qed.
Example ex_empty : validate (prog [for_base; for_opt]) (Opt (Opt (Obj [base]))) 1 0 = [(1, Free for_opt)].
Proof. reflexivity. Qed.
Example ex_matcher : matcher (prog [for_base; for_const_base; for_all]) (Obj [base]) = Some (Free for_const_base).
Proof. reflexivity. Qed.
