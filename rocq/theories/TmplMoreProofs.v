(** More fuel changes nothing; type_pack, func_traits, is_same and others. *)
From Coq Require Import String List Arith NArith Bool Lia.
From Verif Require Import TmplModel TmplSpec TmplProofs.
Import ListNotations.
Local Open Scope string_scope.
Local Open Scope list_scope.

Definition Mono (W : world) (f : nat) : Prop :=
  (forall en e r, ev W f en e = Some r -> ev W (S f) en e = Some r) /\
  (forall en es r, evs W f en es = Some r -> evs W (S f) en es = Some r) /\
  (forall n args c, inst W f n args = Some c -> inst W (S f) n args = Some c) /\
  (forall en ms c, things W f en ms = Some c -> things W (S f) en ms = Some c).

Ltac up :=
  match goal with
  | IH : (forall en e r, ev ?W ?f en e = Some r -> _), H : context [ev ?W ?f ?en ?e] |- _ =>
      let E := fresh in destruct (ev W f en e) as [?l|] eqn:E; [rewrite (IH _ _ _ E) | try discriminate H]
  | IH : (forall en es r, evs ?W ?f en es = Some r -> _), H : context [evs ?W ?f ?en ?e] |- _ =>
      let E := fresh in destruct (evs W f en e) as [?l|] eqn:E; [rewrite (IH _ _ _ E) | try discriminate H]
  | IH : (forall n args c, inst ?W ?f n args = Some c -> _), H : context [inst ?W ?f ?n ?a] |- _ =>
      let E := fresh in destruct (inst W f n a) as [?c|] eqn:E; [rewrite (IH _ _ _ E) | try discriminate H]
  | IH : (forall en ms c, things ?W ?f en ms = Some c -> _), H : context [things ?W ?f ?en ?ms] |- _ =>
      let E := fresh in destruct (things W f en ms) as [?c|] eqn:E; [rewrite (IH _ _ _ E) | try discriminate H]
  end.

Lemma mono : forall W f, Mono W f.
Proof.
  intros W f. induction f as [|f (I1 & I2 & I3 & I4)]; [repeat split; intros; discriminate|]. repeat split.
  - intros en e r H. cbn [ev] in H. remember (S f) as sf. cbn [ev]. subst sf. revert H. destruct e; intros H; try exact H.
    + destruct (single (subst en n)) as [[]|]; try discriminate H. up. up. exact H.
    + up. exact H.
    + up. exact H.
    + destruct (ev W f en e1) as [l1|] eqn:E1; [rewrite (I1 _ _ _ E1) | discriminate H].
      destruct (single (Some l1)) as [[]|]; try discriminate H. up. exact H.
    + destruct (ev W f en e1) as [l1|] eqn:E1; [rewrite (I1 _ _ _ E1) | discriminate H].
      destruct (single (Some l1)) as [[]|]; try discriminate H. up. exact H.
    + up. exact H.
  - intros en es r H. cbn [evs] in H. remember (S f) as sf. cbn [evs]. subst sf. destruct es; [exact H|]. up. up. exact H.
  - intros n args c H. cbn [inst] in H. remember (S f) as sf. cbn [inst]. subst sf.
    destruct (lookup n kl_templates) as [t|].
    + destruct (choose t args) as [[k en]|]; [|exact H].
      destruct (evs W f en (c_asserts k)) as [l|] eqn:E1; [rewrite (I2 _ _ _ E1) | discriminate H].
      destruct (existsb (ty_eqb (Num 0)) l); [exact H|].
      destruct (c_base k) as [[b bargs]|].
      * destruct b; try discriminate H. destruct (evs W f en bargs) as [l2|] eqn:E2; [rewrite (I2 _ _ _ E2) | discriminate H].
        destruct (inst W f n0 l2) as [c2|] eqn:E3; [rewrite (I3 _ _ _ E3) | discriminate H]. up. exact H.
      * up. exact H.
    + destruct (String.eqb n "std::conjunction"); [|exact H]. destruct args as [|[] rest]; try exact H.
      destruct (inst W f n0 args) as [c0|] eqn:E1; [rewrite (I3 _ _ _ E1) | discriminate H].
      destruct (lookup "value" c0) as [[[]|]|]; try discriminate H. destruct rest; [exact H|].
      destruct (N.eqb n1 0); [exact H|]. apply I3, H.
  - intros en ms c H. cbn [things] in H. remember (S f) as sf. cbn [things]. subst sf. destruct ms as [|[x [e|p m e]] ms]; [exact H| |].
    + up. destruct (single (Some l)); [|discriminate]. up. exact H.
    + up. exact H.
Qed.

Lemma inst_more : forall W g f n args c, f <= g -> inst W f n args = Some c -> inst W g n args = Some c.
Proof. intros W g f n args c L H. induction L as [|g L IH]; [exact H|]. apply (mono W g). exact IH. Qed.

Lemma evs_more : forall W g f en es r, f <= g -> evs W f en es = Some r -> evs W g en es = Some r.
Proof. intros W g f en es r L H. induction L as [|g L IH]; [exact H|]. apply (mono W g). exact IH. Qed.

Lemma inst_insts : forall W f n args c, inst W f n args = Some c -> Insts W n args c.
Proof. intros W f n args c H. exists f. intros g L. exact (inst_more W g f n args c L H). Qed.

Lemma insts_only : forall W n args c, Insts W n args c -> forall f d, inst W f n args = Some d -> d = c.
Proof. intros W n args c H f d I. exact (Insts_unique W n args d c (inst_insts _ _ _ _ _ I) H). Qed.

(** * type_pack *)

Lemma type_pack_size : forall W ts, has_member W "type_pack" ts "value" (Num (N.of_nat (length ts))).
Proof. intros W ts. eapply member_insts; [apply type_pack_insts | reflexivity]. Qed.

Lemma nested_iff : forall W n args c m x en ts k t, Insts W n args c -> lookup x en = Some ts ->
  lookup m c = Some (Inner en "N" "type" (Of (Tm "at_type") [T (Var "N"); T (Pack x)] "type")) -> x <> "N" ->
  Forall argument ts -> (nth_error ts (N.to_nat k) = Some t <-> has_nested W n args m k t).
Proof.
  intros W n args c m x en ts k t I Xt L Nx A. split; [apply (nested_at W n args c m x en); assumption|].
  intros (b & H). destruct (N.ltb_spec k (N.of_nat (length ts))) as [Lt|Ge].
  - destruct (nth_error ts (N.to_nat k)) as [u|] eqn:E; [|apply nth_error_None in E; lia].
    destruct (nested_at W n args c m x en ts k u I Xt L Nx A E) as (b2 & H2).
    specialize (H (Nat.max b b2) ltac:(lia)). specialize (H2 (Nat.max b b2) ltac:(lia)). congruence.
  - specialize (H b (le_n b)). rewrite (nested_at_none W n args c m x en ts k (insts_only _ _ _ _ I) Xt L Nx Ge b) in H. discriminate.
Qed.

Lemma type_pack_extract : forall W ts k t, Forall argument ts ->
  (nth_error ts (N.to_nat k) = Some t <-> has_nested W "type_pack" ts "extract" k t).
Proof. intros W ts k t A. eapply nested_iff with (x := "Ts") (en := [("Ts", ts)]); [apply type_pack_insts | reflexivity | reflexivity | discriminate | exact A]. Qed.

(** * func_traits *)

Definition fn_members (r : ty) (ts : list ty) : instance :=
  [("return_type", Is r); ("signature_type", Is (Fn r ts fq0)); ("args_type", Is (pack ts)); ("arity", Is (Num (N.of_nat (length ts))));
   ("arg", Inner [("Args", ts); ("Ret", [r])] "N" "type" (Of (Tm "at_type") [T (Var "N"); T (Pack "Args")] "type"))].
Definition of_class (c : option ty) : instance := match c with Some d => [("class_type", Is d)] | None => [] end.
Definition spec (t : template) (i : nat) : class := nth i (t_special t) (mkclass [] [] None []).

Lemma fq_eqb_eq : forall a b, fq_eqb a b = true -> a = b.
Proof. intros [[] [] [] [] []] [[] [] [] [] []] H; try reflexivity; discriminate H. Qed.

Lemma fn_insts : forall W r ts, argument r -> Insts W "func_traits" [Fn r ts fq0] (fn_members r ts).
Proof.
  intros W r ts A. eapply Insts_plain with (c := spec func_traits_t 0) (en := [("Args", ts); ("Ret", [r])]);
    [reflexivity | | apply Evs_nil | reflexivity | reflexivity |].
  - unfold choose, func_traits_t, matching. cbn. rewrite A. reflexivity.
  - unfold fn_members. cbn [c_members spec nth t_special func_traits_t].
    apply Ths_type; [apply Ev_T; reflexivity|].
    apply Ths_type; [apply Ev_T; cbn; rewrite app_nil_r; reflexivity|].
    apply Ths_type; [apply Ev_T; cbn; rewrite app_nil_r; reflexivity|].
    apply Ths_type; [apply Ev_Size; reflexivity|]. apply Ths_nested, Ths_nil.
Qed.

(** A specialization that inherits from another. *)
Lemma func_inherits : forall W F i own en a G inh,
  choose func_traits_t [F] = Some (spec func_traits_t i, en) ->
  c_asserts (spec func_traits_t i) = [] -> c_base (spec func_traits_t i) = Some (Tm "func_traits", [T a]) -> subst en a = Some [G] ->
  Ths W en (c_members (spec func_traits_t i)) own -> Insts W "func_traits" [G] inh -> Insts W "func_traits" [F] (own ++ inh).
Proof.
  intros W F i own en a G inh C As B Sa Th I.
  eapply Insts_base; [reflexivity | exact C | rewrite As; apply Evs_nil | reflexivity | exact B | | exact I | exact Th].
  change [G] with ([G] ++ []). apply Evs_cons; [apply Ev_T; exact Sa | apply Evs_nil].
Qed.

Lemma method_insts : forall W c r ts q, argument c -> argument r -> plain_or_const q ->
  Insts W "func_traits" [MemPtr c (Fn r ts q)] (("class_type", Is c) :: fn_members r ts).
Proof.
  intros W c r ts q Ac Ar Q. change (("class_type", Is c) :: fn_members r ts) with ([("class_type", Is c)] ++ fn_members r ts).
  destruct Q as [-> | ->].
  - eapply func_inherits with (i := 2) (en := [("Args", ts); ("Ret", [r]); ("Class", [c])]); [ | reflexivity | reflexivity | | | apply fn_insts; exact Ar].
    + unfold choose, func_traits_t, matching. cbn. rewrite Ac. cbn. rewrite Ar. reflexivity.
    + cbn. rewrite app_nil_r. reflexivity.
    + apply Ths_type; [apply Ev_T; reflexivity | apply Ths_nil].
  - eapply func_inherits with (i := 3) (en := [("Args", ts); ("Ret", [r]); ("Class", [c])]); [ | reflexivity | reflexivity | | | apply fn_insts; exact Ar].
    + unfold choose, func_traits_t, matching. cbn. rewrite Ac. cbn. rewrite Ar. reflexivity.
    + cbn. rewrite app_nil_r. reflexivity.
    + apply Ths_type; [apply Ev_T; reflexivity | apply Ths_nil].
Qed.

Lemma choose_primary : forall F, is_pack F = false -> matching (t_special func_traits_t) [F] = [] ->
  choose func_traits_t [F] = Some (prim func_traits_t, [("F", [F])]).
Proof.
  intros F A M. unfold choose. rewrite M. change (t_params func_traits_t) with [Var "F"]. cbn [deduce_list deduce]. rewrite A. cbn [bind_to lookup].
  change (t_primary func_traits_t) with (Some (prim func_traits_t)). cbv iota beta. change (c_args (prim func_traits_t)) with [Var "F"].
  cbn [deduce_list deduce]. rewrite ?A. reflexivity.
Qed.

Lemma class_matches_none : forall F, is_class (no_cv F) = true -> matching (t_special func_traits_t) [F] = [] /\ is_pack F = false /\ no_reference F = F.
Proof. intros F H. destruct F; try discriminate H; repeat split; reflexivity. Qed.

Lemma signature_insts : forall W F c r ts, signature W F c r ts -> Insts W "func_traits" [F] (of_class c ++ fn_members r ts).
Proof.
  intros W F c r ts H. induction H as [r ts Ar | r ts Ar | c r ts q Ac Ar Q | F d r ts q C Ad Ar Q Wc | t c r ts At H IH | t c r ts At H IH].
  - exact (fn_insts W r ts Ar).
  - change (of_class None ++ fn_members r ts) with ([] ++ fn_members r ts).
    eapply func_inherits with (i := 1) (en := [("Args", ts); ("Ret", [r])]); [ | reflexivity | reflexivity | | apply Ths_nil | apply fn_insts; exact Ar].
    + unfold choose, func_traits_t, matching. cbn. rewrite Ar. reflexivity.
    + cbn. rewrite app_nil_r. reflexivity.
  - exact (method_insts W c r ts q Ac Ar Q).
  - destruct (class_matches_none F C) as (M & P & R).
    change (of_class (Some d) ++ fn_members r ts) with ([] ++ (("class_type", Is d) :: fn_members r ts)).
    eapply Insts_base with (vs := []) (own := []); [reflexivity | apply choose_primary; assumption | apply Evs_nil | reflexivity | reflexivity | | apply (method_insts W d r ts q Ad Ar Q) | apply Ths_nil].
    apply (Evs_cons W _ _ _ [MemPtr d (Fn r ts q)] []); [|apply Evs_nil]. apply (Ev_CallOp W _ _ F); [|exact C | exact Wc].
    eapply Ev_Of; [reflexivity | apply (Evs_cons W _ _ _ [F] []); [apply Ev_T; reflexivity | apply Evs_nil] | apply Insts_std; reflexivity |].
    cbn [app]. rewrite R. reflexivity.
  - change (of_class c ++ fn_members r ts) with ([] ++ (of_class c ++ fn_members r ts)).
    eapply func_inherits with (i := 4) (en := [("F", [t])]); [ | reflexivity | reflexivity | reflexivity | apply Ths_nil | exact IH].
    unfold choose, func_traits_t, matching. cbn. rewrite At. reflexivity.
  - change (of_class c ++ fn_members r ts) with ([] ++ (of_class c ++ fn_members r ts)).
    eapply func_inherits with (i := 5) (en := [("F", [t])]); [ | reflexivity | reflexivity | reflexivity | apply Ths_nil | exact IH].
    unfold choose, func_traits_t, matching. cbn. rewrite At. reflexivity.
Qed.

(** The other direction. *)
Lemma primary_inst : forall W f F c, is_pack F = false -> matching (t_special func_traits_t) [F] = [] ->
  inst W (S f) "func_traits" [F] = Some c ->
  exists d s, is_class (no_cv (no_reference F)) = true /\ w_call W (no_cv (no_reference F)) = Some (d, s) /\
    inst W f "func_traits" [MemPtr d s] = Some c.
Proof.
  intros W f F c A M H. cbn [inst] in H. change (lookup "func_traits" kl_templates) with (Some func_traits_t) in H. cbv iota in H.
  rewrite (choose_primary F A M) in H. change (c_asserts (prim func_traits_t)) with (@nil ex) in H.
  change (c_base (prim func_traits_t)) with (Some (Tm "func_traits", [CallOp (Of (Tm "std::remove_reference") [T (Var "F")] "type")])) in H.
  change (c_members (prim func_traits_t)) with (@nil (string * member)) in H.
  destruct f as [|f]; [discriminate|]. change (evs W (S f) [("F", [F])] []) with (Some (@nil ty)) in H. cbn [existsb] in H.
  change (things W (S f) [("F", [F])] []) with (Some (@nil (string * thing))) in H.
  destruct (evs W (S f) [("F", [F])] [CallOp (Of (Tm "std::remove_reference") [T (Var "F")] "type")]) as [ws|] eqn:E; [|discriminate].
  assert (Ew : exists d s, is_class (no_cv (no_reference F)) = true /\ w_call W (no_cv (no_reference F)) = Some (d, s) /\ ws = [MemPtr d s]).
  { apply (evs_more W (6 + f)) in E; [|lia]. cbn [Nat.add] in E.
    remember (S (S (S (S f)))) as g. cbn [evs] in E.
    destruct (ev W (S g) [("F", [F])] (CallOp (Of (Tm "std::remove_reference") [T (Var "F")] "type"))) as [us|] eqn:V; [|discriminate E].
    rewrite app_nil_r in E. injection E as <-. subst g.
    cbn [ev] in V. change (single (subst [("F", [F])] (Tm "std::remove_reference"))) with (Some (Tm "std::remove_reference")) in V.
    cbn [evs ev] in V. change (subst [("F", [F])] (Var "F")) with (Some [F]) in V. cbn [app] in V.
    cbn [inst] in V. change (lookup "std::remove_reference" kl_templates) with (@None template) in V.
    change (String.eqb "std::remove_reference" "std::conjunction") with false in V. cbv iota in V.
    change (std_class "std::remove_reference" [F]) with (Some [("type", Is (no_reference F))]) in V. cbv iota in V.
    change (lookup "type" [("type", Is (no_reference F))]) with (Some (Is (no_reference F))) in V. cbn [single] in V.
    destruct (is_class (no_cv (no_reference F))); [|discriminate]. destruct (w_call W (no_cv (no_reference F))) as [[d s]|]; [|discriminate].
    injection V as <-. exists d, s. repeat split; reflexivity. }
  destruct Ew as (d & s & C & Wc & ->). exists d, s. repeat split; [exact C | exact Wc |].
  destruct (inst W (S f) "func_traits" [MemPtr d s]) as [inh|]; [|discriminate]. exact H.
Qed.

Lemma no_match_contra : forall W f F c, is_pack F = false -> matching (t_special func_traits_t) [F] = [] ->
  is_class (no_cv (no_reference F)) = false -> inst W f "func_traits" [F] = Some c -> False.
Proof.
  intros W f F c A M C H. destruct f as [|f]; [discriminate|]. destruct (primary_inst W f F c A M H) as (d & s & C2 & _). congruence.
Qed.

Lemma fn_matches : forall r ts q, matching (t_special func_traits_t) [Fn r ts q] = [] \/ (q = fq0 /\ argument r).
Proof.
  intros r ts q. destruct (fq_eqb fq0 q) eqn:Q; [|left; unfold func_traits_t, matching; cbn [t_special flat_map c_args deduce_list deduce]; rewrite Q; reflexivity].
  apply fq_eqb_eq in Q. subst q. destruct (is_pack r) eqn:A; [|right; split; [reflexivity | exact A]].
  left. unfold func_traits_t, matching. cbn [t_special flat_map c_args deduce_list deduce]. rewrite A. reflexivity.
Qed.

Lemma ptr_matches : forall t, matching (t_special func_traits_t) [Ptr t] = [] \/ exists r ts, t = Fn r ts fq0 /\ argument r.
Proof.
  intros t. destruct t as [| | | | | | |r ts q| | | | |]; try (left; reflexivity).
  destruct (fq_eqb fq0 q) eqn:Q; [|left; unfold func_traits_t, matching; cbn [t_special flat_map c_args deduce_list deduce]; rewrite Q; reflexivity].
  apply fq_eqb_eq in Q. subst q. destruct (is_pack r) eqn:A; [|right; exists r, ts; split; [reflexivity | exact A]].
  left. unfold func_traits_t, matching. cbn [t_special flat_map c_args deduce_list deduce]. rewrite A. reflexivity.
Qed.

Lemma method_matches : forall c t, matching (t_special func_traits_t) [MemPtr c t] = []
  \/ exists r ts q, t = Fn r ts q /\ argument c /\ argument r /\ plain_or_const q.
Proof.
  intros c t. destruct (is_pack c) eqn:A.
  { left. unfold func_traits_t, matching. cbn [t_special flat_map c_args deduce_list deduce]. rewrite A. reflexivity. }
  destruct t as [| | | | | | |r ts q| | | | |];
    try (left; unfold func_traits_t, matching; cbn [t_special flat_map c_args deduce_list deduce]; rewrite A; reflexivity).
  destruct (is_pack r) eqn:Ar.
  { left. unfold func_traits_t, matching. cbn [t_special flat_map c_args deduce_list deduce]. rewrite A. cbn [bind_to lookup]. rewrite Ar.
    destruct (fq_eqb fq0 q), (fq_eqb fq_const q); reflexivity. }
  destruct (fq_eqb fq0 q) eqn:Q; [apply fq_eqb_eq in Q; right; exists r, ts, q; repeat split; try assumption; left; symmetry; exact Q|].
  destruct (fq_eqb fq_const q) eqn:Q2; [apply fq_eqb_eq in Q2; right; exists r, ts, q; repeat split; try assumption; right; symmetry; exact Q2|].
  left. unfold func_traits_t, matching. cbn [t_special flat_map c_args deduce_list deduce]. rewrite A. cbn [bind_to lookup]. rewrite Q, Q2. reflexivity.
Qed.

Lemma ref_inst : forall W f F t c i, choose func_traits_t [F] = Some (spec func_traits_t i, [("F", [t])]) -> i = 4 \/ i = 5 ->
  inst W (S f) "func_traits" [F] = Some c -> inst W f "func_traits" [t] = Some c.
Proof.
  intros W f F t c i C I H. cbn [inst] in H. change (lookup "func_traits" kl_templates) with (Some func_traits_t) in H. cbv iota in H. rewrite C in H.
  assert (E : c_asserts (spec func_traits_t i) = [] /\ c_base (spec func_traits_t i) = Some (Tm "func_traits", [T (Var "F")]) /\ c_members (spec func_traits_t i) = [])
    by (destruct I as [-> | ->]; repeat split).
  destruct E as (E1 & E2 & E3). rewrite E1, E2, E3 in H. destruct f as [|f]; [discriminate|].
  change (evs W (S f) [("F", [t])] []) with (Some (@nil ty)) in H. cbn [existsb] in H.
  change (things W (S f) [("F", [t])] []) with (Some (@nil (string * thing))) in H.
  destruct (evs W (S f) [("F", [t])] [T (Var "F")]) as [ws|] eqn:E; [|discriminate].
  assert (Ew : ws = [t]).
  { apply (evs_more W (3 + f)) in E; [|lia]. cbn [Nat.add evs ev] in E. injection E as <-. reflexivity. }
  subst ws. destruct (inst W (S f) "func_traits" [t]) as [inh|]; [|discriminate]. exact H.
Qed.

Lemma choose_lref : forall t, argument t -> choose func_traits_t [Lref t] = Some (spec func_traits_t 4, [("F", [t])]).
Proof. intros t A. unfold choose, func_traits_t, matching. cbn. rewrite A. reflexivity. Qed.
Lemma choose_rref : forall t, argument t -> choose func_traits_t [Rref t] = Some (spec func_traits_t 5, [("F", [t])]).
Proof. intros t A. unfold choose, func_traits_t, matching. cbn. rewrite A. reflexivity. Qed.

Lemma inst_signature : forall W f F c, inst W f "func_traits" [F] = Some c -> exists cl r ts, signature W F cl r ts.
Proof.
  intros W. induction f as [|f IH]; intros F c H; [discriminate|].
  assert (Obj : is_pack F = false -> matching (t_special func_traits_t) [F] = [] -> no_reference F = F -> exists cl r ts, signature W F cl r ts).
  { intros A M R. destruct (primary_inst W f F c A M H) as (d & s & C & Wc & I). rewrite R in C, Wc.
    destruct (IH _ _ I) as (cl & r & ts & Sg). inversion Sg as [| |? ? ? q Ac Ar Q|? ? ? ? ? Cl| |]; subst; [|discriminate Cl].
    exists (Some d), r, ts. exact (sig_object W F d r ts q C Ac Ar Q Wc). }
  destruct F as [n|n us|cc vv t|t|t|t|cl t|r ts q|n|cl t n|n|n|n].
  - apply Obj; reflexivity.
  - apply Obj; reflexivity.
  - apply Obj; reflexivity.
  - destruct (is_pack t) eqn:A.
    + exfalso. apply (no_match_contra W (S f) (Lref t) c); [reflexivity | | destruct t; try discriminate A; reflexivity | exact H].
      unfold func_traits_t, matching. cbn. rewrite A. reflexivity.
    + destruct (IH _ _ (ref_inst W f _ t c 4 (choose_lref t A) (or_introl eq_refl) H)) as (cl & r & ts & Sg).
      exists cl, r, ts. apply sig_lref; assumption.
  - destruct (is_pack t) eqn:A.
    + exfalso. apply (no_match_contra W (S f) (Rref t) c); [reflexivity | | destruct t; try discriminate A; reflexivity | exact H].
      unfold func_traits_t, matching. cbn. rewrite A. reflexivity.
    + destruct (IH _ _ (ref_inst W f _ t c 5 (choose_rref t A) (or_intror eq_refl) H)) as (cl & r & ts & Sg).
      exists cl, r, ts. apply sig_rref; assumption.
  - destruct (ptr_matches t) as [M | (r & ts & -> & A)]; [|exists None, r, ts; apply sig_pointer, A].
    exfalso. exact (no_match_contra W (S f) (Ptr t) c eq_refl M eq_refl H).
  - destruct (method_matches cl t) as [M | (r & ts & q & -> & Ac & Ar & Q)]; [|exists (Some cl), r, ts; apply sig_method; assumption].
    exfalso. exact (no_match_contra W (S f) (MemPtr cl t) c eq_refl M eq_refl H).
  - destruct (fn_matches r ts q) as [M | (-> & A)]; [|exists None, r, ts; apply sig_function, A].
    exfalso. exact (no_match_contra W (S f) (Fn r ts q) c eq_refl M eq_refl H).
  - exfalso. exact (no_match_contra W (S f) (Num n) c eq_refl eq_refl eq_refl H).
  - exfalso. exact (no_match_contra W (S f) (Member cl t n) c eq_refl eq_refl eq_refl H).
  - exfalso. exact (no_match_contra W (S f) (Tm n) c eq_refl eq_refl eq_refl H).
  - exfalso. exact (no_match_contra W (S f) (Var n) c eq_refl eq_refl eq_refl H).
  - discriminate H.
Qed.

Lemma func_traits_ill : forall W F, (forall c r ts, ~ signature W F c r ts) -> ill_formed W "func_traits" [F].
Proof.
  intros W F N f. destruct (inst W f "func_traits" [F]) as [c|] eqn:I; [|reflexivity].
  destruct (inst_signature W f F c I) as (cl & r & ts & Sg). exfalso. exact (N cl r ts Sg).
Qed.

Lemma lookup_class : forall c r ts m, m <> "class_type" -> lookup m (of_class c ++ fn_members r ts) = lookup m (fn_members r ts).
Proof.
  intros [d|] r ts m Hm; [|reflexivity]. cbn [of_class app lookup]. destruct (String.eqb_spec m "class_type"); [contradiction | reflexivity].
Qed.

Lemma func_traits_members : forall W F c r ts, signature W F c r ts -> Forall argument ts ->
  has_member W "func_traits" [F] "return_type" r /\
  has_member W "func_traits" [F] "signature_type" (Fn r ts fq0) /\
  has_member W "func_traits" [F] "args_type" (pack ts) /\
  has_member W "func_traits" [F] "arity" (Num (N.of_nat (length ts))) /\
  (forall k t, nth_error ts (N.to_nat k) = Some t <-> has_nested W "func_traits" [F] "arg" k t) /\
  match c with
  | Some d => has_member W "func_traits" [F] "class_type" d
  | None => no_member W "func_traits" [F] "class_type"
  end.
Proof.
  intros W F c r ts H A. pose proof (signature_insts W F c r ts H) as I.
  split; [eapply member_insts; [exact I | rewrite lookup_class by discriminate; reflexivity]|].
  split; [eapply member_insts; [exact I | rewrite lookup_class by discriminate; reflexivity]|].
  split; [eapply member_insts; [exact I | rewrite lookup_class by discriminate; reflexivity]|].
  split; [eapply member_insts; [exact I | rewrite lookup_class by discriminate; reflexivity]|].
  split.
  - intros k t. eapply nested_iff with (x := "Args") (en := [("Args", ts); ("Ret", [r])]);
      [exact I | reflexivity | rewrite lookup_class by discriminate; reflexivity | discriminate | exact A].
  - destruct c as [d|]; [eapply member_insts; [exact I | reflexivity]|].
    intros f. unfold member_of. destruct (inst W f "func_traits" [F]) as [c2|] eqn:E; [|reflexivity].
    rewrite (insts_only _ _ _ _ I f c2 E). reflexivity.
Qed.

(** * Equality of types *)

Section Ind.
Variable P : ty -> Prop.
Hypothesis H1 : forall n, P (Name n).
Hypothesis H2 : forall n ts, Forall P ts -> P (App n ts).
Hypothesis H3 : forall c v t, P t -> P (Cv c v t).
Hypothesis H4 : forall t, P t -> P (Lref t).
Hypothesis H5 : forall t, P t -> P (Rref t).
Hypothesis H6 : forall t, P t -> P (Ptr t).
Hypothesis H7 : forall c t, P c -> P t -> P (MemPtr c t).
Hypothesis H8 : forall r ts q, P r -> Forall P ts -> P (Fn r ts q).
Hypothesis H9 : forall n, P (Num n).
Hypothesis H10 : forall c t n, P c -> P t -> P (Member c t n).
Hypothesis H11 : forall n, P (Tm n).
Hypothesis H12 : forall n, P (Var n).
Hypothesis H13 : forall n, P (Pack n).
Fixpoint ty_rect' (t : ty) : P t :=
  let fix go (ts : list ty) : Forall P ts :=
    match ts with [] => Forall_nil P | t :: ts' => Forall_cons t (ty_rect' t) (go ts') end in
  match t with
  | Name n => H1 n
  | App n ts => H2 n ts (go ts)
  | Cv c v t => H3 c v t (ty_rect' t)
  | Lref t => H4 t (ty_rect' t)
  | Rref t => H5 t (ty_rect' t)
  | Ptr t => H6 t (ty_rect' t)
  | MemPtr c t => H7 c t (ty_rect' c) (ty_rect' t)
  | Fn r ts q => H8 r ts q (ty_rect' r) (go ts)
  | Num n => H9 n
  | Member c t n => H10 c t n (ty_rect' c) (ty_rect' t)
  | Tm n => H11 n
  | Var n => H12 n
  | Pack n => H13 n
  end.
End Ind.

Lemma ty_eqb_app : forall n m xs ys, ty_eqb (App n xs) (App m ys) = String.eqb n m && tys_eqb xs ys.
Proof. reflexivity. Qed.
Lemma ty_eqb_fn : forall r s xs ys p q, ty_eqb (Fn r xs p) (Fn s ys q) = ty_eqb r s && tys_eqb xs ys && fq_eqb p q.
Proof. reflexivity. Qed.

Lemma tys_eqb_eq : forall xs, Forall (fun x => forall y, ty_eqb x y = true <-> x = y) xs -> forall ys, tys_eqb xs ys = true <-> xs = ys.
Proof.
  intros xs F. induction F as [|x xs H F IH]; intros [|y ys]; try (split; [reflexivity + discriminate | reflexivity + discriminate]).
  cbn [tys_eqb]. rewrite Bool.andb_true_iff, (H y), (IH ys). split; [intros [-> ->]; reflexivity | intros E; injection E as -> ->; split; reflexivity].
Qed.

Lemma fq_eqb_refl : forall q, fq_eqb q q = true.
Proof. intros [[] [] [] [] []]; reflexivity. Qed.

Lemma ty_eqb_eq : forall x y, ty_eqb x y = true <-> x = y.
Proof.
  induction x as [n|n ts F|c v t IH|t IH|t IH|t IH|c t IHc IH|r ts q IHr F|n|c t n IHc IH|n|n|n] using ty_rect'; intros y; destruct y;
    try (split; intros H; discriminate H);
    try (cbn [ty_eqb]; rewrite IH; split; [intros ->; reflexivity | intros E; injection E as ->; reflexivity]);
    try (cbn [ty_eqb]; rewrite String.eqb_eq; split; [intros ->; reflexivity | intros E; injection E as ->; reflexivity]).
  - rewrite ty_eqb_app, Bool.andb_true_iff, String.eqb_eq, (tys_eqb_eq ts F). split; [intros [-> ->]; reflexivity | intros E; injection E as -> ->; split; reflexivity].
  - cbn [ty_eqb]. rewrite !Bool.andb_true_iff, IH, !Bool.eqb_true_iff. split; [intros [[-> ->] ->]; reflexivity | intros E; injection E as -> -> ->; repeat split].
  - cbn [ty_eqb]. rewrite Bool.andb_true_iff, IHc, IH. split; [intros [-> ->]; reflexivity | intros E; injection E as -> ->; split; reflexivity].
  - rewrite ty_eqb_fn, !Bool.andb_true_iff, IHr, (tys_eqb_eq ts F). split; [intros [[-> ->] Q]; apply fq_eqb_eq in Q; subst; reflexivity|].
    intros E; injection E as -> -> ->; repeat split. apply fq_eqb_refl.
  - cbn [ty_eqb]. rewrite N.eqb_eq. split; [intros ->; reflexivity | intros E; injection E as ->; reflexivity].
  - cbn [ty_eqb]. rewrite !Bool.andb_true_iff, IHc, IH, String.eqb_eq. split; [intros [[-> ->] ->]; reflexivity | intros E; injection E as -> -> ->; repeat split].
Qed.

(** * is_same *)

Fixpoint same (a : ty) (ts : list ty) : bool := match ts with [] => true | b :: ts' => ty_eqb a b && same b ts' end.

Lemma is_same_insts : forall W ts a b, argument a -> argument b -> Forall argument ts ->
  Insts W "is_same" (a :: b :: ts) [("value", Is (number (same a (b :: ts))))].
Proof.
  intros W. induction ts as [|c ts IH]; intros a b Aa Ab At.
  - change [("value", Is (number (same a [b])))] with ([] ++ [("value", Is (number (same a [b])))]).
    eapply Insts_base with (c := spec is_same_t 0) (en := [("U", [b]); ("T", [a])]) (vs := []) (own := []);
      [reflexivity | | apply Evs_nil | reflexivity | reflexivity | | | apply Ths_nil].
    + unfold choose, is_same_t, matching. cbn [t_params t_special flat_map c_args deduce_list deduce]. rewrite Aa. cbn. rewrite Ab. reflexivity.
    + apply (Evs_cons W _ _ _ [number (ty_eqb a b)] []); [|apply Evs_nil].
      eapply Ev_Of; [reflexivity | apply (Evs_cons W _ _ _ [a] [b]); [apply Ev_T; reflexivity|]; apply (Evs_cons W _ _ _ [b] []); [apply Ev_T; reflexivity | apply Evs_nil]
        | apply Insts_std; reflexivity | reflexivity].
    + cbn [app same]. rewrite Bool.andb_true_r. apply Insts_std; destruct (ty_eqb a b); reflexivity.
  - inversion At as [|? ? Ac At']; subst. specialize (IH b c Ab Ac At').
    change (same a (b :: c :: ts)) with (ty_eqb a b && same b (c :: ts)).
    change [("value", Is (number (ty_eqb a b && same b (c :: ts))))] with ([] ++ [("value", Is (number (ty_eqb a b && same b (c :: ts))))]).
    eapply Insts_base with (c := prim is_same_t) (en := [("Rest", c :: ts); ("U", [b]); ("T", [a])]) (vs := []) (own := []);
      [reflexivity | | apply Evs_nil | reflexivity | reflexivity | | | apply Ths_nil].
    + unfold choose, is_same_t, matching. cbn [t_params t_special flat_map c_args deduce_list deduce]. repeat (rewrite ?Aa, ?Ab; cbn). reflexivity.
    + apply (Evs_cons W _ _ _ [number (negb (N.eqb (if ty_eqb a b then 1 else 0) 0) && negb (N.eqb (if same b (c :: ts) then 1 else 0) 0))] []); [|apply Evs_nil].
      apply Ev_Both.
      * eapply Ev_Of; [reflexivity | apply (Evs_cons W _ _ _ [a] [b]); [apply Ev_T; reflexivity|]; apply (Evs_cons W _ _ _ [b] []); [apply Ev_T; reflexivity | apply Evs_nil]
          | apply Insts_std; reflexivity | reflexivity].
      * eapply Ev_Of; [reflexivity | | exact IH | reflexivity].
        replace (b :: c :: ts) with ([b] ++ ((c :: ts) ++ [])) by (rewrite app_nil_r; reflexivity).
        apply Evs_cons; [apply Ev_T; reflexivity|]. apply Evs_cons; [apply Ev_T; reflexivity | apply Evs_nil].
    + cbn [app]. apply Insts_std; [reflexivity | reflexivity |]. destruct (ty_eqb a b), (same b (c :: ts)); reflexivity.
Qed.

Lemma same_all : forall ts a, same a ts = true <-> (forall x, In x ts -> x = a).
Proof.
  induction ts as [|b ts IH]; intros a; [split; [intros _ x []| reflexivity]|].
  cbn [same]. rewrite Bool.andb_true_iff, ty_eqb_eq, (IH b). split.
  - intros [-> H] x [->|I]; [reflexivity | exact (H x I)].
  - intros H. pose proof (H b (or_introl eq_refl)) as ->. split; [reflexivity|]. intros x I. exact (H x (or_intror I)).
Qed.

Lemma is_same_exact : forall W a b ts, Forall argument (a :: b :: ts) ->
  exists v, has_member W "is_same" (a :: b :: ts) "value" (number v) /\ (v = true <-> all_equal (a :: b :: ts)).
Proof.
  intros W a b ts A. inversion A as [|? ? Aa A2]; subst. inversion A2 as [|? ? Ab A3]; subst.
  exists (same a (b :: ts)). split; [eapply member_insts; [apply is_same_insts; assumption | reflexivity]|].
  rewrite same_all. split.
  - intros H x y [<-|Ix] [<-|Iy]; try reflexivity; [symmetry; exact (H y Iy) | exact (H x Ix) | rewrite (H x Ix), (H y Iy); reflexivity].
  - intros H x I. apply H; [right; exact I | left; reflexivity].
Qed.

(** * Others *)

Lemma member_pointer_members : forall W c t n, argument c -> argument t ->
  has_member W "member_pointer_traits" [Member c t n] "value_type" t /\
  has_member W "member_pointer_traits" [Member c t n] "class_type" c.
Proof.
  intros W c t n Ac At.
  assert (I : Insts W "member_pointer_traits" [Member c t n] [("value_type", Is t); ("class_type", Is c)]).
  { eapply Insts_plain with (c := spec member_pointer_traits_t 0) (en := [("Ptr", [Member c t n]); ("Value", [t]); ("Class", [c])]);
      [reflexivity | | apply Evs_nil | reflexivity | reflexivity |].
    - unfold choose, member_pointer_traits_t, matching. cbn [t_params t_special flat_map c_args deduce_list deduce]. rewrite Ac. cbn. rewrite At. reflexivity.
    - apply Ths_type; [apply Ev_T; reflexivity|]. apply Ths_type; [apply Ev_T; reflexivity | apply Ths_nil]. }
  split; (eapply member_insts; [exact I | reflexivity]).
Qed.

Lemma remove_cvref_member : forall W t, argument t -> has_member W "remove_cvref" [t] "type" (no_cv (no_reference t)).
Proof.
  intros W t A. eapply member_insts with (c := [("type", Is (no_cv (no_reference t)))]); [|reflexivity].
  eapply Insts_plain with (c := prim remove_cvref_t) (en := [("T", [t])]); [reflexivity | | apply Evs_nil | reflexivity | reflexivity |].
  - unfold choose, remove_cvref_t, matching. cbn [t_params t_special t_primary flat_map c_args deduce_list deduce]. rewrite A. reflexivity.
  - apply Ths_type; [|apply Ths_nil]. eapply Ev_Of with (vs := [no_reference t]); [reflexivity | | apply Insts_std; reflexivity | reflexivity].
    apply (Evs_cons W _ _ _ [no_reference t] []); [|apply Evs_nil].
    eapply Ev_Of with (vs := [t]); [reflexivity | apply (Evs_cons W _ _ _ [t] []); [apply Ev_T; reflexivity | apply Evs_nil] | apply Insts_std; reflexivity | reflexivity].
Qed.

(** * enable_if *)

Lemma member_inst : forall W n args m t, has_member W n args m t -> exists c, Insts W n args c /\ lookup m c = Some (Is t).
Proof.
  intros W n args m t (k & H). specialize (H k (le_n k)). unfold member_of in H.
  destruct (inst W k n args) as [c|] eqn:E; [|discriminate]. exists c. split; [exact (inst_insts W k n args c E)|].
  destruct (lookup m c) as [[u|]|]; [injection H as ->; reflexivity | discriminate | discriminate].
Qed.

Lemma conjunction_value : forall W ts v, conditions W ts v ->
  exists c k, Insts W "std::conjunction" ts c /\ lookup "value" c = Some (Is (Num k)) /\ (k <> 0%N <-> v = true).
Proof.
  intros W ts v H. induction H as [|b bs k rest v Hk Hv H IH|b bs rest Hv].
  - exists [("value", Is (Num 1))], 1%N. split; [step 0; reflexivity|]. split; [reflexivity|]. split; [reflexivity | discriminate].
  - destruct (member_inst _ _ _ _ _ Hv) as (c & (k1 & I) & L). destruct rest as [|x rest].
    + exists c, k. split; [|split; [exact L|]].
      * step k1. cbn [inst]. change (lookup "std::conjunction" kl_templates) with (@None template). cbv iota.
        change (String.eqb "std::conjunction" "std::conjunction") with true. cbv iota. rewrite I by lia. rewrite L. reflexivity.
      * inversion H; subst. split; [reflexivity | intros _; exact Hk].
    + destruct IH as (d & j & (k2 & I2) & L2 & Hj). exists d, j. split; [|split; assumption].
      step (Nat.max k1 k2). cbn [inst]. change (lookup "std::conjunction" kl_templates) with (@None template). cbv iota.
      change (String.eqb "std::conjunction" "std::conjunction") with true. cbv iota. rewrite I by lia. rewrite L.
      replace (N.eqb k 0) with false by (symmetry; apply N.eqb_neq, Hk). apply I2. lia.
  - destruct (member_inst _ _ _ _ _ Hv) as (c & (k1 & I) & L). exists c, 0%N. split; [|split; [exact L|]].
    + step k1. cbn [inst]. change (lookup "std::conjunction" kl_templates) with (@None template). cbv iota.
      change (String.eqb "std::conjunction" "std::conjunction") with true. cbv iota. rewrite I by lia. rewrite L. destruct rest; reflexivity.
    + split; [intros E; contradiction E; reflexivity | discriminate].
Qed.

Lemma enable_args : forall W ts v, conditions W ts v -> exists k, (k <> 0%N <-> v = true) /\
  Evs W [("Ts", ts)] [Of (Tm "std::conjunction") [T (Pack "Ts")] "value"; T (Name "bool")] [Num k; Name "bool"].
Proof.
  intros W ts v H. destruct (conjunction_value W ts v H) as (c & k & I & L & K). exists k. split; [exact K|].
  apply (Evs_cons W _ _ _ [Num k] [Name "bool"]).
  - eapply Ev_Of with (vs := ts); [reflexivity | | exact I | exact L].
    replace ts with (ts ++ []) at 2 by apply app_nil_r. apply Evs_cons; [apply Ev_T; reflexivity | apply Evs_nil].
  - apply (Evs_cons W _ _ _ [Name "bool"] []); [apply Ev_T; reflexivity | apply Evs_nil].
Qed.

Lemma enable_if_true : forall W ts, conditions W ts true -> has_member W "enable_if" ts "type" (Name "bool").
Proof.
  intros W ts H. destruct (enable_args W ts true H) as (k & K & E).
  eapply member_insts with (c := [("type", Is (Name "bool"))]); [|reflexivity].
  eapply Insts_plain with (c := prim enable_if_t) (en := [("Ts", ts)]); [reflexivity | reflexivity | apply Evs_nil | reflexivity | reflexivity |].
  apply Ths_type; [|apply Ths_nil]. eapply Ev_Of; [reflexivity | exact E | apply Insts_std; reflexivity |].
  replace (N.eqb k 0) with false by (symmetry; apply N.eqb_neq, K; reflexivity). reflexivity.
Qed.

Lemma enable_if_false : forall W ts, conditions W ts false -> ill_formed W "enable_if" ts.
Proof.
  intros W ts H. destruct (enable_args W ts false H) as (k & K & (g & E)).
  assert (Hk : k = 0%N) by (destruct (N.eq_dec k 0) as [e|n]; [exact e | apply K in n; discriminate n]). subst k.
  intros f. destruct (inst W f "enable_if" ts) as [c|] eqn:I; [|reflexivity]. exfalso.
  apply (inst_more W (4 + f + g)) in I; [|lia]. cbn [Nat.add inst] in I.
  change (lookup "enable_if" kl_templates) with (Some enable_if_t) in I. cbv iota in I.
  change (choose enable_if_t ts) with (Some (prim enable_if_t, [("Ts", ts)])) in I. cbv iota beta in I.
  unfold prim, enable_if_t in I. cbn [t_primary c_asserts c_base c_members things ev] in I.
  rewrite E in I by lia. cbn in I. discriminate I.
Qed.

Lemma remove_cvref_bare : forall W t u, bare t -> referring t u -> has_member W "remove_cvref" [u] "type" t.
Proof.
  intros W t u B R. assert (E : no_cv (no_reference u) = t /\ argument u).
  { destruct R as [u Q|u Q|u Q]; destruct Q; split; destruct t; try destruct B; reflexivity. }
  destruct E as [<- A]. apply remove_cvref_member, A.
Qed.

Lemma is_same_few : forall W ts, length ts < 2 -> ill_formed W "is_same" ts.
Proof.
  intros W ts L f. destruct f as [|f]; [reflexivity|]. destruct ts as [|a [|b ts]]; [reflexivity | | cbn in L; lia].
  cbn [inst]. change (lookup "is_same" kl_templates) with (Some is_same_t). cbv iota.
  destruct (is_pack a) eqn:A; [destruct a; try discriminate A; reflexivity|].
  replace (choose is_same_t [a]) with (@None (class * env)); [reflexivity|].
  unfold choose, is_same_t, matching. cbn. rewrite A. reflexivity.
Qed.
