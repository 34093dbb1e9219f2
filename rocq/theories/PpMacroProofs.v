(** What the general macros of detail/macros.hpp do with arguments that are already
    expanded. *)
From Coq Require Import String List Arith Bool Lia.
From Verif Require Import PpModel PpSpec PpProofs.
Import ListNotations.
Local Open Scope list_scope.
Local Open Scope string_scope.

Definition shut (v : list tok) : Prop := closed 0 v = true.

Lemma sim_closed : forall E G o v, sim E G o v -> shut v -> closed 0 (strip o) = true.
Proof. intros E G o v [A _] C. rewrite A. exact C. Qed.

Lemma from_mem : forall m h1 h n, from m h1 h -> String.eqb n m = false -> mem n h1 = false -> mem n h = false.
Proof.
  intros m h1 h n Fr N M. destruct (mem n h) eqn:B; [|reflexivity]. destruct (Fr n B) as [-> | C]; [|congruence].
  rewrite String.eqb_refl in N. discriminate.
Qed.

(** Arguments in front of us. *)
Ltac coll :=
  cbn [app collect];
  repeat (rewrite collect_seg by assumption; cbn [app collect]);
  cbn [rev app]; rewrite ?app_nil_r;
  repeat (rewrite rev_app_distr || rewrite rev_involutive || (rewrite <- app_assoc; cbn [rev app]));
  cbn [rev app]; reflexivity.

(** Hide sets. *)
Ltac fr :=
  match goal with
  | H : free ?F ?h |- free ?F ?h => exact H
  | H : mem ?n ?h = false |- mem ?n ?h = false => exact H
  | H : free ?F ?h |- mem ?n ?h = false => exact (free_mem F h n H eq_refl)
  | H : free ?F ?h |- free ?G ?h => exact (free_sub F G h H eq_refl)
  | H : from ?m ?h1 ?h |- free ?F ?h => apply (from_free F m h1 h H); fr
  | H : from ?m ?h1 ?h |- mem ?n ?h = false => apply (from_mem m h1 h n H); [first [reflexivity | assumption] | fr]
  | |- mem _ _ = false => reflexivity
  end.

Ltac seg x y S L :=
  match goal with
  | S1 : sim ?E ?G x ?v, C : shut ?v |- context [hsadd ?h' x] =>
      assert (S : sim E G (hsadd h' x) v) by (apply sim_hsadd; [fr | exact S1]);
      pose proof (sim_closed E G (hsadd h' x) v S C) as L;
      generalize dependent (hsadd h' x); intros y S L
  end.

Ltac body h' H :=
  intros h' H; unfold tag;
  cbn [map fst snd combine flat_map as_param assoc String.eqb Ascii.eqb Bool.eqb];
  rewrite <- ?app_assoc; cbn [app].

(** * A macro that only calls one of Boost with its parameters *)

Section Wrap.
Variables (E : penv) (G : list string) (K B : string) (b : builtin).
Hypothesis LB : lookup E B = Some (Builtin b).
Hypothesis KB : String.eqb B K = false.
Hypothesis KG : mem K G = false.
Hypothesis BG : mem B G = false.

Lemma wrap1 : forall p h hl rest1 a1 h1 rest2 v1 r P,
  lookup E K = Some (Fun [p] false [Id B; LP; Id p; RP]) -> String.eqb B p = false ->
  mem K h = false -> collect 0 [] rest1 = Some ([a1], h1, rest2) ->
  mem B h1 = false -> free G h1 ->
  Val E G a1 v1 -> shut v1 -> dormant E v1 ->
  (forall x1, sim E G x1 v1 ->
     exists out, (forall h', builtin_text E b B h' [x1] = Some (out, B)) /\ sim E G out r) ->
  (forall o, sim E G o r -> Run E (o ++ rest2) P) ->
  Run E ((Id K, h) :: (LP, hl) :: rest1) P.
Proof.
  intros p h hl rest1 a1 h1 rest2 v1 r P LK N1 M C F FG (x1 & X1 & S1) C1 D1 T Kn.
  eapply run_fun with (ex := [x1]); [exact M | exact LK | reflexivity | exact C | reflexivity | repeat constructor; assumption |].
  body h' Fr. rewrite N1, String.eqb_refl. cbn [app].
  seg x1 y1 T1 L1. destruct (val_dormant E G y1 v1 T1 D1) as (z1 & Z1 & U1).
  destruct (T z1 U1) as (out & Bt & So). rewrite <- ?app_assoc. cbn [app].
  eapply run_builtin with (ex := [z1]); [fr | exact LB | coll | repeat constructor; assumption | exact Bt |].
  intros h2 Fr2. apply Kn. apply sim_hsadd; [fr | exact So].
Qed.

Lemma wrap2 : forall p1 p2 h hl rest1 a1 a2 h1 rest2 v1 v2 r P,
  lookup E K = Some (Fun [p1; p2] false [Id B; LP; Id p1; Comma; Id p2; RP]) ->
  String.eqb B p1 = false -> String.eqb B p2 = false -> String.eqb p2 p1 = false ->
  mem K h = false -> collect 0 [] rest1 = Some ([a1; a2], h1, rest2) ->
  mem B h1 = false -> free G h1 ->
  Val E G a1 v1 -> shut v1 -> dormant E v1 -> Val E G a2 v2 -> shut v2 -> dormant E v2 ->
  (forall x1 x2, sim E G x1 v1 -> sim E G x2 v2 ->
     exists out, (forall h', builtin_text E b B h' [x1; x2] = Some (out, B)) /\ sim E G out r) ->
  (forall o, sim E G o r -> Run E (o ++ rest2) P) ->
  Run E ((Id K, h) :: (LP, hl) :: rest1) P.
Proof.
  intros p1 p2 h hl rest1 a1 a2 h1 rest2 v1 v2 r P LK N1 N2 N3 M C F FG (x1 & X1 & S1) C1 D1
    (x2 & X2 & S2) C2 D2 T Kn.
  eapply run_fun with (ex := [x1; x2]); [exact M | exact LK | reflexivity | exact C | reflexivity | repeat constructor; assumption |].
  body h' Fr. rewrite N1, N2, N3, !String.eqb_refl. rewrite <- ?app_assoc. cbn [app]. rewrite <- ?app_assoc. cbn [app].
  seg x1 y1 T1 L1. seg x2 y2 T2 L2.
  destruct (val_dormant E G y1 v1 T1 D1) as (z1 & Z1 & U1).
  destruct (val_dormant E G y2 v2 T2 D2) as (z2 & Z2 & U2).
  destruct (T z1 z2 U1 U2) as (out & Bt & So).
  eapply run_builtin with (ex := [z1; z2]); [fr | exact LB | coll | repeat constructor; assumption | exact Bt |].
  intros h2 Fr2. apply Kn. apply sim_hsadd; [fr | exact So].
Qed.

Lemma wrap3 : forall p1 p2 p3 h hl rest1 a1 a2 a3 h1 rest2 v1 v2 v3 r P,
  lookup E K = Some (Fun [p1; p2; p3] false [Id B; LP; Id p1; Comma; Id p2; Comma; Id p3; RP]) ->
  String.eqb B p1 = false -> String.eqb B p2 = false -> String.eqb B p3 = false ->
  String.eqb p2 p1 = false -> String.eqb p3 p1 = false -> String.eqb p3 p2 = false ->
  mem K h = false -> collect 0 [] rest1 = Some ([a1; a2; a3], h1, rest2) ->
  mem B h1 = false -> free G h1 ->
  Val E G a1 v1 -> shut v1 -> dormant E v1 -> Val E G a2 v2 -> shut v2 -> dormant E v2 ->
  Val E G a3 v3 -> shut v3 -> dormant E v3 ->
  (forall x1 x2 x3, sim E G x1 v1 -> sim E G x2 v2 -> sim E G x3 v3 ->
     exists out, (forall h', builtin_text E b B h' [x1; x2; x3] = Some (out, B)) /\ sim E G out r) ->
  (forall o, sim E G o r -> Run E (o ++ rest2) P) ->
  Run E ((Id K, h) :: (LP, hl) :: rest1) P.
Proof.
  intros p1 p2 p3 h hl rest1 a1 a2 a3 h1 rest2 v1 v2 v3 r P LK N1 N2 N3 N4 N5 N6 M C F FG (x1 & X1 & S1) C1 D1
    (x2 & X2 & S2) C2 D2 (x3 & X3 & S3) C3 D3 T Kn.
  eapply run_fun with (ex := [x1; x2; x3]); [exact M | exact LK | reflexivity | exact C | reflexivity | repeat constructor; assumption |].
  body h' Fr. rewrite N1, N2, N3, N4, N5, N6, !String.eqb_refl.
  do 3 (rewrite <- ?app_assoc; cbn [app]).
  seg x1 y1 T1 L1. seg x2 y2 T2 L2. seg x3 y3 T3 L3.
  destruct (val_dormant E G y1 v1 T1 D1) as (z1 & Z1 & U1).
  destruct (val_dormant E G y2 v2 T2 D2) as (z2 & Z2 & U2).
  destruct (val_dormant E G y3 v3 T3 D3) as (z3 & Z3 & U3).
  destruct (T z1 z2 z3 U1 U2 U3) as (out & Bt & So).
  eapply run_builtin with (ex := [z1; z2; z3]); [fr | exact LB | coll | repeat constructor; assumption | exact Bt |].
  intros h2 Fr2. apply Kn. apply sim_hsadd; [fr | exact So].
Qed.
End Wrap.

Lemma sim_num : forall E G x n, sim E G x [Num n] -> exists h, x = [(Num n, h)].
Proof.
  intros E G x n S. apply sim_cons_inv in S. destruct S as (h & b & -> & S). apply sim_nil_inv in S. subst b. eauto.
Qed.

Lemma nth_sim : forall E G es vs i v, Forall2 (sim E G) es vs -> nth_error vs i = Some v ->
  exists e, nth_error es i = Some e /\ sim E G e v.
Proof.
  intros E G es vs i v Fe. revert i. induction Fe as [|e w es vs S Fe IH]; intros [|i] Nt; try discriminate.
  - inversion Nt; subst. exists e. auto.
  - apply IH. exact Nt.
Qed.

Lemma shut_sq : forall vs, Forall shut vs -> shut (sq vs).
Proof.
  intros vs H. induction H as [|v vs A H IH]; [reflexivity|]. unfold in_sequence. cbn [flat_map].
  apply (closed_app (LP :: v ++ [RP]) 0); [|exact IH].
  apply (closed_paren [v]). repeat constructor. exact A.
Qed.

Section Macros.
Variables (E : penv) (G : list string).

Lemma run_tuple_elem : forall h hl rest1 a1 a2 h1 rest2 i vs v P,
  mem "KL_TUPLE_ELEM" h = false -> collect 0 [] rest1 = Some ([a1; a2], h1, rest2) ->
  mem "BOOST_PP_TUPLE_ELEM" h1 = false -> free G h1 -> free ["KL_TUPLE_ELEM"; "BOOST_PP_TUPLE_ELEM"] G ->
  Val E G a1 [Num i] -> Val E G a2 (paren vs) -> Forall shut vs -> dormant E (paren vs) ->
  length vs <= p_tuple E -> nth_error vs i = Some v ->
  (forall o, sim E G o v -> Run E (o ++ rest2) P) ->
  Run E ((Id "KL_TUPLE_ELEM", h) :: (LP, hl) :: rest1) P.
Proof.
  intros h hl rest1 a1 a2 h1 rest2 i vs v P M C F FG D V1 V2 Cl Do Le Nt Kn.
  eapply (wrap2 E G "KL_TUPLE_ELEM" "BOOST_PP_TUPLE_ELEM" B_tuple_elem eq_refl eq_refl ltac:(fr) ltac:(fr));
    try reflexivity; try eassumption; try reflexivity; try exact I; [apply closed_paren, Cl |].
  intros x1 x2 S1 S2. apply sim_num in S1. destruct S1 as (hn & ->).
  assert (NE : vs <> []) by (intros ->; destruct i; discriminate).
  destruct (whole_tuple_sim E G x2 vs NE Cl S2 Le) as (es & W & Fe).
  destruct (nth_sim _ _ _ _ _ _ Fe Nt) as (e & Ne & Se). exists e. split; [|exact Se].
  intros h'. cbn [builtin_text num]. rewrite W, Ne. reflexivity.
Qed.

Lemma run_tuple_size : forall h hl rest1 a1 h1 rest2 vs P,
  mem "KL_TUPLE_SIZE" h = false -> collect 0 [] rest1 = Some ([a1], h1, rest2) ->
  mem "BOOST_PP_TUPLE_SIZE" h1 = false -> free G h1 -> free ["KL_TUPLE_SIZE"; "BOOST_PP_TUPLE_SIZE"] G ->
  Val E G a1 (paren vs) -> vs <> [] -> Forall shut vs -> dormant E (paren vs) -> length vs <= p_tuple E ->
  (forall o, sim E G o [Num (length vs)] -> Run E (o ++ rest2) P) ->
  Run E ((Id "KL_TUPLE_SIZE", h) :: (LP, hl) :: rest1) P.
Proof.
  intros h hl rest1 a1 h1 rest2 vs P M C F FG D V1 NE Cl Do Le Kn.
  eapply (wrap1 E G "KL_TUPLE_SIZE" "BOOST_PP_TUPLE_SIZE" B_tuple_size eq_refl eq_refl ltac:(fr) ltac:(fr));
    try reflexivity; try eassumption; [apply closed_paren, Cl |].
  intros x1 S1. destruct (whole_tuple_sim E G x1 vs NE Cl S1 Le) as (es & W & Fe).
  eexists. split; [intros h'; cbn [builtin_text]; rewrite W, (f2_length Fe); reflexivity|].
  apply sim_cons; [exact I | apply sim_nil].
Qed.

Lemma run_pop_front : forall h hl rest1 a1 h1 rest2 v vs P,
  mem "KL_TUPLE_POP_FRONT" h = false -> collect 0 [] rest1 = Some ([a1], h1, rest2) ->
  mem "BOOST_PP_TUPLE_POP_FRONT" h1 = false -> free G h1 -> free ["KL_TUPLE_POP_FRONT"; "BOOST_PP_TUPLE_POP_FRONT"] G ->
  Val E G a1 (paren (v :: vs)) -> vs <> [] -> Forall shut (v :: vs) -> dormant E (paren (v :: vs)) ->
  length (v :: vs) <= p_tuple E ->
  (forall o, sim E G o (paren vs) -> Run E (o ++ rest2) P) ->
  Run E ((Id "KL_TUPLE_POP_FRONT", h) :: (LP, hl) :: rest1) P.
Proof.
  intros h hl rest1 a1 h1 rest2 v vs P M C F FG D V1 NE Cl Do Le Kn.
  eapply (wrap1 E G "KL_TUPLE_POP_FRONT" "BOOST_PP_TUPLE_POP_FRONT" B_tuple_pop_front eq_refl eq_refl ltac:(fr) ltac:(fr));
    try reflexivity; try eassumption; [apply closed_paren, Cl |].
  intros x1 S1. destruct (whole_tuple_sim E G x1 (v :: vs)) as (es & W & Fe); [discriminate | exact Cl | exact S1 | exact Le |].
  inversion Fe as [|e ? es' ? Se Fe']; subst. destruct Fe' as [|e2 v2 es2 vs2 S2 Fe2]; [contradiction|].
  eexists. split; [intros h'; cbn [builtin_text]; rewrite W; reflexivity|].
  unfold untuple, paren. apply sim_cons; [exact I|]. apply sim_app.
  - apply sim_commas. constructor; assumption.
  - apply sim_cons; [exact I | apply sim_nil].
Qed.

Lemma run_push_back : forall h hl rest1 a1 a2 h1 rest2 vs v P,
  mem "KL_TUPLE_PUSH_BACK" h = false -> collect 0 [] rest1 = Some ([a1; a2], h1, rest2) ->
  mem "BOOST_PP_TUPLE_PUSH_BACK" h1 = false -> free G h1 -> free ["KL_TUPLE_PUSH_BACK"; "BOOST_PP_TUPLE_PUSH_BACK"] G ->
  Val E G a1 (paren vs) -> Val E G a2 v -> vs <> [] -> Forall shut vs -> dormant E (paren vs) ->
  shut v -> dormant E v ->
  length vs < p_tuple E ->
  (forall o, sim E G o (paren (vs ++ [v])) -> Run E (o ++ rest2) P) ->
  Run E ((Id "KL_TUPLE_PUSH_BACK", h) :: (LP, hl) :: rest1) P.
Proof.
  intros h hl rest1 a1 a2 h1 rest2 vs v P M C F FG D V1 V2 NE Cl Do Cv Dv Le Kn.
  eapply (wrap2 E G "KL_TUPLE_PUSH_BACK" "BOOST_PP_TUPLE_PUSH_BACK" B_tuple_push_back eq_refl eq_refl ltac:(fr) ltac:(fr));
    try reflexivity; try eassumption; [apply closed_paren, Cl |].
  intros x1 x2 S1 S2. destruct (whole_tuple_sim E G x1 vs NE Cl S1) as (es & W & Fe); [lia|].
  eexists. split; [intros h'; cbn [builtin_text]; rewrite W, (f2_length Fe)|].
  - replace (Nat.ltb (length vs) (p_tuple E)) with true by (symmetry; apply Nat.ltb_lt; exact Le). reflexivity.
  - unfold untuple, paren. apply sim_cons; [exact I|]. apply sim_app.
    + apply sim_commas. apply Forall2_app; [exact Fe | repeat constructor; apply S2].
    + apply sim_cons; [exact I | apply sim_nil].
Qed.

Lemma run_if : forall h hl rest1 a1 a2 a3 h1 rest2 k t e P,
  mem "KL_IF" h = false -> collect 0 [] rest1 = Some ([a1; a2; a3], h1, rest2) ->
  mem "BOOST_PP_IF" h1 = false -> free G h1 -> free ["KL_IF"; "BOOST_PP_IF"] G ->
  Val E G a1 [Num k] -> Val E G a2 t -> Val E G a3 e -> shut t -> shut e -> dormant E t -> dormant E e ->
  (forall o, sim E G o (if k =? 0 then e else t)%nat -> Run E (o ++ rest2) P) ->
  Run E ((Id "KL_IF", h) :: (LP, hl) :: rest1) P.
Proof.
  intros h hl rest1 a1 a2 a3 h1 rest2 k t e P M C F FG D V1 V2 V3 C2 C3 D2 D3 Kn.
  eapply (wrap3 E G "KL_IF" "BOOST_PP_IF" B_if eq_refl eq_refl ltac:(fr) ltac:(fr));
    try reflexivity; try eassumption; try reflexivity; try exact I.
  intros x1 x2 x3 S1 S2 S3. apply sim_num in S1. destruct S1 as (hn & ->).
  eexists. split; [intros h'; cbn [builtin_text num]; reflexivity|]. destruct (k =? 0)%nat; assumption.
Qed.

Lemma run_seq_size : forall h hl rest1 a1 h1 rest2 vs P,
  mem "KL_SEQ_SIZE" h = false -> collect 0 [] rest1 = Some ([a1], h1, rest2) ->
  mem "BOOST_PP_SEQ_SIZE" h1 = false -> free G h1 -> free ["KL_SEQ_SIZE"; "BOOST_PP_SEQ_SIZE"] G ->
  Val E G a1 (sq vs) -> Forall shut vs -> dormant E (sq vs) -> length vs <= 256 ->
  (forall o, sim E G o [Num (length vs)] -> Run E (o ++ rest2) P) ->
  Run E ((Id "KL_SEQ_SIZE", h) :: (LP, hl) :: rest1) P.
Proof.
  intros h hl rest1 a1 h1 rest2 vs P M C F FG D V1 Cl Do Le Kn.
  eapply (wrap1 E G "KL_SEQ_SIZE" "BOOST_PP_SEQ_SIZE" B_seq_size eq_refl eq_refl ltac:(fr) ltac:(fr));
    try reflexivity; try eassumption; [apply shut_sq, Cl |].
  intros x1 S1. destruct (seq_sim E G x1 vs Cl S1 Le) as (es & W & Fe).
  eexists. split; [intros h'; cbn [builtin_text]; rewrite W, (f2_length Fe); reflexivity|].
  apply sim_cons; [exact I | apply sim_nil].
Qed.

Lemma run_seq_elem : forall h hl rest1 a1 a2 h1 rest2 i vs v P,
  mem "KL_SEQ_ELEM" h = false -> collect 0 [] rest1 = Some ([a1; a2], h1, rest2) ->
  mem "BOOST_PP_SEQ_ELEM" h1 = false -> free G h1 -> free ["KL_SEQ_ELEM"; "BOOST_PP_SEQ_ELEM"] G ->
  Val E G a1 [Num i] -> Val E G a2 (sq vs) -> Forall shut vs -> dormant E (sq vs) ->
  length vs <= 256 -> nth_error vs i = Some v ->
  (forall o, sim E G o v -> Run E (o ++ rest2) P) ->
  Run E ((Id "KL_SEQ_ELEM", h) :: (LP, hl) :: rest1) P.
Proof.
  intros h hl rest1 a1 a2 h1 rest2 i vs v P M C F FG D V1 V2 Cl Do Le Nt Kn.
  eapply (wrap2 E G "KL_SEQ_ELEM" "BOOST_PP_SEQ_ELEM" B_seq_elem eq_refl eq_refl ltac:(fr) ltac:(fr));
    try reflexivity; try eassumption; try reflexivity; try exact I; [apply shut_sq, Cl |].
  intros x1 x2 S1 S2. apply sim_num in S1. destruct S1 as (hn & ->).
  destruct (seq_sim E G x2 vs Cl S2 Le) as (es & W & Fe).
  destruct (nth_sim _ _ _ _ _ _ Fe Nt) as (e & Ne & Se). exists e. split; [|exact Se].
  intros h'. cbn [builtin_text num]. rewrite W, Ne. reflexivity.
Qed.
End Macros.
