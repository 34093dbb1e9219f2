(** Loops whose body takes an argument besides the element. *)
From Coq Require Import String List Arith Bool Lia.
From Verif Require Import PpModel PpSpec PpProofs PpMacroProofs PpLoopProofs.
Import ListNotations.
Local Open Scope list_scope.
Local Open Scope string_scope.

Lemma sq_three : forall a c v, sq [a; c; [v]] = ((LP :: a ++ RP :: LP :: c ++ [RP; LP]) ++ [v; RP])%list.
Proof. intros a c v. unfold in_sequence. cbn [flat_map app]. rewrite <- !app_assoc. cbn [app]. rewrite <- !app_assoc. reflexivity. Qed.

Definition F_elem2 := ["KL_TUPLE_ELEM"; "BOOST_PP_TUPLE_ELEM"].
Definition F_loop2 := ["KL_TUPLE_SIZE"; "BOOST_PP_TUPLE_SIZE"; "BOOST_PP_REPEAT"; "KL_TUPLE_LOOP_INVOKER2"; "KL_TUPLE_ELEM"; "BOOST_PP_TUPLE_ELEM"].

Section Loops2.
Variables (E : penv) (Fb : list string) (b : string) (ps : list string) (va : bool) (mb : list tok).
Hypothesis Lb : lookup E b = Some (Fun ps va mb).
Hypothesis Two : 3 <= p_tuple E <= 256.
Hypothesis be : free F_elem2 [b].

Lemma data2 : forall w vs, quiet E w -> Forall (quiet E) vs -> dormant E (paren [w; paren vs; [Id b]]).
Proof.
  intros w vs Qw Qu. rewrite paren_three. apply (dormant_name E b ps va mb Lb).
  apply quiet_cons. split; [exact I|]. apply quiet_app. split; [exact Qw|]. apply quiet_cons. split; [exact I|].
  apply quiet_app. split; [apply quiet_paren, Qu|]. apply quiet_cons. split; [exact I | apply quiet_nil].
Qed.

Lemma run_invoker2 : forall h hl rest1 az ai ad h1 rest2 i w vs v code P,
  mem "KL_TUPLE_LOOP_INVOKER2" h = false -> collect 0 [] rest1 = Some ([az; ai; ad], h1, rest2) ->
  free F_elem2 h1 -> free [b] h1 -> free Fb h1 ->
  mem "KL_TUPLE_LOOP_INVOKER2" Fb = false -> mem "KL_TUPLE_LOOP_INVOKER2" [b] = false ->
  Val E [] az [Num 1] -> Val E [b] ai [Num i] -> Val E [b] ad (paren [w; paren vs; [Id b]]) ->
  shut w -> quiet E w ->
  Forall shut vs -> Forall (quiet E) vs -> length vs <= p_tuple E -> nth_error vs i = Some v ->
  body2 E Fb b w v code ->
  (forall o, strip o = code -> Run E rest2 (fun r => P (o ++ r)%list)) ->
  Run E ((Id "KL_TUPLE_LOOP_INVOKER2", h) :: (LP, hl) :: rest1) P.
Proof.
  intros h hl rest1 az ai ad h1 rest2 i w vs v code P M C F Fg FB NB Nb (xz & Xz & Sz) (xi & Xi & Si) (xd & Xd & Sd) Cw Qw Cl Qu Le Nt Bd Kn.
  eapply run_fun with (ex := [xz; xi; xd]); [exact M | reflexivity | reflexivity | exact C | reflexivity | repeat constructor; assumption |].
  body h' Fr. do 5 (rewrite <- ?app_assoc; cbn [app]).
  assert (F' : free F_elem2 h') by fr. assert (Fg' : free [b] h') by fr. assert (FB' : free Fb h') by fr.
  assert (Cs : Forall shut [w; paren vs; [Id b]]) by (repeat constructor; [exact Cw | apply shut_paren, Cl]).
  pose proof (shut_paren _ Cs) as Cd.
  pose proof (data2 w vs Qw Qu) as Dd.
  assert (Sdd : sim E [b] (hsadd h' xd) (paren [w; paren vs; [Id b]])) by (apply sim_hsadd; assumption).
  pose proof (sim_closed _ _ _ _ Sdd Cd) as Ld.
  assert (Ci : shut [Num i]) by reflexivity.
  assert (Sii : sim E [b] (hsadd h' xi) [Num i]) by (apply sim_hsadd; assumption).
  pose proof (sim_closed _ _ _ _ Sii Ci) as Li.
  generalize dependent (hsadd h' xd). intros yd Sdd Ld. generalize dependent (hsadd h' xi). intros yi Sii Li.
  assert (three : length [w; paren vs; [Id b]] <= p_tuple E) by (cbn; lia).
  assert (number : forall k, Val E [b] [(Num k, h')] [Num k]).
  { intros k. apply val_dormant; [apply sim_cons; [exact I | apply sim_nil] | exact I]. }
  eapply (run_tuple_elem E [b]) with (i := 2) (vs := [w; paren vs; [Id b]]);
    [fr | coll | fr | fr | fr | apply number | apply val_dormant; [exact Sdd | exact Dd] | exact Cs | exact Dd | exact three | reflexivity |].
  intros o So. destruct (named E b ps va mb Lb [b] o) as (hb & -> & Mb); [cbn; rewrite String.eqb_refl; reflexivity | exact So |]. cbn [app].
  assert (V0 : Val E [b] ((Id "KL_TUPLE_ELEM", h') :: (LP, h') :: (Num 0, h') :: (Comma, h') :: yd ++ [(RP, h')]) w).
  { eapply (run_tuple_elem E [b]) with (i := 0) (vs := [w; paren vs; [Id b]]);
      [fr | coll | fr | fr | fr | apply number | apply val_dormant; [exact Sdd | exact Dd] | exact Cs | exact Dd | exact three | reflexivity |].
    done_val. exact Qw. }
  assert (V1 : Val E [b] ((Id "KL_TUPLE_ELEM", h') :: (LP, h') :: (Num 1, h') :: (Comma, h') :: yd ++ [(RP, h')]) (paren vs)).
  { eapply (run_tuple_elem E [b]) with (i := 1) (vs := [w; paren vs; [Id b]]);
      [fr | coll | fr | fr | fr | apply number | apply val_dormant; [exact Sdd | exact Dd] | exact Cs | exact Dd | exact three | reflexivity |].
    done_val. apply quiet_paren, Qu. }
  assert (Qv : quiet E v).
  { apply nth_error_In in Nt. rewrite Forall_forall in Qu. apply Qu, Nt. }
  eapply Bd; [exact Mb | coll | fr | apply (val_quiet E [b]); [exact V0 | exact Qw] | | exact Kn].
  apply (val_quiet E [b]); [|exact Qv].
  eapply (run_tuple_elem E [b]) with (i := i) (vs := vs);
    [fr | coll | fr | fr | fr | apply val_dormant; [exact Sii | exact I] | exact V1 | exact Cl
    | apply dormant_quiet, quiet_paren, Qu | exact Le | exact Nt |].
  done_val. exact Qv.
Qed.

Variable rs : list string.
Hypothesis level : forall h, free rs h ->
  repeat_level h = Some "BOOST_PP_REPEAT_1" \/ (repeat_level h = Some "BOOST_PP_REPEAT_2" /\ mem "BOOST_PP_REPEAT_2" Fb = false).
Hypothesis bl : free (["KL_TUPLE_FOR_EACH2"; "BOOST_PP_REPEAT_1"; "BOOST_PP_REPEAT_2"] ++ F_loop2)%list [b].
Hypothesis Bl : free ["KL_TUPLE_FOR_EACH2"; "KL_TUPLE_LOOP_INVOKER2"; "BOOST_PP_REPEAT_1"] Fb.
Hypothesis Rl : free ["KL_TUPLE_FOR_EACH2"] rs.

Lemma run_for_each2 : forall h hl rest1 aw at_ ab h1 rest2 w vs codes P,
  mem "KL_TUPLE_FOR_EACH2" h = false -> collect 0 [] rest1 = Some ([aw; at_; ab], h1, rest2) ->
  free F_loop2 h1 -> free [b] h1 -> free Fb h1 -> free rs h1 ->
  Val E [] aw w -> shut w -> quiet E w ->
  Val E [] at_ (paren vs) -> Val E ["KL_TUPLE_LOOP_INVOKER2"; b] ab [Id b] ->
  vs <> [] -> Forall shut vs -> Forall (quiet E) vs -> length vs <= p_tuple E ->
  Forall2 (body2 E Fb b w) vs codes ->
  (forall o, strip o = concat codes -> Run E rest2 (fun r => P (o ++ r)%list)) ->
  Run E ((Id "KL_TUPLE_FOR_EACH2", h) :: (LP, hl) :: rest1) P.
Proof.
  intros h hl rest1 aw at_ ab h1 rest2 w vs codes P M C F Fg FB FR Vw Cw Qw Vt (xb & Xb & Sb) NE Cl Qu Le Bd Kn.
  pose proof (quiet_paren _ _ Qu) as Qp. pose proof (shut_paren _ Cl) as Cp.
  set (G1 := ["KL_TUPLE_LOOP_INVOKER2"; b]) in *.
  destruct (val_quiet _ _ G1 _ _ Vt Qp) as (xt & Xt & St).
  destruct (val_quiet _ _ G1 _ _ Vw Qw) as (xw & Xw & Sw).
  eapply run_fun with (ex := [xw; xt; xb]); [exact M | reflexivity | reflexivity | exact C | reflexivity | repeat constructor; assumption |].
  body h' Fr. do 5 (rewrite <- ?app_assoc; cbn [app]).
  assert (F' : free F_loop2 h') by fr. assert (Fg' : free [b] h') by fr. assert (FB' : free Fb h') by fr.
  assert (FR' : free rs h') by fr.
  assert (FG' : free G1 h').
  { unfold G1, free. cbn [forallb]. rewrite (free_mem F_loop2 h' "KL_TUPLE_LOOP_INVOKER2" F' eq_refl).
    unfold free in Fg'. cbn [forallb] in Fg'. exact Fg'. }
  assert (Cb : shut [Id b]) by reflexivity.
  seg xw yw Tw Lw'. seg xt yt Tt Lt'. seg xb yb Tb Lb'.
  assert (G1l : free ["KL_TUPLE_SIZE"; "BOOST_PP_TUPLE_SIZE"] G1).
  { apply free_cons; [reflexivity|]. apply (free_sub (["KL_TUPLE_FOR_EACH2"; "BOOST_PP_REPEAT_1"; "BOOST_PP_REPEAT_2"] ++ F_loop2)%list); [exact bl | reflexivity]. }
  pose proof (data2 w vs Qw Qu) as Dd.
  assert (Cs : Forall shut [w; paren vs; [Id b]]) by (repeat constructor; [exact Cw | exact Cp]).
  assert (Sd : sim E G1 ((LP, h') :: yw ++ (Comma, h') :: yt ++ (Comma, h') :: yb ++ [(RP, h')]) (paren [w; paren vs; [Id b]])).
  { rewrite paren_three. cbn [app]. rewrite <- app_assoc. cbn [app]. rewrite <- app_assoc. cbn [app].
    apply sim_cons; [exact I|]. apply sim_app; [exact Tw|]. apply sim_cons; [exact I|]. apply sim_app; [exact Tt|].
    apply sim_cons; [exact I|]. apply (sim_app E G1 yb _ [Id b] [RP]); [exact Tb|]. apply sim_cons; [exact I | apply sim_nil]. }
  assert (exists r, repeat_level (inter h' h') = Some r /\
            ((r = "BOOST_PP_REPEAT_1") \/ (r = "BOOST_PP_REPEAT_2" /\ mem "BOOST_PP_REPEAT_2" Fb = false))) as (r & Lv & Rr).
  { destruct (level (inter h' h') (free_inter _ _ _ FR')) as [A | [A B]]; eauto 6. }
  eapply (run_repeat E G1) with (k := length vs) (m := [Id "KL_TUPLE_LOOP_INVOKER2"]) (d := paren [w; paren vs; [Id b]]) (r := r);
    [fr | coll | | | | lia | exact Lv |].
  { eapply (run_tuple_size E G1) with (vs := vs); [fr | coll | fr | fr | exact G1l | | exact NE | exact Cl | apply dormant_quiet, Qp | exact Le |].
    - apply val_dormant; [exact Tt | apply dormant_quiet, Qp].
    - done_val. apply quiet_num. }
  { apply val_dormant; [apply sim_cons; [right; exact FG' | apply sim_nil] | cbn [dormant]; repeat split; right; split; exact I]. }
  { apply val_dormant; [exact Sd | exact Dd]. }
  intros h2 m' d' Fr2 Sm Sdd.
  assert (Fh2 : free F_elem2 h2 /\ free [b] h2 /\ free Fb h2 /\ free G1 h2).
  { destruct Rr as [-> | [-> Nr]]; repeat split; try fr. all: apply (from_free G1 _ _ _ Fr2 FG').
    - exact (free_mem _ [b] "BOOST_PP_REPEAT_1" bl eq_refl).
    - exact (free_mem _ [b] "BOOST_PP_REPEAT_2" bl eq_refl). }
  destruct Fh2 as (Fe2 & Fb2 & FB2 & FG2).
  assert (Sm2 : sim E G1 (hsadd h2 m') [Id "KL_TUPLE_LOOP_INVOKER2"]) by (apply sim_hsadd; assumption).
  assert (Sd2 : sim E G1 (hsadd h2 d') (paren [w; paren vs; [Id b]])) by (apply sim_hsadd; assumption).
  assert (Ld2 : closed 0 (strip (hsadd h2 d')) = true) by (apply (sim_closed _ _ _ _ Sd2), shut_paren, Cs).
  apply run_calls with (piece := fun i => nth i codes []).
  - intros i Ii rest Q K. apply in_seq in Ii. destruct (nth_error vs i) as [v|] eqn:Nt; [|apply nth_error_None in Nt; lia].
    unfold repeat_call. rewrite hsadd_app. generalize dependent (hsadd h2 m'). intros m2 Sm2.
    destruct (sim_cons_inv _ _ _ _ _ Sm2) as (hm & z & -> & W). apply sim_nil_inv in W. subst z.
    assert (Mm : mem "KL_TUPLE_LOOP_INVOKER2" hm = false).
    { apply (free_mem G1); [|reflexivity]. apply (proj2 Sm2 "KL_TUPLE_LOOP_INVOKER2"); [left; reflexivity | discriminate]. }
    cbn [hsadd map fst snd app]. rewrite !app_nil_r. fold (hsadd h2 (d' ++ [(RP, [])])%list). rewrite hsadd_app.
    cbn [hsadd map fst snd app]. rewrite !app_nil_r. generalize dependent (hsadd h2 d'). intros d2 Sd2 Ld2. rewrite <- app_assoc. cbn [app].
    eapply run_invoker2 with (i := i) (w := w) (vs := vs) (v := v);
      [exact Mm | coll | fr | fr | fr | fr | | | | | exact Cw | exact Qw | exact Cl | exact Qu | exact Le | exact Nt | exact (forall2_nth Bd Nt) | exact K].
    + exact (free_mem _ [b] "KL_TUPLE_LOOP_INVOKER2" bl eq_refl).
    + apply val_dormant; [apply sim_cons; [exact I | apply sim_nil] | exact I].
    + apply val_dormant; [apply sim_cons; [exact I | apply sim_nil] | exact I].
    + apply val_dormant; [|exact Dd]. apply (sim_less E G1); [exact Sd2|]. unfold G1. cbn [forallb mem existsb].
      rewrite String.eqb_refl. rewrite orb_true_r. reflexivity.
  - intros o So. apply Kn. rewrite So. rewrite (f2_length Bd). apply flat_map_nth.
Qed.
End Loops2.

Definition F_elem3 := ["KL_SEQ_ELEM"; "BOOST_PP_SEQ_ELEM"].
Definition F_loop3 := ["KL_SEQ_SIZE"; "BOOST_PP_SEQ_SIZE"; "BOOST_PP_REPEAT"; "KL_SEQ_LOOP_INVOKER2"; "KL_SEQ_ELEM"; "BOOST_PP_SEQ_ELEM"].

Section Loops3.
Variables (E : penv) (Fb : list string) (b : string) (ps : list string) (va : bool) (mb : list tok).
Hypothesis Lb : lookup E b = Some (Fun ps va mb).
Hypothesis Two : 3 <= p_tuple E <= 256.
Hypothesis be : free F_elem3 [b].

Lemma data3 : forall w vs, quiet E w -> Forall (quiet E) vs -> dormant E (sq [w; sq vs; [Id b]]).
Proof.
  intros w vs Qw Qu. rewrite sq_three. apply (dormant_name E b ps va mb Lb).
  apply quiet_cons. split; [exact I|]. apply quiet_app. split; [exact Qw|]. do 2 (apply quiet_cons; split; [exact I|]).
  apply quiet_app. split; [apply quiet_sq, Qu|]. do 2 (apply quiet_cons; split; [exact I|]). apply quiet_nil.
Qed.

Lemma run_seq_invoker2 : forall h hl rest1 az ai ad h1 rest2 i w vs v code P,
  mem "KL_SEQ_LOOP_INVOKER2" h = false -> collect 0 [] rest1 = Some ([az; ai; ad], h1, rest2) ->
  free F_elem3 h1 -> free [b] h1 -> free Fb h1 ->
  mem "KL_SEQ_LOOP_INVOKER2" Fb = false -> mem "KL_SEQ_LOOP_INVOKER2" [b] = false ->
  Val E [] az [Num 1] -> Val E [b] ai [Num i] -> Val E [b] ad (sq [w; sq vs; [Id b]]) ->
  shut w -> quiet E w ->
  Forall shut vs -> Forall (quiet E) vs -> length vs <= 256 -> nth_error vs i = Some v ->
  body2 E Fb b w v code ->
  (forall o, strip o = code -> Run E rest2 (fun r => P (o ++ r)%list)) ->
  Run E ((Id "KL_SEQ_LOOP_INVOKER2", h) :: (LP, hl) :: rest1) P.
Proof.
  intros h hl rest1 az ai ad h1 rest2 i w vs v code P M C F Fg FB NB Nb (xz & Xz & Sz) (xi & Xi & Si) (xd & Xd & Sd) Cw Qw Cl Qu Le Nt Bd Kn.
  eapply run_fun with (ex := [xz; xi; xd]); [exact M | reflexivity | reflexivity | exact C | reflexivity | repeat constructor; assumption |].
  body h' Fr. do 5 (rewrite <- ?app_assoc; cbn [app]).
  assert (F' : free F_elem3 h') by fr. assert (Fg' : free [b] h') by fr. assert (FB' : free Fb h') by fr.
  assert (Cs : Forall shut [w; sq vs; [Id b]]) by (repeat constructor; [exact Cw | apply shut_sq, Cl]).
  pose proof (shut_sq _ Cs) as Cd.
  pose proof (data3 w vs Qw Qu) as Dd.
  assert (Sdd : sim E [b] (hsadd h' xd) (sq [w; sq vs; [Id b]])) by (apply sim_hsadd; assumption).
  pose proof (sim_closed _ _ _ _ Sdd Cd) as Ld.
  assert (Ci : shut [Num i]) by reflexivity.
  assert (Sii : sim E [b] (hsadd h' xi) [Num i]) by (apply sim_hsadd; assumption).
  pose proof (sim_closed _ _ _ _ Sii Ci) as Li.
  generalize dependent (hsadd h' xd). intros yd Sdd Ld. generalize dependent (hsadd h' xi). intros yi Sii Li.
  assert (three : length [w; sq vs; [Id b]] <= 256) by (cbn; lia).
  assert (number : forall k, Val E [b] [(Num k, h')] [Num k]).
  { intros k. apply val_dormant; [apply sim_cons; [exact I | apply sim_nil] | exact I]. }
  eapply (run_seq_elem E [b]) with (i := 2) (vs := [w; sq vs; [Id b]]);
    [fr | coll | fr | fr | fr | apply number | apply val_dormant; [exact Sdd | exact Dd] | exact Cs | exact Dd | exact three | reflexivity |].
  intros o So. destruct (named E b ps va mb Lb [b] o) as (hb & -> & Mb); [cbn; rewrite String.eqb_refl; reflexivity | exact So |]. cbn [app].
  assert (V0 : Val E [b] ((Id "KL_SEQ_ELEM", h') :: (LP, h') :: (Num 0, h') :: (Comma, h') :: yd ++ [(RP, h')]) w).
  { eapply (run_seq_elem E [b]) with (i := 0) (vs := [w; sq vs; [Id b]]);
      [fr | coll | fr | fr | fr | apply number | apply val_dormant; [exact Sdd | exact Dd] | exact Cs | exact Dd | exact three | reflexivity |].
    done_val. exact Qw. }
  assert (V1 : Val E [b] ((Id "KL_SEQ_ELEM", h') :: (LP, h') :: (Num 1, h') :: (Comma, h') :: yd ++ [(RP, h')]) (sq vs)).
  { eapply (run_seq_elem E [b]) with (i := 1) (vs := [w; sq vs; [Id b]]);
      [fr | coll | fr | fr | fr | apply number | apply val_dormant; [exact Sdd | exact Dd] | exact Cs | exact Dd | exact three | reflexivity |].
    done_val. apply quiet_sq, Qu. }
  assert (Qv : quiet E v).
  { apply nth_error_In in Nt. rewrite Forall_forall in Qu. apply Qu, Nt. }
  eapply Bd; [exact Mb | coll | fr | apply (val_quiet E [b]); [exact V0 | exact Qw] | | exact Kn].
  apply (val_quiet E [b]); [|exact Qv].
  eapply (run_seq_elem E [b]) with (i := i) (vs := vs);
    [fr | coll | fr | fr | fr | apply val_dormant; [exact Sii | exact I] | exact V1 | exact Cl
    | apply dormant_quiet, quiet_sq, Qu | exact Le | exact Nt |].
  done_val. exact Qv.
Qed.

Variable rs : list string.
Hypothesis level : forall h, free rs h ->
  repeat_level h = Some "BOOST_PP_REPEAT_1" \/ (repeat_level h = Some "BOOST_PP_REPEAT_2" /\ mem "BOOST_PP_REPEAT_2" Fb = false).
Hypothesis bl : free (["KL_SEQ_FOR_EACH2"; "BOOST_PP_REPEAT_1"; "BOOST_PP_REPEAT_2"] ++ F_loop3)%list [b].
Hypothesis Bl : free ["KL_SEQ_FOR_EACH2"; "KL_SEQ_LOOP_INVOKER2"; "BOOST_PP_REPEAT_1"] Fb.
Hypothesis Rl : free ["KL_SEQ_FOR_EACH2"] rs.

Lemma run_seq_for_each2 : forall h hl rest1 aw at_ ab h1 rest2 w vs codes P,
  mem "KL_SEQ_FOR_EACH2" h = false -> collect 0 [] rest1 = Some ([aw; at_; ab], h1, rest2) ->
  free F_loop3 h1 -> free [b] h1 -> free Fb h1 -> free rs h1 ->
  Val E [] aw w -> shut w -> quiet E w ->
  Val E [] at_ (sq vs) -> Val E ["KL_SEQ_LOOP_INVOKER2"; b] ab [Id b] ->
  vs <> [] -> Forall shut vs -> Forall (quiet E) vs -> length vs <= 256 ->
  Forall2 (body2 E Fb b w) vs codes ->
  (forall o, strip o = concat codes -> Run E rest2 (fun r => P (o ++ r)%list)) ->
  Run E ((Id "KL_SEQ_FOR_EACH2", h) :: (LP, hl) :: rest1) P.
Proof.
  intros h hl rest1 aw at_ ab h1 rest2 w vs codes P M C F Fg FB FR Vw Cw Qw Vt (xb & Xb & Sb) NE Cl Qu Le Bd Kn.
  pose proof (quiet_sq _ _ Qu) as Qp. pose proof (shut_sq _ Cl) as Cp.
  set (G1 := ["KL_SEQ_LOOP_INVOKER2"; b]) in *.
  destruct (val_quiet _ _ G1 _ _ Vt Qp) as (xt & Xt & St).
  destruct (val_quiet _ _ G1 _ _ Vw Qw) as (xw & Xw & Sw).
  eapply run_fun with (ex := [xw; xt; xb]); [exact M | reflexivity | reflexivity | exact C | reflexivity | repeat constructor; assumption |].
  body h' Fr. do 5 (rewrite <- ?app_assoc; cbn [app]).
  assert (F' : free F_loop3 h') by fr. assert (Fg' : free [b] h') by fr. assert (FB' : free Fb h') by fr.
  assert (FR' : free rs h') by fr.
  assert (FG' : free G1 h').
  { unfold G1, free. cbn [forallb]. rewrite (free_mem F_loop3 h' "KL_SEQ_LOOP_INVOKER2" F' eq_refl).
    unfold free in Fg'. cbn [forallb] in Fg'. exact Fg'. }
  assert (Cb : shut [Id b]) by reflexivity.
  seg xw yw Tw Lw'. seg xt yt Tt Lt'. seg xb yb Tb Lb'.
  assert (G1l : free ["KL_SEQ_SIZE"; "BOOST_PP_SEQ_SIZE"] G1).
  { apply free_cons; [reflexivity|]. apply (free_sub (["KL_SEQ_FOR_EACH2"; "BOOST_PP_REPEAT_1"; "BOOST_PP_REPEAT_2"] ++ F_loop3)%list); [exact bl | reflexivity]. }
  pose proof (data3 w vs Qw Qu) as Dd.
  assert (Cs : Forall shut [w; sq vs; [Id b]]) by (repeat constructor; [exact Cw | exact Cp]).
  assert (Sd : sim E G1 ((LP, h') :: yw ++ (RP, h') :: (LP, h') :: yt ++ (RP, h') :: (LP, h') :: yb ++ [(RP, h')]) (sq [w; sq vs; [Id b]])).
  { rewrite sq_three. cbn [app]. rewrite <- app_assoc. cbn [app]. rewrite <- app_assoc. cbn [app].
    apply sim_cons; [exact I|]. apply sim_app; [exact Tw|]. do 2 (apply sim_cons; [exact I|]). apply sim_app; [exact Tt|].
    do 2 (apply sim_cons; [exact I|]). apply (sim_app E G1 yb _ [Id b] [RP]); [exact Tb|]. apply sim_cons; [exact I | apply sim_nil]. }
  assert (exists r, repeat_level (inter h' h') = Some r /\
            ((r = "BOOST_PP_REPEAT_1") \/ (r = "BOOST_PP_REPEAT_2" /\ mem "BOOST_PP_REPEAT_2" Fb = false))) as (r & Lv & Rr).
  { destruct (level (inter h' h') (free_inter _ _ _ FR')) as [A | [A B]]; eauto 6. }
  eapply (run_repeat E G1) with (k := length vs) (m := [Id "KL_SEQ_LOOP_INVOKER2"]) (d := sq [w; sq vs; [Id b]]) (r := r);
    [fr | coll | | | | lia | exact Lv |].
  { eapply (run_seq_size E G1) with (vs := vs); [fr | coll | fr | fr | exact G1l | |  exact Cl | apply dormant_quiet, Qp | exact Le |].
    - apply val_dormant; [exact Tt | apply dormant_quiet, Qp].
    - done_val. apply quiet_num. }
  { apply val_dormant; [apply sim_cons; [right; exact FG' | apply sim_nil] | cbn [dormant]; repeat split; right; split; exact I]. }
  { apply val_dormant; [exact Sd | exact Dd]. }
  intros h2 m' d' Fr2 Sm Sdd.
  assert (Fh2 : free F_elem3 h2 /\ free [b] h2 /\ free Fb h2 /\ free G1 h2).
  { destruct Rr as [-> | [-> Nr]]; repeat split; try fr. all: apply (from_free G1 _ _ _ Fr2 FG').
    - exact (free_mem _ [b] "BOOST_PP_REPEAT_1" bl eq_refl).
    - exact (free_mem _ [b] "BOOST_PP_REPEAT_2" bl eq_refl). }
  destruct Fh2 as (Fe2 & Fb2 & FB2 & FG2).
  assert (Sm2 : sim E G1 (hsadd h2 m') [Id "KL_SEQ_LOOP_INVOKER2"]) by (apply sim_hsadd; assumption).
  assert (Sd2 : sim E G1 (hsadd h2 d') (sq [w; sq vs; [Id b]])) by (apply sim_hsadd; assumption).
  assert (Ld2 : closed 0 (strip (hsadd h2 d')) = true) by (apply (sim_closed _ _ _ _ Sd2), shut_sq, Cs).
  apply run_calls with (piece := fun i => nth i codes []).
  - intros i Ii rest Q K. apply in_seq in Ii. destruct (nth_error vs i) as [v|] eqn:Nt; [|apply nth_error_None in Nt; lia].
    unfold repeat_call. rewrite hsadd_app. generalize dependent (hsadd h2 m'). intros m2 Sm2.
    destruct (sim_cons_inv _ _ _ _ _ Sm2) as (hm & z & -> & W). apply sim_nil_inv in W. subst z.
    assert (Mm : mem "KL_SEQ_LOOP_INVOKER2" hm = false).
    { apply (free_mem G1); [|reflexivity]. apply (proj2 Sm2 "KL_SEQ_LOOP_INVOKER2"); [left; reflexivity | discriminate]. }
    cbn [hsadd map fst snd app]. rewrite !app_nil_r. fold (hsadd h2 (d' ++ [(RP, [])])%list). rewrite hsadd_app.
    cbn [hsadd map fst snd app]. rewrite !app_nil_r. generalize dependent (hsadd h2 d'). intros d2 Sd2 Ld2. rewrite <- app_assoc. cbn [app].
    eapply run_seq_invoker2 with (i := i) (w := w) (vs := vs) (v := v);
      [exact Mm | coll | fr | fr | fr | fr | | | | | exact Cw | exact Qw | exact Cl | exact Qu | exact Le | exact Nt | exact (forall2_nth Bd Nt) | exact K].
    + exact (free_mem _ [b] "KL_SEQ_LOOP_INVOKER2" bl eq_refl).
    + apply val_dormant; [apply sim_cons; [exact I | apply sim_nil] | exact I].
    + apply val_dormant; [apply sim_cons; [exact I | apply sim_nil] | exact I].
    + apply val_dormant; [|exact Dd]. apply (sim_less E G1); [exact Sd2|]. unfold G1. cbn [forallb mem existsb].
      rewrite String.eqb_refl. rewrite orb_true_r. reflexivity.
  - intros o So. apply Kn. rewrite So. rewrite (f2_length Bd). apply flat_map_nth.
Qed.
End Loops3.
