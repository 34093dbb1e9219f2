(** Programs. *)
From Coq Require Import List Arith Bool Lia.
From Verif Require Import Base DangModel DangSpec DangProofs.
Import ListNotations.

Section StInd.
  Context (P : stmt -> Prop).
  Context (Pa : forall e, P (SAuto e)) (Pp : forall e, P (SPrint e)) (Pf : forall e body, Forall P body -> P (SFor e body))
    (Pb : forall body, Forall P body -> P (SBlock body)).
  Fixpoint stmt_ind0 (s : stmt) : P s :=
    let all := (fix all (ss : list stmt) : Forall P ss :=
                  match ss with [] => Forall_nil P | s :: ss' => Forall_cons s (stmt_ind0 s) (all ss') end) in
    match s with
    | SAuto e => Pa e
    | SPrint e => Pp e
    | SFor e body => Pf e body (all body)
    | SBlock body => Pb body (all body)
    end.
End StInd.

(** ** Variables that are declared *)
Lemma copied_ok a h t e r k refs : result_ok a h t e r -> copied r h = (k, refs) -> value_ok a h t e k refs.
Proof.
  destruct r as [id|k' refs']; cbn; intros [_ R] [= <- <-].
  - destruct R as [A B C D E F G]. constructor; auto.
  - exact R.
Qed.

Lemma sound_kill a h refs : sound h refs -> below a h refs -> sound (kill a None h) refs.
Proof.
  intros S B j I. rewrite touched_kill in I. rewrite alive_kill, (S j I). pose proof (B j I). destruct (Nat.ltb_spec j a); [reflexivity | lia].
Qed.

Definition declared (a : nat) (h : heap) (k : kind) (refs : list nat) : heap := kill a None h ++ [mkobj k refs true].

Lemma declared_refs a h k refs : refs_of (declared a h k refs) (length h) = refs.
Proof. unfold refs_of, declared. rewrite <- (length_kill a None h), nth_last. reflexivity. Qed.
Lemma declared_alive a h k refs : alive (declared a h k refs) (length h) = true.
Proof. unfold alive, declared. rewrite <- (length_kill a None h), nth_last. reflexivity. Qed.
Lemma declared_kind a h k refs : kind_of (declared a h k refs) (length h) = k.
Proof. unfold kind_of, declared. rewrite <- (length_kill a None h), nth_last. reflexivity. Qed.
Lemma declared_length a h k refs : length (declared a h k refs) = S (length h).
Proof. unfold declared. rewrite app_length, length_kill. cbn. lia. Qed.

Lemma declared_touched a h k refs : sound h refs -> touched (declared a h k refs) refs = touched h refs.
Proof.
  intros S. rewrite <- (touched_kill a None h refs). unfold declared, touched. f_equal.
  assert (L : forall j, In j refs -> j < length (kill a None h)).
  { intros j I. rewrite length_kill. apply alive_lt, S. apply in_touched. now left. }
  clear S. generalize (mkobj k refs true). intros o. induction refs as [|r refs IH]; [reflexivity|]. cbn [flat_map]. rewrite refs_app by (apply L; now left).
  f_equal. apply IH. intros j I. apply L. now right.
Qed.

Lemma declared_usable a h k refs : sound h refs -> (usable (declared a h k refs) (length h) = true <-> below a h refs).
Proof.
  intros S. rewrite usable_spec, declared_refs, declared_alive. split.
  - intros [_ U] j I. assert (I' : In j (touched (declared a h k refs) refs)) by (now rewrite declared_touched).
    specialize (U j I'). unfold declared in U. rewrite alive_app in U by (rewrite length_kill; now apply alive_lt, S).
    rewrite alive_kill in U. apply andb_prop in U as [_ U]. rewrite orb_false_r in U. now apply Nat.ltb_lt.
  - intros B. split; [reflexivity|]. unfold declared. apply sound_app. now apply sound_kill.
Qed.

(** ** Loops *)
Lemma placed_bind e r h a t id h2 : result_ok a h t e r -> bind_ref r h = (id, h2) -> placed e = true -> h2 = h.
Proof. destruct r as [i|k refs]; cbn; intros [P _] [= <- <-] Q; [reflexivity | congruence]. Qed.

Lemma extends_member tenv e l : typ tenv (EItems e) = Some (TCont, l) -> extends e = true -> e = EHolder.
Proof.
  cbn [typ]. destruct (typ tenv e) as [[t l']|] eqn:T; [|discriminate]. destruct t; try discriminate. intros _ X.
  destruct e as [x| | | |e|e|e|e|e|es]; cbn [typ extends] in *; try discriminate; try reflexivity.
  - destruct (typ tenv e) as [[[] ?]|]; discriminate.
  - destruct (typ tenv e) as [[[] ?]|]; discriminate.
  - destruct (typ tenv e) as [[[] ?]|]; discriminate.
  - destruct (negb _ && _); discriminate.
Qed.

Lemma not_extends_loopable e : extends e = false -> loopable e -> lasting e.
Proof. intros X O. destruct O; cbn in X; try discriminate. assumption. Qed.

Lemma lasting_not_extends e : lasting e -> extends e = false.
Proof. induction 1; auto. Qed.

Lemma extends_loopable tenv e t l : typ tenv e = Some (t, l) -> iterable t = true -> extends e = true -> (loopable e <-> kept e).
Proof.
  intros T It X. destruct e as [x| | | |e|e|e|e|e|es]; cbn [extends] in X; try discriminate.
  - split; [intros _; constructor | intros _; apply o_make].
  - cbn in T. injection T as <- <-. discriminate.
  - split; [intros _; constructor | intros _; apply o_iota].
  - split; [intros _; constructor|]. intros _. assert (t = TCont) as ->.
    { cbn [typ] in T. destruct (typ tenv e) as [[[] ?]|]; congruence. }
    rewrite (extends_member tenv e l T X). apply o_member.
  - split; intros H; inversion H; subst; now constructor.
  - cbn [typ] in T. destruct (typ tenv e) as [[[] ?]|]; try discriminate; injection T as <- <-; discriminate.
  - split; intros H; inversion H; subst; now constructor.
Qed.

Lemma for_usable a tenv env h e t l r h1 id h2 : a = length h -> good a tenv env h -> typ tenv e = Some (t, l) -> iterable t = true ->
  eval env e h = (r, h1) -> bind_ref r h1 = (id, h2) ->
  (usable (kill a (if extends e then Some id else None) h2) id = true <-> loopable e).
Proof.
  intros La G T It Ev Eb. assert (L0 : a <= length h) by lia. destruct (eval_ok e a tenv env h t l r h1 L0 G T Ev) as [[n1 ->] R].
  assert (L2 : a <= length (h ++ n1)) by (rewrite app_length; lia).
  destruct (bind_ok a _ t e r id h2 L2 R Eb) as [N2 B].
  destruct (extends e) eqn:X.
  - rewrite (extends_loopable tenv e t l T It X). rewrite (b_kept _ _ _ _ _ B). rewrite usable_spec, refs_kill.
    assert (NI : forall j, In j (touched h2 (refs_of h2 id)) -> j <> id).
    { destruct r as [i|k refs].
      - destruct R as [Pl R]. assert (exists e', e = EItems e') as [e' ->] by (destruct e; cbn in Pl, X; try discriminate; eauto).
        cbn [typ] in T. assert (t = TCont) as -> by (destruct (typ tenv e') as [[[] ?]|]; congruence).
        pose proof (b_shape _ _ _ _ _ B) as Sh. rewrite (b_kind _ _ _ _ _ B) in Sh. cbn in Sh. rewrite Sh. intros j [].
      - destruct R as [_ R]. cbn in Eb. injection Eb as <- <-. intros j I. 
        assert (RF : refs_of ((h ++ n1) ++ [mkobj k refs true]) (length (h ++ n1)) = refs) by (unfold refs_of; now rewrite nth_last).
        rewrite RF in I. rewrite touched_app in I by exact (q_sound _ _ _ _ _ _ R). pose proof (alive_lt _ _ (q_sound _ _ _ _ _ _ R j I)). lia. }
    split.
    + intros [_ U] j I. assert (I' : In j (touched (kill a (Some id) h2) (refs_of h2 id))) by (now rewrite touched_kill).
      specialize (U j I'). rewrite alive_kill in U. apply andb_prop in U as [_ U]. apply orb_prop in U as [U|U]; [now apply Nat.ltb_lt|].
      apply Nat.eqb_eq in U. now apply NI in I.
    + intros Be. split.
      * rewrite alive_kill, (b_alive _ _ _ _ _ B), Nat.eqb_refl. apply orb_true_r.
      * intros j I. rewrite touched_kill in I. rewrite alive_kill, (b_sound _ _ _ _ _ B j I). pose proof (Be j I).
        destruct (Nat.ltb_spec j a); [reflexivity | lia].
  - split.
    + intros U. apply o_lasting. apply (b_last _ _ _ _ _ B). apply usable_spec in U as [U _]. rewrite alive_kill in U.
      apply andb_prop in U as [_ U]. rewrite orb_false_r in U. now apply Nat.ltb_lt.
    + intros O. apply (not_extends_loopable e X) in O. apply (b_last _ _ _ _ _ B) in O. apply usable_spec. rewrite refs_kill. split.
      * rewrite alive_kill, (b_alive _ _ _ _ _ B). destruct (Nat.ltb_spec id a); [reflexivity | lia].
      * apply sound_kill; [exact (b_sound _ _ _ _ _ B) | exact (b_under _ _ _ _ _ B O)].
Qed.

(** ** Running *)
Definition keeps (h h' : heap) : Prop := length h <= length h' /\
  forall a tenv env, a <= length h -> good a tenv env h -> good a tenv env h'.

Lemma keeps_refl h : keeps h h.
Proof. split; auto. Qed.

Lemma keeps_trans h h1 h2 : keeps h h1 -> keeps h1 h2 -> keeps h h2.
Proof. intros [A B] [C D]. split; [lia|]. intros a tenv env L G. apply D; [lia|]. now apply B. Qed.

Lemma keeps_app h n : keeps h (h ++ n).
Proof. split; [rewrite app_length; lia|]. intros. now apply good_app. Qed.

Lemma keeps_kill h h' b keep : keeps h h' -> length h <= b -> keeps h (kill b keep h').
Proof. intros [A B] L. split; [now rewrite length_kill|]. intros a tenv env La G. apply good_kill; [lia | now apply B]. Qed.

Definition runs_well (s : stmt) : Prop := forall tenv env h tenv', careful s -> check tenv s = Some tenv' -> good (length h) tenv env h ->
  exists env' h', run env h s = Ok (env', h') /\ good (length h') tenv' env' h' /\ keeps h h'.

Lemma list_runs ss : Forall runs_well ss -> forall tenv env h tenv', Forall careful ss -> checks tenv ss = Some tenv' -> good (length h) tenv env h ->
  exists env' h', runs env h ss = Ok (env', h') /\ good (length h') tenv' env' h' /\ keeps h h'.
Proof.
  induction ss as [|s ss' IH]; intros W tenv env h tenv' C K G.
  - cbn in K. injection K as <-. exists env, h. split; [reflexivity|]. split; [exact G | apply keeps_refl].
  - inversion W as [|? ? W1 W2]; subst. inversion C as [|? ? C1 C2]; subst. cbn [checks] in K. destruct (check tenv s) as [tenv1|] eqn:K1; [|discriminate].
    destruct (W1 tenv env h tenv1 C1 K1 G) as (env1 & h1 & E1 & G1 & S1). destruct (IH W2 tenv1 env1 h1 tenv' C2 K G1) as (env2 & h2 & E2 & G2 & S2).
    exists env2, h2. cbn [runs]. rewrite E1. cbn [obind]. split; [exact E2|]. split; [exact G2 | eapply keeps_trans; eassumption].
Qed.

Lemma print_usable tenv env h e t l r h1 id h2 : good (length h) tenv env h -> typ tenv e = Some (t, l) ->
  eval env e h = (r, h1) -> bind_ref r h1 = (id, h2) -> usable h2 id = true /\ exists n, h2 = h ++ n.
Proof.
  intros G T Ev Eb. destruct (eval_ok e (length h) tenv env h t l r h1 (le_n _) G T Ev) as [[n1 ->] R].
  assert (L2 : length h <= length (h ++ n1)) by (rewrite app_length; lia).
  destruct (bind_ok _ _ t e r id h2 L2 R Eb) as [[n2 ->] B]. split.
  - apply usable_spec. split; [exact (b_alive _ _ _ _ _ B) | exact (b_sound _ _ _ _ _ B)].
  - exists (n1 ++ n2). now rewrite app_assoc.
Qed.

Lemma run_well s : runs_well s.
Proof.
  induction s as [e|e|e body IH|body IH] using stmt_ind0; intros tenv env h tenv' C K G.
  - inversion C as [? Ke| | |]; subst. cbn [check run] in *. destruct (typ tenv e) as [[t l]|] eqn:T; [|discriminate]. cbn in K. injection K as <-.
    destruct (eval env e h) as [r h1] eqn:Ev. destruct (eval_ok e (length h) tenv env h t l r h1 (le_n _) G T Ev) as [[n ->] R].
    destruct (copied r (h ++ n)) as [k refs] eqn:Ec. pose proof (copied_ok _ _ _ _ _ _ _ R Ec) as [Q1 Q2 Q3 Q4].
    apply Q4 in Ke. eexists. eexists. split; [reflexivity|]. set (h1 := h ++ n) in *. fold (declared (length h) h1 k refs).
    assert (KS : keeps h (declared (length h) h1 k refs)).
    { unfold declared. eapply keeps_trans; [|apply keeps_app]. apply keeps_kill; [apply keeps_app | lia]. }
    split; [|exact KS]. unfold good. apply Forall2_app.
    + apply good_more with (a := length h); [apply KS|]. now apply KS.
    + constructor; [|constructor]. cbn [fst]. constructor.
      * rewrite declared_length. lia.
      * apply declared_alive.
      * rewrite declared_kind. exact Q1.
      * rewrite declared_kind, declared_refs. exact Q2.
      * apply usable_spec. now apply declared_usable.
      * rewrite declared_refs. intros j I. rewrite declared_touched in I by exact Q3. apply Ke in I. rewrite declared_length. unfold h1. rewrite app_length. lia.
  - cbn [check run] in *. destruct (typ tenv e) as [[t l]|] eqn:T; [|discriminate]. assert (tenv' = tenv) as -> by (destruct t; congruence).
    destruct (eval env e h) as [r h1] eqn:Ev. destruct (bind_ref r h1) as [id h2] eqn:Eb.
    destruct (print_usable _ _ _ _ _ _ _ _ _ _ G T Ev Eb) as [U [n ->]]. rewrite U. eexists. eexists. split; [reflexivity|].
    assert (KS : keeps h (kill (length h) None (h ++ n))) by (apply keeps_kill; [apply keeps_app | lia]).
    split; [|exact KS]. apply good_more with (a := length h); [apply KS|]. now apply KS.
  - inversion C as [| |? ? O Cb|]; subst. rewrite check_for in K. rewrite run_for. destruct (typ tenv e) as [[t l]|] eqn:T; [|discriminate].
    destruct (iterable t) eqn:It; [|discriminate]. destruct (checks tenv body) as [tb|] eqn:Kb; [|discriminate]. injection K as <-.
    destruct (eval env e h) as [r h1] eqn:Ev. destruct (bind_ref r h1) as [id h2] eqn:Eb.
    pose proof (proj2 (for_usable _ _ _ _ _ _ _ _ _ _ _ eq_refl G T It Ev Eb) O) as U. cbn zeta. rewrite U.
    destruct (print_usable _ _ _ _ _ _ _ _ _ _ G T Ev Eb) as [_ [n ->]]. set (h3 := kill _ _ (h ++ n)).
    assert (K3 : keeps h h3) by (apply keeps_kill; [apply keeps_app | lia]).
    assert (G3 : good (length h3) tenv env h3) by (apply good_more with (a := length h); [apply K3 | now apply K3]).
    destruct (list_runs body IH tenv env h3 tb Cb Kb G3) as (env4 & h4 & E4 & _ & K4). rewrite E4. cbn [obind].
    eexists. eexists. split; [reflexivity|].
    assert (KS : keeps h (kill (length h) None h4)) by (apply keeps_kill; [eapply keeps_trans; eassumption | lia]).
    split; [|exact KS]. apply good_more with (a := length h); [apply KS|]. now apply KS.
  - inversion C as [| | |? Cb]; subst. rewrite check_block in K. rewrite run_block. destruct (checks tenv body) as [tb|] eqn:Kb; [|discriminate]. injection K as <-.
    destruct (list_runs body IH tenv env h tb Cb Kb G) as (env4 & h4 & E4 & _ & K4). rewrite E4. cbn [obind].
    eexists. eexists. split; [reflexivity|]. assert (KS : keeps h (kill (length h) None h4)) by (apply keeps_kill; [exact K4 | lia]).
    split; [|exact KS]. apply good_more with (a := length h); [apply KS|]. now apply KS.
Qed.

Lemma all_run_well ss : Forall runs_well ss.
Proof. induction ss; constructor; [apply run_well | assumption]. Qed.

Lemma careful_runs ss : compiles ss = true -> Forall careful ss -> exists env h, run_all ss = Ok (env, h).
Proof.
  unfold compiles, run_all. rewrite check_block. intros K C. destruct (checks [] ss) as [tb|] eqn:Kb; [|discriminate].
  assert (Kb' : check [] (SBlock ss) = Some []) by (rewrite check_block; now rewrite Kb).
  destruct (run_well (SBlock ss) [] [] [] [] (c_block _ C) Kb' (Forall2_nil _)) as (env & h & E & _). eauto.
Qed.

(** ** One careless statement *)
Lemma checks_app tenv a b : checks tenv (a ++ b) = match checks tenv a with Some t => checks t b | None => None end.
Proof. revert tenv. induction a as [|s a IH]; intros tenv; [reflexivity|]. cbn [app checks]. destruct (check tenv s); [apply IH | reflexivity]. Qed.

Lemma runs_app env h a b : runs env h (a ++ b) = obind (runs env h a) (fun '(env1, h1) => runs env1 h1 b).
Proof.
  revert env h. induction a as [|s a IH]; intros env h; [reflexivity|]. cbn [app runs]. destruct (run env h s) as [[env1 h1]| |]; cbn [obind]; auto.
Qed.

Lemma run_all_UB ss : run_all ss = UB <-> runs [] [] ss = UB.
Proof. unfold run_all. rewrite run_block. destruct (runs [] [] ss) as [[env h]| |]; cbn [obind]; split; intros H; try discriminate; reflexivity. Qed.

Lemma reach ss rest : compiles (ss ++ rest) = true -> Forall careful ss ->
  exists tenv env h, checks [] ss = Some tenv /\ good (length h) tenv env h /\ (exists t, checks tenv rest = Some t) /\
    (run_all (ss ++ rest) = UB <-> runs env h rest = UB).
Proof.
  unfold compiles. rewrite check_block, checks_app. intros K C. destruct (checks [] ss) as [tenv|] eqn:Kb; [|discriminate].
  destruct (list_runs ss (all_run_well ss) [] [] [] tenv C Kb (Forall2_nil _)) as (env & h & E & G & _).
  exists tenv, env, h. split; [reflexivity|]. split; [exact G|]. split; [destruct (checks tenv rest); [eauto | discriminate]|].
  rewrite run_all_UB, runs_app, E. reflexivity.
Qed.

Lemma loop_exact ss e : compiles (ss ++ [SFor e []]) = true -> Forall careful ss ->
  (run_all (ss ++ [SFor e []]) = UB <-> ~ loopable e).
Proof.
  intros K C. destruct (reach ss _ K C) as (tenv & env & h & _ & G & [t' Kt] & ->). cbn [checks] in Kt. rewrite check_for in Kt.
  destruct (typ tenv e) as [[t l]|] eqn:T; [|discriminate]. destruct (iterable t) eqn:It; [|discriminate].
  cbn [runs]. rewrite run_for. destruct (eval env e h) as [r h1] eqn:Ev. destruct (bind_ref r h1) as [id h2] eqn:Eb. cbn zeta.
  pose proof (for_usable _ _ _ _ _ _ _ _ _ _ _ eq_refl G T It Ev Eb) as U.
  destruct (usable _ id); cbn [obind runs]; split; intros H; try discriminate.
  - exfalso. apply H. now apply U.
  - intros O. apply U in O. discriminate.
  - reflexivity.
Qed.

Lemma good_length a tenv env h : good a tenv env h -> length tenv = length env.
Proof. induction 1; cbn; congruence. Qed.

Lemma nth_end {A} (l : list A) x d : nth (length l) (l ++ [x]) d = x.
Proof. rewrite app_nth2, Nat.sub_diag by lia. reflexivity. Qed.

Lemma variable_exact ss e use tenv : checks [] ss = Some tenv -> use = SPrint (EVar (length tenv)) \/ use = SFor (EVar (length tenv)) [] ->
  compiles (ss ++ [SAuto e; use]) = true -> Forall careful ss -> (run_all (ss ++ [SAuto e; use]) = UB <-> ~ kept e).
Proof.
  intros Kt Us K C. destruct (reach ss _ K C) as (tenv' & env & h & Kt' & G & [t' Kr] & ->). rewrite Kt in Kt'. injection Kt' as <-.
  cbn [checks] in Kr. destruct (check tenv (SAuto e)) as [t1|] eqn:K1; [|discriminate]. cbn [check] in K1.
  destruct (typ tenv e) as [[t l]|] eqn:T; [|discriminate]. clear K1 Kr.
  cbn [runs]. cbn [run]. destruct (eval env e h) as [r h1] eqn:Ev.
  destruct (eval_ok e (length h) tenv env h t l r h1 (le_n _) G T Ev) as [_ R].
  destruct (copied r h1) as [k refs] eqn:Ec. pose proof (copied_ok _ _ _ _ _ _ _ R Ec) as [_ _ Q3 Q4]. cbn [obind].
  fold (declared (length h) h1 k refs). set (h' := declared (length h) h1 k refs).
  pose proof (declared_usable (length h) h1 k refs Q3) as U. fold h' in U. rewrite <- Q4 in U.
  assert (Ru : run (env ++ [length h1]) h' use = UB <-> usable h' (length h1) <> true).
  { destruct Us as [-> | ->].
    - cbn [run eval bind_ref]. rewrite (good_length _ _ _ _ G), nth_end. destruct (usable h' (length h1)); split; intros H; try discriminate; try reflexivity. now destruct H.
    - rewrite run_for. cbn [eval bind_ref extends runs]. rewrite (good_length _ _ _ _ G), nth_end. cbn zeta.
      assert (X : usable (kill (length h') None h') (length h1) = usable h' (length h1)).
      { apply eq_true_iff_eq. rewrite !usable_spec, refs_kill. unfold sound.
        assert (AK : forall j, alive (kill (length h') None h') j = alive h' j).
        { intros j. rewrite alive_kill. destruct (alive h' j) eqn:A; [|reflexivity]. apply alive_lt in A. destruct (Nat.ltb_spec j (length h')); [reflexivity | lia]. }
        rewrite AK. split; intros [A B]; (split; [exact A|]); intros j I.
        - rewrite <- AK. apply B. now rewrite touched_kill.
        - rewrite AK. rewrite touched_kill in I. now apply B. }
      rewrite X. destruct (usable h' (length h1)); cbn [obind]; split; intros H; try discriminate; try reflexivity. now destruct H. }
  assert (Z : obind (run (env ++ [length h1]) h' use) (fun '(env1, h2) => Ok (env1, h2)) = UB <-> run (env ++ [length h1]) h' use = UB).
  { destruct (run (env ++ [length h1]) h' use) as [[? ?]| |]; cbn; split; intros H; try discriminate; reflexivity. }
  rewrite Z, Ru. split; intros H H'; apply H; now apply U.
Qed.

(** ** The assertion in zipped *)
Lemma direct_lvalue tenv e t : typ tenv e = Some (t, true) -> direct e -> lasting e.
Proof.
  revert t. induction e as [x| | | |e IH|e IH|e IH|e IH|e IH|es IH] using ex_ind0; intros t T D; cbn [typ] in T; try discriminate.
  - constructor.
  - inversion D; subst. constructor. destruct (typ tenv e) as [[u l]|]; [|discriminate]. destruct u; try discriminate. injection T as _ ->. eauto.
  - inversion D; subst. now constructor.
  - destruct (typ tenv e) as [[? ?]|]; discriminate.
  - destruct (typ tenv e) as [[[] ?]|]; discriminate.
  - destruct (typ tenv e) as [[[] ?]|]; discriminate.
  - destruct (negb _ && _); discriminate.
Qed.

Lemma zip_guarded tenv es tl : typ tenv (EZip es) = Some tl -> direct (EZip es) -> kept (EZip es) /\ loopable (EZip es).
Proof.
  destruct tl as [t l]. intros T D. apply typ_zip in T as (_ & _ & _ & Z).
  assert (A : forall e, In e es -> lasting e \/ numbers e).
  { intros e I. inversion D as [| | | | | | | | |? De]; subst. rewrite Forall_forall in Z. destruct (Z e I) as (u & k & T & It & [-> |B]).
    - left. exact (direct_lvalue tenv e u T (De e I)).
    - destruct u; try discriminate. exact (iota_type tenv e k T). }
  split; now constructor.
Qed.

Lemma checks_length ss : forall tenv t, checks tenv ss = Some t -> length t = length tenv + declares ss.
Proof.
  induction ss as [|s ss' IH]; intros tenv t K; [cbn in K; injection K as <-; cbn; lia|].
  cbn [checks] in K. destruct (check tenv s) as [t1|] eqn:K1; [|discriminate]. apply IH in K. rewrite K.
  destruct s as [e|e|e body|body].
  - cbn [check] in K1. destruct (typ tenv e) as [[u l]|]; [|discriminate]. injection K1 as <-. rewrite app_length. cbn. lia.
  - cbn [check] in K1. destruct (typ tenv e) as [[u l]|]; [|discriminate]. assert (t1 = tenv) as -> by (destruct u; congruence). reflexivity.
  - rewrite check_for in K1. destruct (typ tenv e) as [[u l]|]; [|discriminate]. destruct (iterable u); [|discriminate].
    destruct (checks tenv body); [|discriminate]. injection K1 as <-. reflexivity.
  - rewrite check_block in K1. destruct (checks tenv body); [|discriminate]. injection K1 as <-. reflexivity.
Qed.

Lemma declared_exact ss e use : use = SPrint (EVar (declares ss)) \/ use = SFor (EVar (declares ss)) [] ->
  compiles (ss ++ [SAuto e; use]) = true -> Forall careful ss -> (run_all (ss ++ [SAuto e; use]) = UB <-> ~ kept e).
Proof.
  intros Us K C. pose proof K as K'. unfold compiles in K'. rewrite check_block, checks_app in K'.
  destruct (checks [] ss) as [tenv|] eqn:Kt; [|discriminate]. apply (variable_exact ss e use tenv); auto.
  rewrite (checks_length _ _ _ Kt). exact Us.
Qed.

(** Programs that only zip. *)
Lemma zip_loop ss es : compiles (ss ++ [SFor (EZip es) []]) = true -> Forall careful ss -> direct (EZip es) ->
  exists env h, run_all (ss ++ [SFor (EZip es) []]) = Ok (env, h).
Proof.
  intros K C D. apply careful_runs; [exact K|]. apply Forall_app. split; [exact C|]. constructor; [|constructor].
  constructor; [|constructor]. unfold compiles in K. rewrite check_block, checks_app in K. destruct (checks [] ss) as [tenv|]; [|discriminate].
  cbn [checks] in K. rewrite check_for in K. destruct (typ tenv (EZip es)) as [tl|] eqn:T; [|discriminate].
  exact (proj2 (zip_guarded tenv es tl T D)).
Qed.
