From Coq Require Import List Arith Bool Lia.
From Verif Require Import Base HandModel HandSpec HandProofs HandStepProofs HandRunProofs.
Import ListNotations.

(** * Signals that change places *)

Lemma live_on st x y z s l a : inv st x y z -> sig st s = Some l -> In a l -> st_mem st a <> None.
Proof.
  intros I E H. apply (i_live _ _ _ _ I). enough (0 < srefs st a) by lia. apply occ_in, in_elems. now exists s, l.
Qed.

Lemma swap_signals_does st s t l r : good st -> s <> t -> sig st s = Some l -> sig st t = Some r ->
  exists st', obind (each (rebind (Some s)) r (st_mem st)) (fun m => obind (each (rebind (Some t)) l m) (fun m =>
      Ok (with_mem (set_sig (set_sig st s (Some r)) t (Some l)) m))) = Ok st' /\ good st' /\
    abs st' = sigs (abs st) (upd (upd (w_sigs (abs st)) s (Some (map (name (st_mem st)) r))) t (Some (map (name (st_mem st)) l))).
Proof.
  intros I Ne Es Et. set (st2 := set_sig (set_sig st s (Some r)) t (Some l)).
  pose proof (nth_in _ _ _ Es) as Ls. pose proof (nth_in _ _ _ Et) as Lt.
  assert (Sg : forall u, sig st2 u = if Nat.eqb t u then Some l else if Nat.eqb s u then Some r else sig st u).
  { intros u. unfold sig, st2. cbn [set_sig with_sigs st_sigs]. rewrite !nth_upd, length_upd.
    apply Nat.ltb_lt in Ls, Lt. rewrite Ls, Lt, !andb_true_r. reflexivity. }
  assert (J : inv st2 zero zero (r ++ l ++ [])).
  { apply (inv_sigs st _ zero zero [] zero _ I).
    - intros a. unfold srefs.
      pose proof (occ_upd elems None (st_sigs st) s (Some r) a eq_refl Ls) as U.
      pose proof (occ_upd elems None (upd (st_sigs st) s (Some r)) t (Some l) a eq_refl) as V. rewrite length_upd in V. specialize (V Lt).
      rewrite nth_upd in V. apply Nat.eqb_neq in Ne. rewrite Ne in V. cbn [andb] in V. unfold sig in Es, Et. rewrite Es in U. rewrite Et in V.
      cbn [elems] in *. cbn [set_sig with_sigs st_sigs]. lia.
    - intros a Ha. split; [intros []|]. intros u. unfold sends. change (with_sigs st (st_sigs st2)) with st2.
      change (sig (with_sigs st (upd (st_sigs (set_sig st s (Some r))) t (Some l))) u) with (sig st2 u). rewrite Sg.
      rewrite !in_app_iff in Ha.
      destruct (Nat.eqb_spec t u) as [<-|Nt]; [|destruct (Nat.eqb_spec s u) as [<-|Ns]; [|reflexivity]];
        (split; intros (q & Eq & Hq); exfalso; [injection Eq as <- | rewrite ?Es, ?Et in Eq; injection Eq as <-]; tauto).
    - intros u q Eq. change (nth u (st_sigs st2) None = Some q) in Eq. change (sig st2 u = Some q) in Eq. rewrite Sg in Eq.
      destruct (Nat.eqb t u); [injection Eq as <-; exact (i_nodup _ _ _ _ I s l Es)|].
      destruct (Nat.eqb s u); [injection Eq as <-; exact (i_nodup _ _ _ _ I t r Et) | exact (i_nodup _ _ _ _ I u q Eq)]. }
  assert (Only : forall a u, sends st2 u a -> (In a r -> u = s) /\ (In a l -> u = t)).
  { intros a u (q & Eq & Hq). rewrite Sg in Eq.
    assert (D : ~ (In a l /\ In a r)).
    { intros [A B]. apply Ne, (sends_fun st s t a I); [now exists l | now exists r]. }
    destruct (Nat.eqb_spec t u) as [<-|Nt]; [injection Eq as <-; split; [intros H; destruct D; now split | reflexivity]|].
    destruct (Nat.eqb_spec s u) as [<-|Ns]; [injection Eq as <-; split; [reflexivity | intros H; destruct D; now split]|].
    split; intros H; exfalso.
    - apply Nt, (sends_fun st t u a I); [now exists r | now exists q].
    - apply Ns, (sends_fun st s u a I); [now exists l | now exists q]. }
  destruct (each_rebind_inv (Some s) r st2 zero zero (l ++ []) J) as (m & Em & J1 & K1 & M1).
  { intros a Ha. exact (live_on st _ _ _ t r a I Et Ha). }
  { intros a u Ha. split.
    - intros [= <-]. exists r. rewrite Sg, Nat.eqb_refl. apply not_eq_sym, Nat.eqb_neq in Ne. now rewrite Ne.
    - intros H. f_equal. symmetry. now apply (Only a u H). }
  change (st_mem st2) with (st_mem st) in Em. rewrite Em. cbn [obind].
  destruct (each_rebind_inv (Some t) l (with_mem st2 m) zero zero [] J1) as (m2 & Em2 & J2 & K2 & _).
  { intros a Ha. apply M1. exact (live_on st _ _ _ s l a I Es Ha). }
  { intros a u Ha. split.
    - intros [= <-]. exists l. change (sig (with_mem st2 m) t) with (sig st2 t). now rewrite Sg, Nat.eqb_refl.
    - intros H. f_equal. symmetry. now apply (Only a u H). }
  cbn [with_mem st_mem] in Em2. rewrite Em2. cbn [obind]. eexists. split; [reflexivity|]. split; [exact J2|].
  etransitivity; [exact (names_kept _ (st_mem st) _ _ _ J2 (keeps_trans _ _ _ K1 K2))|]. unfold view, sigs, abs. cbn. now rewrite !map_upd.
Qed.

Lemma nth_app_one {A} (l : list (option A)) v u : nth u (l ++ [v]) None = if Nat.eqb u (length l) then v else nth u l None.
Proof.
  destruct (Nat.lt_ge_cases u (length l)) as [L|L].
  - rewrite app_nth1 by exact L. destruct (Nat.eqb_spec u (length l)); [lia | reflexivity].
  - rewrite app_nth2 by exact L. destruct (Nat.eqb_spec u (length l)) as [->|Ne]; [now rewrite Nat.sub_diag|].
    rewrite (nth_overflow l) by exact L. destruct (u - length l) as [|n] eqn:E; [lia | now destruct n].
Qed.

Lemma move_signal_does st s l : good st -> sig st s = Some l ->
  exists st', obind (each (rebind (Some (length (st_sigs st)))) l (st_mem st)) (fun m =>
      Ok (with_mem (with_sigs st (upd (st_sigs st) s (Some []) ++ [Some l])) m)) = Ok st' /\ good st' /\
    abs st' = sigs (abs st) (upd (w_sigs (abs st)) s (Some []) ++ [Some (map (name (st_mem st)) l)]).
Proof.
  intros I Es. pose proof (nth_in _ _ _ Es) as Ls. set (n := length (st_sigs st)).
  set (st2 := with_sigs st (upd (st_sigs st) s (Some []) ++ [Some l])).
  assert (Sg : forall u, sig st2 u = if Nat.eqb u n then Some l else if Nat.eqb s u then Some [] else sig st u).
  { intros u. unfold sig, st2. cbn [with_sigs st_sigs]. rewrite nth_app_one, nth_upd, length_upd. apply Nat.ltb_lt in Ls. fold n in Ls |- *.
    rewrite Ls, andb_true_r. reflexivity. }
  assert (Out : forall u q, sig st u = Some q -> u <> n) by (intros u q E; pose proof (nth_in _ _ _ E); lia).
  assert (J : inv st2 zero zero (l ++ [])).
  { apply (inv_sigs st _ zero zero [] zero _ I).
    - intros a. unfold srefs. pose proof (occ_upd elems None (st_sigs st) s (Some []) a eq_refl Ls) as U. unfold sig in Es. rewrite Es in U.
      cbn [elems] in *. rewrite flat_map_app, occ_app. cbn [flat_map elems]. rewrite app_nil_r. change (occ [] a) with 0 in U. lia.
    - intros a Ha. split; [intros []|]. intros u. unfold sends.
      change (with_sigs st (upd (st_sigs st) s (Some []) ++ [Some l])) with st2. rewrite Sg. rewrite app_nil_r in Ha.
      destruct (Nat.eqb_spec u n) as [->|Nu].
      + split; intros (q & Eq & Hq); exfalso; [injection Eq as <-; now apply Ha | now apply (Out n q Eq)].
      + destruct (Nat.eqb_spec s u) as [<-|Ns]; [|reflexivity]. split; intros (q & Eq & Hq); exfalso.
        * injection Eq as <-. destruct Hq.
        * rewrite Es in Eq. injection Eq as <-. now apply Ha.
    - intros u q Eq. change (sig st2 u = Some q) in Eq. rewrite Sg in Eq.
      destruct (Nat.eqb u n); [injection Eq as <-; exact (i_nodup _ _ _ _ I s l Es)|].
      destruct (Nat.eqb s u); [injection Eq as <-; constructor | exact (i_nodup _ _ _ _ I u q Eq)]. }
  destruct (each_rebind_inv (Some n) l st2 zero zero [] J) as (m & Em & J1 & K1 & _).
  { intros a Ha. exact (live_on st _ _ _ s l a I Es Ha). }
  { intros a u Ha. split.
    - intros [= <-]. exists l. now rewrite Sg, Nat.eqb_refl.
    - intros (q & Eq & Hq). f_equal. rewrite Sg in Eq. destruct (Nat.eqb_spec u n) as [->|Nu]; [reflexivity|].
      destruct (Nat.eqb_spec s u) as [<-|Ns]; [injection Eq as <-; destruct Hq|].
      exfalso. apply Ns, (sends_fun st s u a I); [now exists l | now exists q]. }
  change (st_mem st2) with (st_mem st) in Em. rewrite Em. cbn [obind]. eexists. split; [reflexivity|]. split; [exact J1|].
  etransitivity; [exact (names_kept _ (st_mem st) _ _ _ J1 K1)|]. unfold view, sigs, abs. cbn. now rewrite map_app, map_upd.
Qed.

(** * Connecting *)

Lemma connect_does st s l (front : bool) a : good st -> sig st s = Some l -> st_mem st a = None ->
  let l' := if front then a :: l else l ++ [a] in
  let st1 := mkstate (set (st_mem st) a (Some (mkcell (st_calls st) 1 (Some s) 0))) (upd (st_sigs st) s (Some l')) (st_vars st) (S (st_calls st)) in
  exists st', obind (add_ref a (st_mem st1)) (fun m => Ok (new_var (with_mem st1 m) (Conn, Some a))) = Ok st' /\ good st' /\
    abs st' = act (Connect s front) (abs st).
Proof.
  intros I Es Ma l' st1. pose proof (nth_in _ _ _ Es) as Ls.
  assert (Z : vrefs st a = 0 /\ srefs st a = 0).
  { destruct (Nat.eq_dec (vrefs st a + srefs st a + zero a) 0) as [H|H]; [unfold zero in H; lia|].
    exfalso. apply (i_live _ _ _ _ I a); [lia | exact Ma]. }
  assert (Hin : forall b, In b l' <-> b = a \/ In b l).
  { intros b. unfold l'. destruct front; cbn; rewrite ?in_app_iff; cbn; intuition. }
  assert (Nl : ~ In a l).
  { intros H. assert (0 < srefs st a) by (apply occ_in, in_elems; now exists s, l). lia. }
  assert (Ol : forall b, occ l' b = (if Nat.eqb a b then 1 else 0) + occ l b).
  { intros b. unfold l'. destruct front; [apply occ_cons|]. rewrite occ_app, (occ_cons a). change (occ [] b) with 0. lia. }
  assert (Sg : forall u, sig st1 u = if Nat.eqb s u then Some l' else sig st u).
  { intros u. unfold sig, st1. cbn. rewrite nth_upd. apply Nat.ltb_lt in Ls. now rewrite Ls, andb_true_r. }
  assert (Sr : forall b, srefs st1 b = (if Nat.eqb a b then 1 else 0) + srefs st b).
  { intros b. unfold srefs, st1. cbn [st_sigs]. pose proof (occ_upd elems None (st_sigs st) s (Some l') b eq_refl Ls) as U. unfold sig in Es. rewrite Es in U.
    cbn [elems] in U. rewrite Ol in U. lia. }
  assert (Br : brefs st a = 0).
  { destruct (brefs st a) as [|k] eqn:E; [reflexivity|]. assert (H : 0 < brefs st a) by lia. apply occ_in, in_bptrs in H as (i & Hi).
    assert (0 < vrefs st a) by (apply occ_in, in_ptrs; now exists i, Blocker). lia. }
  assert (J : good st1).
  { pose proof I as [A B C D E F G]. constructor; cbn [st1 st_mem st_calls].
    - intros b c H. change (vrefs st1 b) with (vrefs st b). rewrite Sr. destruct (Nat.eqb_spec a b) as [<-|Ne].
      + rewrite set_same in H. injection H as <-. cbn. unfold zero. lia.
      + rewrite set_other in H by exact Ne. exact (A b c H).
    - intros b H. change (vrefs st1 b) with (vrefs st b) in H. rewrite Sr in H. destruct (Nat.eqb_spec a b) as [Hb|Ne].
      + subst b. rewrite set_same. discriminate.
      + rewrite set_other by exact Ne. exact (B b H).
    - intros b c H. change (brefs st1 b) with (brefs st b). destruct (Nat.eq_dec a b) as [<-|Ne].
      + rewrite set_same in H. injection H as <-. cbn. rewrite Br. reflexivity.
      + rewrite set_other in H by exact Ne. exact (C b c H).
    - intros b1 b2 d1 d2 H1 H2 H. destruct (Nat.eq_dec a b1) as [<-|N1], (Nat.eq_dec a b2) as [<-|N2]; try reflexivity;
        rewrite ?set_same, ?(set_other _ a b1), ?(set_other _ a b2) in * by assumption.
      + injection H1 as <-. cbn in H. specialize (E b2 d2 H2). lia.
      + injection H2 as <-. cbn in H. specialize (E b1 d1 H1). lia.
      + exact (D _ _ _ _ H1 H2 H).
    - intros b c H. destruct (Nat.eq_dec a b) as [<-|Ne].
      + rewrite set_same in H. injection H as <-. cbn. lia.
      + rewrite set_other in H by exact Ne. specialize (E b c H). lia.
    - intros b c t H _. unfold sends. rewrite Sg. destruct (Nat.eq_dec a b) as [<-|Ne].
      + rewrite set_same in H. injection H as <-. cbn. split.
        * intros [= <-]. rewrite Nat.eqb_refl. exists l'. split; [reflexivity | apply Hin; now left].
        * intros (q & Eq & Hq). destruct (Nat.eqb_spec s t) as [<-|Nt]; [reflexivity|]. exfalso.
          assert (0 < srefs st a) by (apply occ_in, in_elems; now exists t, q). lia.
      + rewrite set_other in H by exact Ne. rewrite (F b c t H (fun K => K)). unfold sends.
        destruct (Nat.eqb_spec s t) as [<-|Nt]; [|reflexivity]. rewrite Es. split; intros (q & Eq & Hq); injection Eq as <-.
        * exists l'. split; [reflexivity | apply Hin; now right].
        * exists l. split; [reflexivity|]. apply Hin in Hq as [->|Hq]; [now destruct Ne | exact Hq].
    - intros t q H. rewrite Sg in H. destruct (Nat.eqb s t); [|exact (G t q H)]. injection H as <-.
      pose proof (G s l Es) as Nd. apply (NoDup_count_occ Nat.eq_dec). intros b. change (occ l' b <= 1). rewrite Ol.
      pose proof (proj1 (NoDup_count_occ Nat.eq_dec l) Nd b) as Nb. change (occ l b <= 1) in Nb. destruct (Nat.eqb_spec a b) as [Hb|Ne]; [|lia].
      assert (~ 0 < occ l b) by (subst b; rewrite occ_in; exact Nl). lia. }
  destruct (add_ref_inv st1 zero zero [] a J) as (m & Em & J1 & K).
  { unfold st1. cbn. rewrite set_same. discriminate. }
  rewrite Em. cbn [obind]. eexists. split; [reflexivity|].
  assert (G : good (new_var (with_mem st1 m) (Conn, Some a))) by (apply inv_new; exact J1).
  split; [exact G|]. rewrite (names_kept _ (st_mem st1) _ _ _ G K), view_new.
  assert (Na : name (st_mem st1) a = st_calls st) by (unfold name, st1; cbn; now rewrite set_same).
  assert (Nb : forall b, b <> a -> name (st_mem st1) b = name (st_mem st) b).
  { intros b Hb. unfold name, st1. cbn. now rewrite set_other by congruence. }
  cbn [act]. unfold abs. rewrite slots_view, Es. cbn [option_map]. unfold named_by. cbn [fst snd option_map]. rewrite Na.
  change (w_calls (view (st_mem st) st)) with (st_calls st). f_equal. unfold view. cbn [st1 st_sigs st_vars st_calls w_sigs w_vars]. f_equal.
  - change (st_sigs (with_mem st1 m)) with (upd (st_sigs st) s (Some l')). rewrite map_upd. cbn [option_map].
    assert (X : map (option_map (map (name (st_mem st1)))) (st_sigs st) = map (option_map (map (name (st_mem st)))) (st_sigs st)).
    { apply map_ext_in. intros o Ho. destruct o as [q|]; [|reflexivity]. cbn. f_equal. apply map_ext_in. intros b Hb. apply Nb.
      intros ->. assert (0 < srefs st a) by (apply occ_in, in_flat_map; exists (Some q); now split). lia. }
    rewrite X. f_equal. f_equal.
    assert (Y : map (name (st_mem st1)) l = map (name (st_mem st)) l).
    { apply map_ext_in. intros b Hb. apply Nb. intros ->. now apply Nl. }
    unfold l'. destruct front; cbn [map]; rewrite ?map_app, Y; cbn [map]; now rewrite Na.
  - change (st_vars (with_mem st1 m)) with (st_vars st).
    apply map_ext_in. intros o Ho. destruct o as [[k [b|]]|]; [|reflexivity..]. cbn. unfold named_by. cbn. do 3 f_equal. apply Nb.
    intros ->. assert (0 < vrefs st a) by (apply occ_in, in_flat_map; exists (Some (k, Some a)); split; [exact Ho | now left]). lia.
Qed.

(** * Addresses *)

(** Fewer slots than calls, hence a free address among the first ones. *)
Lemma free_address st : good st -> exists a, a <= st_calls st /\ st_mem st a = None.
Proof.
  intros I. destruct (existsb (fun a => match st_mem st a with None => true | Some _ => false end) (seq 0 (S (st_calls st)))) eqn:E.
  - apply existsb_exists in E as (a & Ha & H). apply in_seq in Ha. exists a. split; [lia|]. now destruct (st_mem st a).
  - exfalso. assert (A : forall a, In a (seq 0 (S (st_calls st))) -> exists c, st_mem st a = Some c).
    { intros a Ha. destruct (st_mem st a) as [c|] eqn:M; [now exists c|]. exfalso.
      assert (X : existsb (fun a => match st_mem st a with None => true | Some _ => false end) (seq 0 (S (st_calls st))) = true).
      { apply existsb_exists. exists a. split; [exact Ha | now rewrite M]. }
      congruence. }
    assert (N : NoDup (map (name (st_mem st)) (seq 0 (S (st_calls st))))).
    { apply NoDup_nth with (d := name (st_mem st) 0). intros i j Hi Hj. rewrite map_length, seq_length in Hi, Hj. rewrite !(map_nth (name (st_mem st))).
      rewrite !seq_nth by assumption. cbn [plus]. intros H. destruct (A i ltac:(apply in_seq; lia)) as [c Mc]. destruct (A j ltac:(apply in_seq; lia)) as [d Md].
      unfold name in H. rewrite Mc, Md in H. exact (i_uniq _ _ _ _ I i j c d Mc Md H). }
    assert (Inc : incl (map (name (st_mem st)) (seq 0 (S (st_calls st)))) (seq 0 (st_calls st))).
    { intros g Hg. apply in_map_iff in Hg as (a & <- & Ha). destruct (A a Ha) as [c Mc]. unfold name. rewrite Mc. apply in_seq.
      pose proof (i_calls _ _ _ _ I a c Mc). lia. }
    pose proof (NoDup_incl_length N Inc) as L. rewrite map_length, !seq_length in L. lia.
Qed.

(** * Every operation *)

Lemma put_same w i v : named w i = v -> put w i v = w.
Proof. intros <-. unfold put, named. rewrite upd_same. now destruct w. Qed.
Lemma ok_does o st : good st -> act o (abs st) = abs st -> does o st (Ok st).
Proof. intros I E. exists st. split; [reflexivity | split; [exact I | now symmetry]]. Qed.

Theorem step_does pick o st : honest pick -> good st -> does o st (step pick o st).
Proof.
  intros Hp I. pose proof (fun i k a => ptr_live st _ _ _ i k a I) as Lv.
  assert (Nv : forall i, named (abs st) i = option_map (named_by (st_mem st)) (var st i)) by (intros i; apply named_view).
  assert (Sv : forall s, slots (abs st) s = option_map (map (name (st_mem st))) (sig st s)) by (intros s; apply slots_view).
  destruct o as [|s front|s|k|i|i j|i|i j|i j|i|i|i|i|i|i|s|s|s t|s]; cbn [step].
  - (* New_signal *)
    assert (G : good (with_sigs st (st_sigs st ++ [Some []]))).
    { apply (inv_sigs st _ zero zero [] zero [] I).
      - intros a. rewrite flat_map_app, occ_app. cbn [flat_map elems app]. unfold srefs, zero. change (occ [] a) with 0. lia.
      - intros a _. split; [intros []|]. intros t. unfold sends, sig. cbn [with_sigs st_sigs]. rewrite nth_app_one.
        destruct (Nat.eqb_spec t (length (st_sigs st))) as [->|_]; [|reflexivity]. split; intros (l & E & H).
        + injection E as <-. destruct H.
        + rewrite nth_overflow in E by lia. discriminate.
      - intros t l E. rewrite nth_app_one in E. destruct (Nat.eqb t _); [injection E as <-; constructor | exact (i_nodup _ _ _ _ I t l E)]. }
    eexists. split; [reflexivity|]. split; [exact G|]. rewrite (names_kept _ (st_mem st) _ _ _ G (keeps_refl _)).
    unfold view, abs, act, sigs. cbn. now rewrite map_app.
  - (* Connect *)
    destruct (sig st s) as [l|] eqn:Es.
    + apply (connect_does st s l front _ I Es). apply Hp, (free_address st I).
    + apply ok_does; [exact I|]. cbn [act]. now rewrite Sv, Es.
  - (* Connect_nothing *)
    destruct (copy_does st Conn None Conn I ltac:(discriminate) eq_refl) as (st' & E & G & A). injection E as <-.
    eexists. split; [|split; [exact G | exact A]]. now destruct st.
  - (* Default *)
    destruct (copy_does st k None k I ltac:(discriminate) eq_refl) as (st' & E & G & A). cbn in E. injection E as <-.
    eexists. split; [|split; [exact G | exact A]]. now destruct st.
  - (* Copy *)
    destruct (var st i) as [[k p]|] eqn:E; [|apply ok_does; [exact I | cbn [act]; now rewrite Nv, E]].
    destruct (copy_does st k p k I) as (st' & Es & G & A); [intros a ->; exact (Lv _ _ _ E) | reflexivity|].
    destruct k; [|apply ok_does; [exact I | cbn [act]; now rewrite Nv, E]|];
      (exists st'; split; [exact Es|]; split; [exact G|]; cbn [act]; rewrite Nv, E; exact A).
  - (* Copy_assign *)
    destruct (var st i) as [[k p]|] eqn:Ei; [|apply ok_does; [exact I | cbn [act]; now rewrite Nv, Ei]].
    destruct (var st j) as [[k' q]|] eqn:Ej; [|apply ok_does; [exact I | cbn [act]; now rewrite !Nv, Ei, Ej]].
    unfold does. cbn [act]. rewrite !Nv, Ei, Ej. cbn [option_map named_by fst snd].
    destruct (kind_eqb k k') eqn:Kk; cbn [andb]; [|exists st; now split]. apply kind_eqb_eq in Kk. subst k'.
    destruct (kind_eqb k Scoped); cbn [andb negb]; [exists st; now split|].
    destruct (Nat.eqb_spec i j) as [Hij|Hij]; cbn [negb].
    { subst j. rewrite Ei in Ej. injection Ej as <-. exists st. split; [reflexivity|]. split; [exact I|]. symmetry. apply put_same. now rewrite Nv, Ei. }
    destruct (drop_does st i k p None I Ei eq_refl eq_refl) as (m & Em & _ & K & G). rewrite Em. cbn [obind].
    assert (Ej' : var (with_mem (set_var st i None) m) j = Some (k, q)).
    { unfold var. cbn. rewrite nth_upd. apply Nat.eqb_neq in Hij. now rewrite Hij. }
    destruct (retain_inv _ zero zero [] k q G) as (m1 & Em1 & J & K1).
    { intros a ->. exact (ptr_live _ _ _ _ j k a G Ej'). }
    cbn [with_mem st_mem] in Em1. rewrite Em1. cbn [obind]. eexists. split; [reflexivity|].
    assert (G1 : good (set_var (with_mem st m1) i (Some (k, q)))).
    { change (set_var (with_mem st m1) i (Some (k, q))) with (with_vars (with_mem (with_mem (set_var st i None) m) m1) (upd (st_vars st) i (Some (k, q)))).
      apply (inv_vars _ _ _ _ _ _ _ J); intros a.
      - pose proof (occ_set st i _ (Some (k, q)) a Ei). pose proof (occ_set st i _ None a Ei). cbn [ptr] in *.
        unfold vrefs in *. cbn [set_var with_vars with_mem st_vars] in *. change (occ [] a) with 0 in *. unfold zero. lia.
      - pose proof (occb_set st i _ (Some (k, q)) a Ei). pose proof (occb_set st i _ None a Ei). cbn [bptr] in *.
        unfold brefs in *. cbn [set_var with_vars with_mem st_vars] in *. change (occ [] a) with 0 in *. unfold zero. lia. }
    split; [exact G1|]. rewrite (names_kept _ (st_mem st) _ _ _ G1 (keeps_trans _ _ _ K K1)), view_var. reflexivity.
  - (* Move *)
    destruct (var st i) as [[k p]|] eqn:E; [|apply ok_does; [exact I | cbn [act]; now rewrite Nv, E]].
    destruct (hand_over st i k k p I E eq_refl) as [G A]. eexists. split; [reflexivity|]. split; [exact G|]. rewrite A. cbn [act]. now rewrite Nv, E.
  - (* Move_assign *)
    destruct (var st i) as [[k p]|] eqn:Ei; [|apply ok_does; [exact I | cbn [act]; now rewrite Nv, Ei]].
    destruct (var st j) as [[k' q]|] eqn:Ej; [|apply ok_does; [exact I | cbn [act]; now rewrite !Nv, Ei, Ej]].
    unfold does. cbn [act]. rewrite !Nv, Ei, Ej. cbn [option_map named_by fst snd].
    destruct (kind_eqb k k') eqn:Kk; [|exists st; now split]. apply kind_eqb_eq in Kk. subst k'.
    destruct (swap_does st i j k p q I Ei Ej) as [G A]. eexists. split; [reflexivity|]. now split.
  - (* Swap *)
    destruct (var st i) as [[k p]|] eqn:Ei; [|apply ok_does; [exact I | cbn [act]; now rewrite Nv, Ei]].
    destruct (var st j) as [[k' q]|] eqn:Ej; [|apply ok_does; [exact I | cbn [act]; now rewrite !Nv, Ei, Ej]].
    unfold does. cbn [act]. rewrite !Nv, Ei, Ej. cbn [option_map named_by fst snd].
    destruct (kind_eqb k k') eqn:Kk; [|exists st; now split]. apply kind_eqb_eq in Kk. subst k'.
    destruct (swap_does st i j k p q I Ei Ej) as [G A]. eexists. split; [reflexivity|]. now split.
  - (* Destroy *)
    destruct (var st i) as [[k p]|] eqn:E; [|apply ok_does; [exact I | cbn [act]; now rewrite Nv, E]].
    assert (X : k <> Scoped -> does (Destroy i) st (obind (drop k p (st_mem st)) (fun m => Ok (set_var (with_mem st m) i None)))).
    { intros Hk. destruct (drop_does st i k p None I E eq_refl eq_refl) as (m & Em & G & K & _). rewrite Em. eexists. split; [reflexivity|]. split; [exact G|].
      rewrite (names_kept _ (st_mem st) _ _ _ G K), view_var. cbn [act]. rewrite Nv, E. cbn. destruct k; [reflexivity | now destruct Hk | reflexivity]. }
    destruct k; [apply X; discriminate | | apply X; discriminate].
    destruct (disconnect_does st i Scoped p None I E ltac:(discriminate) eq_refl eq_refl) as (st' & Es & G & A).
    exists st'. split; [exact Es|]. split; [exact G|]. rewrite A. cbn [act]. now rewrite Nv, E.
  - (* Disconnect *)
    destruct (var st i) as [[[] p]|] eqn:E; try (apply ok_does; [exact I | cbn [act]; now rewrite Nv, E]).
    destruct (disconnect_does st i Conn p (Some (Conn, None)) I E ltac:(discriminate) eq_refl eq_refl) as (st' & Es & G & A).
    exists st'. split; [exact Es|]. split; [exact G|]. rewrite A. cbn [act]. now rewrite Nv, E.
  - (* To_scoped *)
    destruct (var st i) as [[[] p]|] eqn:E; try (apply ok_does; [exact I | cbn [act]; now rewrite Nv, E]).
    destruct (hand_over st i Conn Scoped p I E eq_refl) as [G A]. eexists. split; [reflexivity|]. split; [exact G|]. rewrite A. cbn [act]. now rewrite Nv, E.
  - (* Release *)
    destruct (var st i) as [[[] p]|] eqn:E; try (apply ok_does; [exact I | cbn [act]; now rewrite Nv, E]).
    destruct (hand_over st i Scoped Conn p I E eq_refl) as [G A]. eexists. split; [reflexivity|]. split; [exact G|]. rewrite A. cbn [act]. now rewrite Nv, E.
  - (* Get *)
    destruct (var st i) as [[[] p]|] eqn:E; try (apply ok_does; [exact I | cbn [act]; now rewrite Nv, E]).
    destruct (copy_does st Conn p Conn I) as (st' & Es & G & A); [intros a ->; exact (Lv _ _ _ E) | reflexivity|].
    exists st'. split; [exact Es|]. split; [exact G|]. rewrite A. cbn [act]. now rewrite Nv, E.
  - (* Get_blocker *)
    destruct (var st i) as [[[] p]|] eqn:E; try (apply ok_does; [exact I | cbn [act]; now rewrite Nv, E]).
    destruct (copy_does st Blocker p Blocker I) as (st' & Es & G & A); [intros a ->; exact (Lv _ _ _ E) | reflexivity|].
    exists st'. split; [exact Es|]. split; [exact G|]. rewrite A. cbn [act]. now rewrite Nv, E.
  - (* Disconnect_all *)
    destruct (sig st s) as [l|] eqn:E; [|apply ok_does; [exact I | cbn [act]; now rewrite Sv, E]].
    destruct (clear_does st s l (Some []) I E eq_refl) as (st' & Es & G & A). exists st'. split; [exact Es|]. split; [exact G|].
    rewrite A. cbn [act]. now rewrite Sv, E.
  - (* Destroy_signal *)
    destruct (sig st s) as [l|] eqn:E.
    + destruct (clear_does st s l None I E eq_refl) as (st' & Es & G & A). exists st'. split; [exact Es|]. split; [exact G|]. rewrite A. reflexivity.
    + apply ok_does; [exact I|]. cbn [act]. unfold sigs. specialize (Sv s). rewrite E in Sv. cbn in Sv. unfold slots in Sv. rewrite <- Sv at 1.
      rewrite upd_same. reflexivity.
  - (* Swap_signals *)
    unfold does. cbn [act]. rewrite !Sv. destruct (sig st s) as [l|] eqn:Es; [|exists st; now split]. cbn [option_map].
    destruct (sig st t) as [r|] eqn:Et; [|exists st; now split]. cbn [option_map].
    destruct (Nat.eqb_spec s t) as [H|H].
    + subst t. rewrite Es in Et. injection Et as <-. exists st. split; [reflexivity|]. split; [exact I|]. symmetry. unfold sigs.
      pose proof (Sv s) as X. rewrite Es in X. cbn in X. rewrite <- X. unfold slots. rewrite !upd_same. reflexivity.
    + exact (swap_signals_does st s t l r I H Es Et).
  - (* Move_signal *)
    destruct (sig st s) as [l|] eqn:E; [|apply ok_does; [exact I | cbn [act]; now rewrite Sv, E]].
    destruct (move_signal_does st s l I E) as (st' & Es & G & A). exists st'. split; [exact Es|]. split; [exact G|].
    rewrite A. cbn [act]. now rewrite Sv, E.
Qed.

Lemma start_good : good start.
Proof.
  constructor; unfold start, sig; cbn; try discriminate.
  - intros a H. unfold vrefs, srefs, zero in H. cbn in H. lia.
  - intros s l H. destruct s; discriminate H.
Qed.

Theorem run_does pick os : honest pick -> forall st, good st ->
  exists st', run pick os st = Ok st' /\ good st' /\ abs st' = acts os (abs st).
Proof.
  intros Hp. induction os as [|o os IH]; intros st I; cbn [run].
  - exists st. now split.
  - destruct (step_does pick o st Hp I) as (st1 & -> & I1 & A1). cbn [obind]. destruct (IH st1 I1) as (st2 & E2 & I2 & A2).
    exists st2. split; [exact E2|]. split; [exact I2|]. rewrite A2, A1. reflexivity.
Qed.
