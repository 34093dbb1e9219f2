(** Every change of memory is recorded. *)
From Coq Require Import List Arith Bool Lia.
From Verif Require Import Base XinfoProofs SignalModel SignalSpec SignalMemProofs SignalRaceModel SignalRaceSpec.
Import ListNotations.

Definition covers (es : list access) (m m' : mem) : Prop :=
  forall p, (forall e, In e es -> ~ writes e p) -> content_of m' p = content_of m p.
Definition cov {A} (pm : A -> mem) (m : mem) (x : logged A) : Prop := forall a, snd x = Ok a -> covers (fst x) m (pm a).
Definition here (m : mem) : mem := m.

Lemma covers_refl es m : covers es m m.
Proof. intros p _. reflexivity. Qed.
Lemma covers_app es es' m m1 m2 : covers es m m1 -> covers es' m1 m2 -> covers (es ++ es') m m2.
Proof.
  intros C C' p N. rewrite C' by (intros e Hi; apply N, in_or_app; auto). apply C. intros e Hi. apply N, in_or_app; auto.
Qed.

Lemma cov_skip {A B} (pm : B -> mem) m (x : logged A) k : (forall a, cov pm m (k a)) -> cov pm m (lbind x k).
Proof.
  intros C b E. unfold lbind in *. destruct (snd x) as [a| |]; try discriminate. cbn [fst snd] in *.
  apply covers_app with m; [apply covers_refl|]. now apply C.
Qed.
Lemma cov_seq {A B} (q : A -> mem) (pm : B -> mem) m (x : logged A) k : cov q m x -> (forall a, cov pm (q a) (k a)) -> cov pm m (lbind x k).
Proof.
  intros C C' b E. unfold lbind in *. destruct (snd x) as [a| |] eqn:Ex; try discriminate. cbn [fst snd] in *.
  apply covers_app with (q a); [now apply C|]. now apply C'.
Qed.
Lemma cov_ret {A} (pm : A -> mem) m a : pm a = m -> cov pm m (ret a).
Proof. intros <- b E. injection E as <-. apply covers_refl. Qed.
Lemma cov_none {A} (pm : A -> mem) m es : cov pm m (log es UB).
Proof. intros b E. discriminate. Qed.
Lemma cov_pure_ub {A} (pm : A -> mem) m : cov pm m (pure UB).
Proof. intros b E. discriminate. Qed.
Lemma cov_pure_throw {A} (pm : A -> mem) m : cov pm m (pure Throws).
Proof. intros b E. discriminate. Qed.
Lemma cov_weak {A} (pm : A -> mem) m es es' r : cov pm m (log es r) -> (forall e, In e es -> In e es') -> cov pm m (log es' r).
Proof. intros C S a E p N. apply (C a E). auto. Qed.

Lemma get_slot_at m s x : get_slot m s = Ok x -> nth_error (heap m) s = Some x /\ s_live x = true.
Proof. unfold get_slot. destruct (nth_error (heap m) s) as [y|]; [|discriminate]. destruct (s_live y) eqn:E; [|discriminate]. intros [= ->]. auto. Qed.
Lemma get_sig_at m g x : get_sig m g = Ok x -> nth_error (sigs m) g = Some x /\ g_live x = true.
Proof. unfold get_sig. destruct (nth_error (sigs m) g) as [y|]; [|discriminate]. destruct (g_live y) eqn:E; [|discriminate]. intros [= ->]. auto. Qed.

(** Writing one slot or one signal. *)
Lemma covers_slot es m s x y : nth_error (heap m) s = Some x ->
  (s_refs y = s_refs x \/ exists e, In e es /\ writes e (PCell (Count s))) ->
  (s_sender y = s_sender x \/ exists e, In e es /\ writes e (PCell (Sender s))) ->
  (s_block y = s_block x \/ exists e, In e es /\ writes e (PCell (Blocking s))) ->
  (s_next y = s_next x \/ exists e, In e es /\ writes e (PNext s)) ->
  (s_live y = s_live x \/ exists e, In e es /\ writes e (PLive s)) ->
  covers es m (put_slot m s y).
Proof.
  intros E H1 H2 H3 H4 H5 p N. assert (s < length (heap m)) as Hl by (apply nth_error_Some; congruence).
  assert (forall k, nth_error (upd (heap m) s y) k = if Nat.eqb k s then Some y else nth_error (heap m) k) as U by (intros k; now apply nth_upd).
  destruct p as [[k|k|k]|k|k|g]; cbn [content_of put_slot heap sigs]; try reflexivity; rewrite U; destruct (Nat.eqb_spec k s) as [->|]; auto; rewrite E; cbn.
  - destruct H1 as [->|(e & Hi & W)]; auto. destruct (N _ Hi W).
  - destruct H2 as [->|(e & Hi & W)]; auto. destruct (N _ Hi W).
  - destruct H3 as [->|(e & Hi & W)]; auto. destruct (N _ Hi W).
  - destruct H4 as [->|(e & Hi & W)]; auto. destruct (N _ Hi W).
  - destruct H5 as [->|(e & Hi & W)]; auto. destruct (N _ Hi W).
Qed.
Lemma covers_sig es m g r : (exists e, In e es /\ writes e (PSig g)) -> covers es m (put_sig m g r).
Proof.
  intros (e & Hi & W) p N. destruct p as [[k|k|k]|k|k|k]; cbn; auto. f_equal.
  destruct (Nat.eq_dec k g) as [->|n]; [destruct (N _ Hi W)|]. apply nth_upd_other. auto.
Qed.

Section Writes.
Variable md : orders.

Ltac one_slot Em Ex x := intros ? Em; cbn [log snd fst] in *; unfold add_ref, rebind, block, unblock, set_next, obind in Em;
  match type of Em with context [get_slot ?m ?s] => destruct (get_slot m s) as [x| |] eqn:Ex; [|discriminate Em..] end;
  apply get_slot_at in Ex; destruct Ex as [Ex ?].
Ltac fields := eapply covers_slot; [eassumption|..]; cbn; try (left; congruence); right; eexists; split; [left; reflexivity|reflexivity].

Lemma v_add m s : cov here m (ladd_ref md m s).
Proof. unfold ladd_ref. one_slot Em Ex x. injection Em as <-. fields. Qed.
Lemma v_release m s : cov here m (lrelease md m s).
Proof.
  intros m' Em. unfold lrelease in *. unfold lbind in *. cbn [pure snd fst app] in *. destruct (get_slot m s) as [x| |] eqn:Ex; try discriminate. cbn [log snd fst] in *.
  unfold release, obind in Em. rewrite Ex in Em. apply get_slot_at in Ex. destruct Ex as [Ex Lx].
  destruct (s_refs x) as [|n] eqn:Er; [discriminate|]. injection Em as <-. eapply covers_slot; [eassumption|..]; cbn; auto.
  - right. eexists. split; [left; reflexivity|reflexivity].
  - destruct n as [|n]; cbn; [right|left; auto]. exists (EFree s). cbn. auto.
Qed.
Lemma v_add_opt m o : cov here m (ladd_ref_opt md m o).
Proof. destruct o; [apply v_add|now apply cov_ret]. Qed.
Lemma v_release_opt m o : cov here m (lrelease_opt md m o).
Proof. destruct o; [apply v_release|now apply cov_ret]. Qed.
Lemma v_rebind m s o : cov here m (lrebind md m s o).
Proof. unfold lrebind. one_slot Em Ex x. injection Em as <-. fields. Qed.
Lemma v_block m o : cov here m (lblock_opt md m o).
Proof. destruct o as [s|]; [|now apply cov_ret]. cbn [lblock_opt]. one_slot Em Ex x. injection Em as <-. fields. Qed.
Lemma v_unblock m o : cov here m (lunblock_opt md m o).
Proof. destruct o as [s|]; [|now apply cov_ret]. cbn [lunblock_opt]. one_slot Em Ex x. destruct (s_block x) eqn:Eb; [discriminate|]. injection Em as <-. fields. Qed.
Lemma v_set_next m s o : cov here m (lset_next m s o).
Proof. unfold lset_next. one_slot Em Ex x. injection Em as <-. fields. Qed.

Ltac one_sig Em := intros ? Em; cbn [log snd fst] in *; unfold set_head, set_tail, set_active, set_deferred, obind in Em;
  match type of Em with context [get_sig ?m ?s] => destruct (get_sig m s) as [?| |]; [|discriminate Em..] end;
  injection Em as <-; apply covers_sig; eexists; split; [left; reflexivity|reflexivity].
Lemma v_set_head m g o : cov here m (lset_head m g o).
Proof. unfold lset_head, set_head. one_sig Em. Qed.
Lemma v_set_tail m g o : cov here m (lset_tail m g o).
Proof. unfold lset_tail, set_tail. one_sig Em. Qed.
Lemma v_set_active m g o : cov here m (lset_active m g o).
Proof. unfold lset_active, set_active. one_sig Em. Qed.
Lemma v_set_deferred m g o : cov here m (lset_deferred m g o).
Proof. unfold lset_deferred, set_deferred. one_sig Em. Qed.

Ltac skip := apply cov_skip; intros ?.
Ltac done_ret := first [apply cov_ret; reflexivity|apply cov_pure_ub|apply cov_pure_throw|apply cov_none].
Tactic Notation "chain" constr(l) := eapply (cov_seq here); [apply l|]; intros ?; unfold here at 1.

Lemma v_insert m g s f : cov here m (linsert_new_slot m g s f).
Proof.
  unfold linsert_new_slot. skip. destruct (g_head a); [destruct f|].
  - chain v_set_next. apply v_set_head.
  - destruct (g_tail a); [|done_ret]. chain v_set_next. apply v_set_tail.
  - chain v_set_head. apply v_set_tail.
Qed.
Lemma v_remove m g s prev : cov (@fst mem (option nat)) m (lremove_slot md m g s prev).
Proof.
  unfold lremove_slot. skip. destruct (negb _); [done_ret|]. skip.
  eapply (cov_seq here); [destruct prev; [apply v_set_next|]; destruct (is_slot (g_head a) s); [apply v_set_head|done_ret]|]. intros m1. unfold here at 1.
  skip. eapply (cov_seq here); [destruct (is_slot _ s); [apply v_set_tail|done_ret]|]. intros m2. unfold here at 1.
  chain v_release. done_ret.
Qed.
Lemma v_disconnect_loop g id : forall fuel m i p, cov here m (ldisconnect_loop md fuel m g id i p).
Proof.
  induction fuel as [|fuel IH]; intros m i p; [done_ret|]. cbn [ldisconnect_loop]. destruct i as [i|]; [|done_ret]. destruct (Nat.eqb i id).
  - chain v_rebind. skip. destruct (Nat.eqb _ 0); [|apply v_set_deferred]. eapply cov_seq; [apply v_remove|]. intros q. done_ret.
  - skip. apply IH.
Qed.
Lemma v_disconnect_id m g id : cov here m (ldisconnect_id md m g id).
Proof. unfold ldisconnect_id. skip. skip. chain v_disconnect_loop. skip. done_ret. Qed.
Lemma v_all_loop g c : forall fuel m i p, cov here m (ldisconnect_all_loop md fuel m g c i p).
Proof.
  induction fuel as [|fuel IH]; intros m i p; [done_ret|]. cbn [ldisconnect_all_loop]. destruct i as [i|]; [|done_ret]. chain v_rebind. destruct c.
  - eapply cov_seq; [apply v_remove|]. intros q. apply IH.
  - chain v_set_deferred. skip. apply IH.
Qed.
Lemma v_disconnect_all m g : cov here m (ldisconnect_all md m g).
Proof. unfold ldisconnect_all. skip. skip. chain v_all_loop. skip. done_ret. Qed.
Lemma v_cleanup_loop g : forall fuel m i p, cov here m (lcleanup_loop md fuel m g i p).
Proof.
  induction fuel as [|fuel IH]; intros m i p; [done_ret|]. cbn [lcleanup_loop]. destruct i as [i|]; [|done_ret]. skip. destruct (valid a).
  - skip. apply IH.
  - eapply cov_seq; [apply v_remove|]. intros q. apply IH.
Qed.
Lemma v_cleanup m g : cov here m (lcleanup md m g).
Proof.
  unfold lcleanup. skip. destruct (negb (g_deferred a)); [done_ret|]. destruct (negb _); [apply v_set_deferred|]. chain v_cleanup_loop. apply v_set_deferred.
Qed.
Lemma v_rebind_loop g : forall fuel m i, cov here m (lrebind_loop md fuel m g i).
Proof.
  induction fuel as [|fuel IH]; intros m i; [done_ret|]. cbn [lrebind_loop]. destruct i as [i|]; [|done_ret]. chain v_rebind. skip. apply IH.
Qed.
Lemma v_rebind_all m g : cov here m (lrebind_all md m g).
Proof. unfold lrebind_all. chain v_cleanup. skip. apply v_rebind_loop. Qed.

(** Some accesses that explain the change from [m] to [m1], then the rest. *)
Lemma cov_say {A} (pm : A -> mem) m m1 l (x : logged A) : covers l m m1 -> cov pm m1 x -> cov pm m (lbind (log l (Ok tt)) (fun _ => x)).
Proof. intros C C'. apply (cov_seq (fun _ => m1)); [|auto]. intros a _. exact C. Qed.

Lemma v_swap m a b : cov here m (lswap_sigs md m a b).
Proof.
  unfold lswap_sigs. destruct (Nat.eqb a b); [done_ret|]. skip. skip. skip. destruct (negb _); [done_ret|].
  eapply cov_say.
  { change [ESig a true; ESig b true] with ([ESig a true] ++ [ESig b true]). eapply covers_app; apply covers_sig; eexists; split; [left; reflexivity|reflexivity|left; reflexivity|reflexivity]. }
  chain v_rebind_all. chain v_rebind_all. skip. done_ret.
Qed.
Lemma covers_new_sig es m r : (exists e, In e es /\ writes e (PSig (length (sigs m)))) -> covers es m (mkmem (heap m) (sigs m ++ [r])).
Proof.
  intros (e & Hi & W) p N. destruct p as [[k|k|k]|k|k|k]; cbn; auto. f_equal.
  destruct (Nat.eq_dec k (length (sigs m))) as [->|n]; [destruct (N _ Hi W)|].
  destruct (le_lt_dec (length (sigs m)) k) as [l|l]; [|now rewrite nth_error_app1].
  rewrite nth_error_app2 by auto. replace (k - length (sigs m)) with (S (k - length (sigs m) - 1)) by lia. cbn.
  destruct (k - length (sigs m) - 1); symmetry; apply nth_error_None; lia.
Qed.
Lemma v_move m a : cov here m (lmove_sig md m a).
Proof.
  unfold lmove_sig. skip. skip. destruct (negb _); [done_ret|]. eapply cov_say.
  { change [ESig a true; ESig (length (sigs m)) true; EUnlock a; ELock (length (sigs m))] with ([ESig a true] ++ [ESig (length (sigs m)) true; EUnlock a; ELock (length (sigs m))]).
    eapply covers_app; [apply covers_sig; eexists; split; [left; reflexivity|reflexivity]|].
    apply covers_new_sig. eexists. split; [left; reflexivity|]. cbn. now rewrite length_upd. }
  chain v_rebind_all. skip. done_ret.
Qed.
Lemma v_destroy m g : cov here m (ldestroy_sig md m g).
Proof.
  unfold ldestroy_sig. chain v_disconnect_all. skip. intros m' E. injection E as <-. apply covers_sig. eexists. split; [left; reflexivity|reflexivity].
Qed.
Lemma covers_new_slot es m x : (exists e, In e es /\ e = ENew (length (heap m))) -> covers es m (mkmem (heap m ++ [x]) (sigs m)).
Proof.
  intros (e & Hi & ->) p N.
  assert (forall k, k <> length (heap m) -> nth_error (heap m ++ [x]) k = nth_error (heap m) k) as O.
  { intros k n. destruct (le_lt_dec (length (heap m)) k) as [l|l]; [|now rewrite nth_error_app1].
    rewrite nth_error_app2 by auto. replace (k - length (heap m)) with (S (k - length (heap m) - 1)) by lia. cbn.
    destruct (k - length (heap m) - 1); symmetry; apply nth_error_None; lia. }
  destruct p as [[k|k|k]|k|k|k]; cbn; auto; rewrite O; auto; intros ->; destruct (N _ Hi); reflexivity.
Qed.
Lemma v_connect m g f : cov (@fst mem nat) m (lconnect md m g f).
Proof.
  unfold lconnect. eapply cov_say.
  { apply covers_new_slot. eexists. split; [right; left; reflexivity|reflexivity]. }
  chain v_insert. chain v_add. skip. done_ret.
Qed.

Lemma v_with {A} (pm : A -> mem) m b w x : cov pm m x -> cov pm m (with_obj b w x).
Proof. intros C. unfold with_obj. skip. eapply cov_seq; [exact C|]. intros c. skip. done_ret. Qed.
Lemma v_direct {A} (pm : A -> mem) m g x : cov pm m x -> cov pm m (direct g x).
Proof. intros C. unfold direct. skip. exact C. Qed.

Definition accounted (st : state) (x : list access * result) : Prop :=
  forall st' r, snd x = Next st' r -> covers (fst x) (mm st) (mm st').

Lemma v_done {A} (pm : A -> mem) st (x : logged A) k : cov pm (mm st) x ->
  (forall a st' r, k a = Next st' r -> mm st' = pm a) -> accounted st (ldone x k).
Proof.
  intros C K st' r E. unfold ldone, lift in *. cbn [fst snd] in *. destruct (snd x) as [a| |] eqn:Ex; try discriminate.
  rewrite (K _ _ _ E). now apply C.
Qed.
Lemma v_silent st x : (forall st' r, x = Next st' r -> mm st' = mm st) -> accounted st (silent x).
Proof. intros K st' r E. cbn in *. rewrite (K _ _ E). apply covers_refl. Qed.
Lemma v_same {A} st (x : logged A) k : (forall a st' r, k a = Next st' r -> mm st' = mm st) -> accounted st (ldone x k).
Proof.
  intros K st' r E. unfold ldone, lift in *. cbn [fst snd] in *. destruct (snd x) as [a| |] eqn:Ex; try discriminate.
  rewrite (K _ _ _ E). apply covers_refl.
Qed.

Ltac fin := let E := fresh in intros; cbv beta zeta in *; match goal with H : Next _ _ = Next _ _ |- _ => injection H as <- <- end; reflexivity.
Ltac quiet := first [apply v_silent; intros ? ? E; discriminate E|apply v_silent; fin|apply v_same; fin].

Lemma v_emit m g : cov (@snd sigrec mem) m
  (lbind (log [ELock g] (Ok tt)) (fun _ => lbind (lsig m g) (fun r => lbind (lset_active m g (g_active r + 1)) (fun m =>
   lbind (ladd_ref_opt md m (g_tail r)) (fun m => lbind (ladd_ref_opt md m (g_head r)) (fun m => lbind (log [EUnlock g] (Ok tt)) (fun _ => ret (r, m)))))))).
Proof. skip. skip. chain v_set_active. chain v_add_opt. chain v_add_opt. skip. done_ret. Qed.

Lemma v_user st t th o : accounted st (luser_step md st t th o).
Proof.
  destruct o; cbn [luser_step]; cbv zeta.
  all: repeat match goal with |- accounted _ (match ?c with _ => _ end) => destruct c end.
  all: try quiet.
  all: first
    [ eapply (v_done here); [|fin]
    | eapply (v_done (@fst mem nat)); [|fin]
    | eapply (v_done (@snd sigrec mem)); [|fin]
    | idtac ].
  all: repeat first
    [ apply v_release_opt | apply v_release | apply v_add | apply v_add_opt | apply v_block | apply v_unblock | apply v_disconnect_all | apply v_move
    | apply v_destroy | apply v_swap | apply v_emit | apply v_with | apply v_direct | done_ret
    | eapply (cov_seq here); [|intros ?; unfold here at 1]
    | eapply (cov_seq (@fst mem nat)); [apply v_connect|intros ?] | skip ].
  intros st' r E. cbn in *. injection E as <- <-. cbn. apply covers_new_sig. eexists. split; [left; reflexivity|reflexivity].
Qed.
Lemma v_tau st t th : accounted st (ltau_step md st t th).
Proof.
  unfold ltau_step. cbv zeta.
  repeat match goal with |- accounted _ (match ?c with _ => _ end) => destruct c end.
  all: try quiet.
  all: first
    [ eapply (v_done here); [|fin]
    | eapply (v_done (@snd slot mem)); [|fin]
    | idtac ].
  all: repeat first
    [ apply v_release_opt | apply v_release | apply v_add_opt | apply v_disconnect_id | apply v_set_active
    | apply v_cleanup | done_ret
    | match goal with |- cov _ _ (if ?c then _ else _) => destruct c end
    | eapply (cov_seq here); [|intros ?; unfold here at 1] | skip ].
  one_slot Em Ex x. injection Em as <-. fields.
Qed.

Lemma writes_recorded st t l es st' r p :
  lstep md st t l = (es, Next st' r) -> content_of (mm st') p <> content_of (mm st) p -> exists e, In e es /\ writes e p.
Proof.
  intros E D. assert (accounted st (lstep md st t l)) as A.
  { unfold lstep. destruct (nth_error (threads st) t) as [th|]; [|apply v_silent; discriminate]. destruct l; [|apply v_tau]. destruct (user_ready th); [apply v_user|apply v_silent; discriminate]. }
  rewrite E in A. specialize (A _ _ eq_refl p). cbn [fst] in A.
  assert (forall e, {writes e p} + {~ writes e p}) as W.
  { intros e. destruct e as [| |? []| | | | | | |? []| | | |], p as [[]| | |]; cbn; auto; try apply Nat.eq_dec; repeat decide equality. }
  destruct (Exists_dec (fun e => writes e p) es W) as [X|X].
  - apply Exists_exists in X. destruct X as (e & Hi & We). eauto.
  - destruct D. apply A. intros e Hi We. apply X, Exists_exists. eauto.
Qed.
End Writes.
