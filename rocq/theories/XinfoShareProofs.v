(** Objects that share entries. *)
From Coq Require Import List NArith Arith Bool Lia.
From Verif Require Import Base XinfoModel XinfoSpec XinfoProofs.
Import ListNotations.
Local Open Scope outcome_scope.

Section share.
Context {V : Type}.
Implicit Types (h : list (node V)) (w : world V) (s : shared V).

(** The addresses on the way from a pointer. *)
Inductive trail h : option nat -> list nat -> Prop :=
| trail_nil : trail h None []
| trail_cons p n l : nth_error h p = Some n -> trail h (nnext n) l -> Forall (fun a => a < p) l -> trail h (Some p) (p :: l).

Lemma trail_in h c l : trail h c l -> forall p, In p l -> exists n, nth_error h p = Some n.
Proof. induction 1 as [|p n l E T IH F]; intros q Hq; [destruct Hq|]. destruct Hq as [<-|Hq]; eauto. Qed.

Lemma trail_short h c l : trail h c l -> forall b, Forall (fun a => a < b) l -> length l <= b.
Proof. induction 1 as [|p n l E T IH F]; intros b Hb; cbn; [lia|]. inversion Hb; subst. specialize (IH p F). lia. Qed.

Lemma trail_len h c l : trail h c l -> length l <= length h.
Proof.
  intros T. apply (trail_short h c l T). apply Forall_forall. intros p Hp.
  destruct (trail_in _ _ _ T p Hp) as [n E]. apply nth_error_Some. congruence.
Qed.

Lemma trail_frame h h' c l : trail h c l ->
  (forall p n, In p l -> nth_error h p = Some n -> exists n', nth_error h' p = Some n' /\ nnext n' = nnext n) -> trail h' c l.
Proof.
  induction 1 as [|p n l E T IH F]; intros H; [constructor|].
  destruct (H p n (or_introl eq_refl) E) as (n' & E' & En). apply (trail_cons h' p n' l E'); [|exact F].
  rewrite En. apply IH. intros q m Hq Em. apply H; [right; exact Hq|exact Em].
Qed.

Definition sim w s : Prop :=
  entries s = map (fun n => (ntag n, nvalue n)) (heap w) /\ Forall2 (trail (heap w)) (heads w) (held s).

Lemma sim_tagged w s tag p n : sim w s -> nth_error (heap w) p = Some n -> tagged s tag p = Nat.eqb (ntag n) tag.
Proof. intros [E _] Hn. unfold tagged. rewrite E, nth_error_map, Hn. reflexivity. Qed.

Lemma find_newest w s tag c l : sim w s -> trail (heap w) c l -> forall after fuel, length l < fuel ->
  find_loop fuel (heap w) tag c = Ok (option_map snd (newest s tag after l)).
Proof.
  intros S. induction 1 as [|p n l E T IH F]; intros after fuel Hf; (destruct fuel as [|fuel]; [cbn in Hf; lia|]).
  - reflexivity.
  - cbn [find_loop newest]. rewrite (rd_ok _ _ _ E). cbn [obind]. rewrite (sim_tagged _ _ _ _ _ S E).
    destruct (Nat.eqb (ntag n) tag); [reflexivity|]. apply IH. cbn in Hf. lia.
Qed.

Definition unhook w o (where_ : option (option nat * nat)) : outcome (world V) :=
  match where_ with
  | None => Ok w
  | Some (None, id) => n <- rd (heap w) id ;; Ok (mkworld (heap w) (upd (heads w) o (nnext n)))
  | Some (Some q, id) =>
      n <- rd (heap w) id ;; m <- rd (heap w) q ;;
      Ok (mkworld (upd (heap w) q (mknode (ntag m) (nvalue m) (nnext n))) (heads w))
  end.

Lemma unset_newest w s o tag c l : sim w s -> trail (heap w) c l -> forall after fuel, length l < fuel ->
  unset_loop fuel w o tag after c = unhook w o (newest s tag after l).
Proof.
  intros S. induction 1 as [|p n l E T IH F]; intros after fuel Hf; (destruct fuel as [|fuel]; [cbn in Hf; lia|]).
  - reflexivity.
  - cbn [unset_loop newest]. rewrite (rd_ok _ _ _ E). cbn [obind]. rewrite (sim_tagged _ _ _ _ _ S E).
    destruct (Nat.eqb (ntag n) tag).
    + destruct after as [q|]; cbn [unhook]; rewrite (rd_ok _ _ _ E); reflexivity.
    + apply IH. cbn in Hf. lia.
Qed.

Lemma newest_where s tag l : forall after a id, newest s tag after l = Some (a, id) ->
  (a = after /\ exists l2, l = id :: l2) \/ (exists q l1 l2, a = Some q /\ l = l1 ++ q :: id :: l2).
Proof.
  induction l as [|p l IH]; intros after a id E; [discriminate|]. cbn in E.
  destruct (tagged s tag p).
  - injection E as <- <-. left. split; [reflexivity|]. exists l. reflexivity.
  - destruct (IH _ _ _ E) as [(-> & l2 & ->) | (q & l1 & l2 & -> & ->)].
    + right. exists p, [], l2. split; reflexivity.
    + right. exists q, (p :: l1), l2. split; reflexivity.
Qed.

Lemma newest_in s tag l : forall after a id, newest s tag after l = Some (a, id) -> In id l.
Proof.
  intros after a id E. destruct (newest_where _ _ _ _ _ _ E) as [(_ & l2 & ->) | (q & l1 & l2 & _ & ->)].
  - left. reflexivity.
  - apply in_or_app. right. right. left. reflexivity.
Qed.

Lemma trail_after h c l1 q id l2 : trail h c (l1 ++ q :: id :: l2) ->
  exists m n, nth_error h q = Some m /\ nnext m = Some id /\ nth_error h id = Some n /\ id < q.
Proof.
  revert c. induction l1 as [|p l1 IH]; intros c T; inversion T as [|p' n' l' E T' F]; subst.
  - inversion T' as [|p2 n2 l3 E2 T2 F2]; subst. exists n', n2. inversion F; subst. repeat split; auto.
  - exact (IH _ T').
Qed.

Lemma without_small id l : Forall (fun a => a < id) l -> without id l = l.
Proof.
  induction 1 as [|a l Ha F IH]; cbn; [reflexivity|]. destruct (Nat.eqb_spec a id); [lia|]. cbn. f_equal. exact IH.
Qed.

Lemma without_bound id b l : Forall (fun a => a < b) l -> Forall (fun a => a < b) (without id l).
Proof.
  intros F. apply Forall_forall. intros x Hx. apply filter_In in Hx. rewrite Forall_forall in F. apply F. apply Hx.
Qed.

(** Unhooking [id] from [q]. *)
Lemma trail_unhook h q id m n : nth_error h q = Some m -> nnext m = Some id -> nth_error h id = Some n -> id < q ->
  forall c l, trail h c l ->
    trail (upd h q (mknode (ntag m) (nvalue m) (nnext n))) c (if existsb (Nat.eqb q) l then without id l else l).
Proof.
  intros Eq Em Eid Hlt. induction 1 as [|p k l E T IH F]; [constructor|]. cbn [existsb].
  destruct (Nat.eqb_spec q p) as [<-|Hp].
  - cbn [orb]. rewrite Eq in E. injection E as <-. rewrite Em in T. inversion T as [|p2 n2 l2 E2 T2 F2]; subst.
    rewrite Eid in E2. injection E2 as <-. cbn [without filter].
    destruct (Nat.eqb_spec q id); [lia|]. rewrite Nat.eqb_refl. cbn [negb]. change (filter _ l2) with (without id l2).
    rewrite (without_small id l2 F2). inversion F; subst.
    apply (trail_cons _ q (mknode (ntag m) (nvalue m) (nnext n))); [apply nth_upd_same; eapply nth_some_lt; eauto| |assumption].
    cbn [nnext]. apply (trail_frame h); [exact T2|]. intros a x Ha Ea. exists x. split; [|reflexivity].
    rewrite nth_upd_other; [exact Ea|]. rewrite Forall_forall in F2. specialize (F2 a Ha). lia.
  - cbn [orb]. assert (E' : nth_error (upd h q (mknode (ntag m) (nvalue m) (nnext n))) p = Some k).
    { rewrite nth_upd_other; [exact E|exact Hp]. }
    destruct (existsb (Nat.eqb q) l) eqn:Ex.
    + apply existsb_exists in Ex. destruct Ex as (a & Ha & Ea). apply Nat.eqb_eq in Ea. subst a.
      assert (q < p) by (rewrite Forall_forall in F; exact (F q Ha)).
      cbn [without filter]. destruct (Nat.eqb_spec p id); [lia|]. cbn [negb]. change (filter _ l) with (without id l).
      apply (trail_cons _ p k); [exact E'|exact IH|]. apply without_bound. exact F.
    + apply (trail_cons _ p k); assumption.
Qed.

Lemma map_upd_same h q m c : nth_error h q = Some m ->
  map (fun n => (ntag n, nvalue n)) (upd h q (mknode (ntag m) (nvalue m) c)) = map (fun n => (ntag n, nvalue n)) h.
Proof.
  revert q. induction h as [|x h IH]; intros [|q] E; cbn in *; try discriminate; [injection E as ->; reflexivity|].
  f_equal. exact (IH q E).
Qed.

Lemma map_upd_change h p n v : nth_error h p = Some n ->
  map (fun n => (ntag n, nvalue n)) (upd h p (mknode (ntag n) v (nnext n))) =
  change (map (fun n => (ntag n, nvalue n)) h) p (fun e => (fst e, v)).
Proof.
  revert p. induction h as [|x h IH]; intros [|p] E; cbn in *; try discriminate; [injection E as ->; reflexivity|].
  f_equal. exact (IH p E).
Qed.

Lemma Forall2_change {A B} (R : A -> B -> Prop) xs ys o c f y : Forall2 R xs ys -> nth_error ys o = Some y -> R c (f y) ->
  Forall2 R (upd xs o c) (change ys o f).
Proof.
  intros H. revert o. induction H as [|a b xs ys Hab H IH]; intros [|o] E Hc; cbn in *; try discriminate.
  - injection E as ->. constructor; assumption.
  - constructor; [assumption|]. exact (IH o E Hc).
Qed.

Lemma Forall2_get {A B} (R : A -> B -> Prop) xs ys o : Forall2 R xs ys -> o < length ys ->
  exists x y, nth_error xs o = Some x /\ nth_error ys o = Some y /\ R x y.
Proof.
  intros H. revert o. induction H as [|a b xs ys Hab H IH]; intros [|o] Ho; cbn in *; try lia.
  - exists a, b. auto.
  - apply IH. lia.
Qed.

Lemma Forall2_mono {A B C} (R : A -> B -> Prop) (Q : A -> C -> Prop) (f : B -> C) xs ys :
  (forall x y, R x y -> Q x (f y)) -> Forall2 R xs ys -> Forall2 Q xs (map f ys).
Proof. intros H. induction 1; cbn; constructor; auto. Qed.

Lemma length_change {A} (l : list A) o f : length (change l o f) = length l.
Proof. revert o. induction l as [|x l IH]; intros [|o]; cbn; auto. Qed.

Lemma Forall2_weak {A B} (R Q : A -> B -> Prop) xs ys : (forall x y, R x y -> Q x y) -> Forall2 R xs ys -> Forall2 Q xs ys.
Proof. intros H. induction 1; constructor; auto. Qed.

(** One step. *)
Lemma sim_step w s a r : sim w s -> well_formed (length (held s)) (a :: r) ->
  exists w', step w a = Ok w' /\ sim w' (shared_step s a) /\ well_formed (length (held (shared_step s a))) r.
Proof.
  intros S W. pose proof S as [SE SF]. destruct a as [o tag v|o tag|o tag v| |o|d k]; cbn [well_formed] in W.
  - destruct W as [Ho W]. destruct (Forall2_get _ _ _ _ SF Ho) as (c & l & Ec & El & T).
    cbn [step]. unfold set. rewrite (rd_ok _ _ _ Ec). cbn [obind alloc]. eexists. split; [reflexivity|]. split.
    + split; cbn [entries held heap heads shared_step].
      * rewrite map_app, SE. reflexivity.
      * assert (EX : forall c l, trail (heap w) c l -> trail (heap w ++ [mknode tag v c]) c l /\ True) by
          (intros c0 l0 T0; split; [|exact I]; apply (trail_frame (heap w)); [exact T0|]; intros p n Hp En;
           exists n; split; [rewrite nth_error_app1; [exact En|eapply nth_some_lt; eauto]|reflexivity]).
        eapply Forall2_change; [| exact El |].
        -- eapply Forall2_weak; [|exact SF]. intros c0 l0 T0. apply (trail_frame (heap w)); [exact T0|]. intros p n Hp En.
           exists n. split; [rewrite nth_error_app1; [exact En|eapply nth_some_lt; eauto]|reflexivity].
        -- rewrite SE, map_length. apply (trail_cons _ _ (mknode tag v c)).
           ++ rewrite nth_error_app2, Nat.sub_diag; [reflexivity|lia].
           ++ cbn [nnext]. apply EX. exact T.
           ++ apply Forall_forall. intros p Hp. destruct (trail_in _ _ _ T p Hp) as [n En]. eapply nth_some_lt; eauto.
    + cbn [shared_step held]. rewrite length_change. exact W.
  - destruct W as [Ho W]. destruct (Forall2_get _ _ _ _ SF Ho) as (c & l & Ec & El & T).
    cbn [step]. unfold unset. rewrite (rd_ok _ _ _ Ec). cbn [obind].
    rewrite (unset_newest w s o tag c l S T) by (pose proof (trail_len _ _ _ T); lia).
    cbn [shared_step]. rewrite (nth_error_nth _ _ [] El). destruct (newest s tag None l) as [[[q|] id]|] eqn:En.
    + destruct (newest_where _ _ _ _ _ _ En) as [(X & _) | (q' & l1 & l2 & X & ->)]; [discriminate|]. injection X as <-.
      destruct (trail_after _ _ _ _ _ _ T) as (m & n & Eq & Em & Eid & Hlt).
      cbn [unhook]. rewrite (rd_ok _ _ _ Eid), (rd_ok _ _ _ Eq). cbn [obind]. eexists. split; [reflexivity|]. split.
      * split; cbn [entries held heap heads]; [rewrite (map_upd_same _ _ _ _ Eq); exact SE|].
        eapply Forall2_mono; [|exact SF]. intros c0 l0 T0. exact (trail_unhook _ _ _ _ _ Eq Em Eid Hlt _ _ T0).
      * cbn [held]. rewrite map_length. exact W.
    + destruct (newest_where _ _ _ _ _ _ En) as [(_ & l2 & ->) | (q' & l1 & l2 & X & _)]; [|discriminate].
      inversion T as [|p n l' E T' F]; subst. cbn [unhook]. rewrite (rd_ok _ _ _ E). cbn [obind].
      eexists. split; [reflexivity|]. split; [|cbn [held]; rewrite length_change; exact W].
      split; cbn [entries held heap heads]; [exact SE|].
      eapply Forall2_change; [exact SF|exact El|]. cbn [without filter]. rewrite Nat.eqb_refl. cbn [negb].
      change (filter _ l2) with (without id l2). rewrite (without_small _ _ F). exact T'.
    + exists w. split; [reflexivity|]. split; [exact S|exact W].
  - destruct W as [Ho W]. destruct (Forall2_get _ _ _ _ SF Ho) as (c & l & Ec & El & T).
    cbn [step]. unfold poke, find. rewrite (rd_ok _ _ _ Ec). cbn [obind].
    rewrite (find_newest w s tag c l S T None) by (pose proof (trail_len _ _ _ T); lia).
    cbn [shared_step]. rewrite (nth_error_nth _ _ [] El). destruct (newest s tag None l) as [[a id]|] eqn:En.
    + cbn [option_map snd obind]. destruct (trail_in _ _ _ T id (newest_in _ _ _ _ _ _ En)) as [n E].
      rewrite (rd_ok _ _ _ E). cbn [obind]. eexists. split; [reflexivity|]. split; [|exact W].
      split; cbn [entries held heap heads]; [rewrite (map_upd_change _ _ _ _ E), SE; reflexivity|].
      eapply Forall2_weak; [|exact SF]. intros c0 l0 T0. apply (trail_frame (heap w)); [exact T0|]. intros p k Hp Ek.
      destruct (Nat.eq_dec id p) as [<-|Hne].
      * exists (mknode (ntag n) v (nnext n)). split; [apply nth_upd_same; eapply nth_some_lt; eauto|]. cbn. congruence.
      * exists k. split; [rewrite nth_upd_other; assumption|reflexivity].
    + exists w. split; [reflexivity|]. split; [exact S|exact W].
  - eexists. split; [reflexivity|]. split; [|cbn [shared_step held]; rewrite app_length; cbn [length]; rewrite Nat.add_1_r; exact W].
    split; cbn; [exact SE|]. apply Forall2_app; [exact SF|]. constructor; constructor.
  - destruct W as [Ho W]. destruct (Forall2_get _ _ _ _ SF Ho) as (c & l & Ec & El & T).
    cbn [step]. unfold copy. rewrite (rd_ok _ _ _ Ec). cbn [obind]. eexists. split; [reflexivity|].
    split; [|cbn [shared_step held]; rewrite app_length; cbn [length]; rewrite Nat.add_1_r; exact W].
    split; cbn [shared_step entries held heap heads]; [exact SE|]. rewrite (nth_error_nth _ _ [] El).
    apply Forall2_app; [exact SF|]. constructor; [exact T|constructor].
  - destruct W as (Hd & Hk & W). destruct (Forall2_get _ _ _ _ SF Hk) as (c & l & Ec & El & T).
    destruct (Forall2_get _ _ _ _ SF Hd) as (c2 & l2 & Ec2 & El2 & _).
    cbn [step]. unfold assign. rewrite (rd_ok _ _ _ Ec), (rd_ok _ _ _ Ec2). cbn [obind]. eexists. split; [reflexivity|].
    split; [|cbn [shared_step held]; rewrite length_change; exact W].
    split; cbn [shared_step entries held heap heads]; [exact SE|]. rewrite (nth_error_nth _ _ [] El).
    eapply Forall2_change; [exact SF|exact El2|exact T].
Qed.

Lemma sim_run ops : forall w s, sim w s -> well_formed (length (held s)) ops ->
  exists w', run w ops = Ok w' /\ sim w' (fold_left shared_step ops s).
Proof.
  induction ops as [|a ops IH]; intros w s S W; [exists w; split; [reflexivity|exact S]|].
  destruct (sim_step w s a ops S W) as (w1 & E & S1 & W1). destruct (IH w1 _ S1 W1) as (w2 & E2 & S2).
  exists w2. cbn [run fold_left]. rewrite E. cbn [obind]. split; assumption.
Qed.

Lemma trail_listing h c l : trail h c l -> forall fuel, length l < fuel ->
  listing_loop fuel h c = Ok (flat_map (fun id => match nth_error (map (fun n => (ntag n, nvalue n)) h) id with Some e => [e] | None => [] end) l).
Proof.
  induction 1 as [|p n l E T IH F]; intros fuel Hf; (destruct fuel as [|fuel]; [cbn in Hf; lia|]); [reflexivity|].
  cbn [listing_loop flat_map]. rewrite (rd_ok _ _ _ E). cbn [obind]. rewrite IH by (cbn in Hf; lia). cbn [obind].
  rewrite nth_error_map, E. reflexivity.
Qed.

Lemma newest_value w s tag c l : sim w s -> trail (heap w) c l -> forall after,
  match newest s tag after l with
  | None => hd_error (map snd (filter (fun e => Nat.eqb (fst e) tag)
      (flat_map (fun id => match nth_error (entries s) id with Some e => [e] | None => [] end) l))) = None
  | Some (_, id) => exists n, nth_error (heap w) id = Some n /\ hd_error (map snd (filter (fun e => Nat.eqb (fst e) tag)
      (flat_map (fun id => match nth_error (entries s) id with Some e => [e] | None => [] end) l))) = Some (nvalue n)
  end.
Proof.
  intros S. induction 1 as [|p n l E T IH F]; intros after; [reflexivity|]. cbn [newest flat_map].
  rewrite (sim_tagged _ _ _ _ _ S E).
  assert (En : nth_error (entries s) p = Some (ntag n, nvalue n)) by (rewrite (proj1 S), nth_error_map, E; reflexivity).
  rewrite En. cbn [app filter fst]. destruct (Nat.eqb (ntag n) tag).
  - exists n. split; [exact E|reflexivity].
  - exact (IH (Some p)).
Qed.

Lemma sharing_lemma (ops : list (op V)) : well_formed 0 ops ->
  exists w, run empty_world ops = Ok w /\
    forall o, o < length (held (sharing ops)) ->
      listing w o = Ok (contents (sharing ops) o) /\ forall tag, get w o tag = Ok (shared_answer (sharing ops) o tag).
Proof.
  intros W. destruct (sim_run ops empty_world (mkshared [] [])) as (w & E & S).
  { split; cbn; constructor. }
  { exact W. }
  exists w. split; [exact E|]. intros o Ho. change (fold_left shared_step ops (mkshared [] [])) with (sharing ops) in S.
  destruct (Forall2_get _ _ _ _ (proj2 S) Ho) as (c & l & Ec & El & T). split.
  - unfold listing. rewrite (rd_ok _ _ _ Ec). cbn [obind]. rewrite (trail_listing _ _ _ T) by (pose proof (trail_len _ _ _ T); lia).
    unfold contents. rewrite (nth_error_nth _ _ [] El), (proj1 S). reflexivity.
  - intros tag. unfold get, find. rewrite (rd_ok _ _ _ Ec). cbn [obind].
    rewrite (find_newest w _ tag c l S T None) by (pose proof (trail_len _ _ _ T); lia). cbn [obind].
    unfold shared_answer, contents. rewrite (nth_error_nth _ _ [] El).
    pose proof (newest_value w _ tag c l S T None) as X. destruct (newest (sharing ops) tag None l) as [[a id]|]; cbn [option_map snd].
    + destruct X as (n & En & ->). rewrite (rd_ok _ _ _ En). reflexivity.
    + rewrite X. reflexivity.
Qed.
End share.
