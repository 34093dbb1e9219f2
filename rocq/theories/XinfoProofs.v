(** Proofs about exception_info. *)
From Coq Require Import List NArith Arith Bool Lia.
From Verif Require Import Base XinfoModel XinfoSpec.
Import ListNotations.
Local Open Scope outcome_scope.

Lemma nth_upd_same {A} (l : list A) i v : i < length l -> nth_error (upd l i v) i = Some v.
Proof. revert i; induction l as [|x l IH]; intros [|i] H; cbn in *; try lia; [reflexivity|]. apply IH. lia. Qed.

Lemma nth_upd_other {A} (l : list A) i j v : i <> j -> nth_error (upd l i v) j = nth_error l j.
Proof. revert i j; induction l as [|x l IH]; intros [|i] [|j] H; cbn; try reflexivity; [lia|]. apply IH. lia. Qed.

Lemma nth_some_lt {A} (l : list A) i x : nth_error l i = Some x -> i < length l.
Proof. intros H. apply nth_error_Some. congruence. Qed.

Section proofs.
Variable V : Type.
Local Notation entry := (nat * (nat * V))%type.

(** The nodes reachable from a pointer: address, tag and value. *)
Inductive chain (h : list (node V)) : option nat -> list entry -> Prop :=
| chain_nil : chain h None []
| chain_cons p n l : nth_error h p = Some n -> chain h (nnext n) l -> Forall (fun e => fst e < p) l ->
    chain h (Some p) ((p, (ntag n, nvalue n)) :: l).

Definition stack_of (l : list entry) (t : nat) : list V :=
  map (fun e => snd (snd e)) (filter (fun e => Nat.eqb (fst (snd e)) t) l).

Fixpoint remove_first (tag : nat) (l : list entry) : list entry :=
  match l with
  | [] => []
  | e :: l' => if Nat.eqb (fst (snd e)) tag then l' else e :: remove_first tag l'
  end.

Fixpoint replace_first (tag : nat) (v : V) (l : list entry) : list entry :=
  match l with
  | [] => []
  | e :: l' => if Nat.eqb (fst (snd e)) tag then (fst e, (fst (snd e), v)) :: l' else e :: replace_first tag v l'
  end.

Lemma chain_fun h c l : chain h c l -> forall l', chain h c l' -> l = l'.
Proof.
  induction 1 as [|p n l E C IH F]; intros l' H'; inversion H' as [|? n' ? E' C']; subst; [reflexivity|].
  rewrite E in E'. injection E' as <-. f_equal. auto.
Qed.

Lemma chain_short h c l : chain h c l -> forall b, Forall (fun e => fst e < b) l -> length l <= b.
Proof.
  induction 1 as [|p n l E C IH F]; intros b Hb; cbn; [lia|]. inversion Hb; subst. cbn in *. specialize (IH p F). lia.
Qed.

Lemma chain_bound h c l : chain h c l -> Forall (fun e => fst e < length h) l.
Proof. induction 1 as [|p n l E C IH F]; constructor; [|assumption]. cbn. eapply nth_some_lt; eauto. Qed.

Lemma chain_len h c l : chain h c l -> length l <= length h.
Proof. intros H. eapply chain_short; eauto using chain_bound. Qed.

Lemma chain_frame h h' c l : chain h c l -> (forall e, In e l -> nth_error h' (fst e) = nth_error h (fst e)) -> chain h' c l.
Proof.
  induction 1 as [|p n l E C IH F]; intros H; constructor.
  - specialize (H _ (or_introl eq_refl)). cbn in H. congruence.
  - apply IH. intros e He. apply H. now right.
  - assumption.
Qed.

Lemma chain_extend h x c l : chain h c l -> chain (h ++ [x]) c l.
Proof.
  intros H. apply (chain_frame h); [exact H|]. intros e He. apply nth_error_app1.
  pose proof (chain_bound _ _ _ H) as HB. rewrite Forall_forall in HB. auto.
Qed.

Lemma rd_ok {A} (l : list A) i x : nth_error l i = Some x -> rd l i = Ok x.
Proof. unfold rd. now intros ->. Qed.

Lemma filter_remove tag t l : stack_of (remove_first tag l) t = if Nat.eqb t tag then tl (stack_of l t) else stack_of l t.
Proof.
  unfold stack_of. induction l as [|e l IH]; cbn; [now destruct (Nat.eqb t tag)|].
  destruct (Nat.eqb_spec (fst (snd e)) tag) as [<-|Hn].
  - destruct (Nat.eqb_spec (fst (snd e)) t) as [<-|Ht]; [now rewrite Nat.eqb_refl|].
    destruct (Nat.eqb_spec t (fst (snd e))); [congruence|reflexivity].
  - cbn. destruct (Nat.eqb_spec (fst (snd e)) t) as [<-|Ht].
    + destruct (Nat.eqb_spec (fst (snd e)) tag); [contradiction|]. cbn. now rewrite IH.
    + exact IH.
Qed.

Lemma filter_replace tag v t l : stack_of (replace_first tag v l) t = if Nat.eqb t tag then match stack_of l t with [] => [] | _ :: r => v :: r end else stack_of l t.
Proof.
  unfold stack_of. induction l as [|e l IH]; cbn; [now destruct (Nat.eqb t tag)|].
  destruct (Nat.eqb_spec (fst (snd e)) tag) as [<-|Hn]; cbn.
  - destruct (Nat.eqb_spec (fst (snd e)) t) as [<-|Ht]; [now rewrite Nat.eqb_refl|].
    destruct (Nat.eqb_spec t (fst (snd e))); [congruence|reflexivity].
  - destruct (Nat.eqb_spec (fst (snd e)) t) as [<-|Ht].
    + destruct (Nat.eqb_spec (fst (snd e)) tag); [contradiction|]. cbn. now rewrite IH.
    + exact IH.
Qed.

(** Removing keeps the addresses among the old ones. *)
Lemma remove_addrs tag l P : Forall (fun e : entry => P (fst e)) l -> Forall (fun e => P (fst e)) (remove_first tag l).
Proof.
  induction 1 as [|e l H F IH]; cbn; [constructor|]. destruct (Nat.eqb _ _); [assumption|]. now constructor.
Qed.
Lemma replace_addrs tag v l P : Forall (fun e : entry => P (fst e)) l -> Forall (fun e => P (fst e)) (replace_first tag v l).
Proof.
  induction 1 as [|e l H F IH]; cbn; [constructor|]. destruct (Nat.eqb _ _); constructor; assumption.
Qed.

(** [get] and [find]. *)
Lemma find_loop_spec h tag c l : chain h c l -> forall fuel, length l < fuel ->
  exists r, find_loop fuel h tag c = Ok r /\
    match r with
    | None => stack_of l tag = []
    | Some p => exists n, nth_error h p = Some n /\ ntag n = tag /\ hd_error (stack_of l tag) = Some (nvalue n) /\
        In p (map fst l) /\
        forall v h', h' = upd h p (mknode (ntag n) v (nnext n)) -> chain h' c (replace_first tag v l)
    end.
Proof.
  induction 1 as [|p n l E C IH F]; intros fuel Hf; (destruct fuel as [|fuel]; [cbn in Hf; lia|]); cbn [find_loop].
  - exists None. auto.
  - rewrite (rd_ok _ _ _ E). cbn [obind]. unfold stack_of. cbn [filter fst snd]. destruct (Nat.eqb_spec (ntag n) tag) as [Et|Et].
    + exists (Some p). split; [reflexivity|]. exists n. repeat split; auto; [now left|].
      intros v h' ->. cbn [replace_first fst snd]. rewrite Et, Nat.eqb_refl.
      replace tag with (ntag (mknode (ntag n) v (nnext n))) by exact Et.
      rewrite Et at 1. change (tag, v) with (tag, nvalue (mknode (ntag n) v (nnext n))).
      replace (tag, nvalue (mknode (ntag n) v (nnext n))) with (ntag (mknode tag v (nnext n)), nvalue (mknode tag v (nnext n))) by reflexivity.
      apply chain_cons.
      * rewrite Et. apply nth_upd_same. eapply nth_some_lt; eauto.
      * cbn [nnext]. apply (chain_frame h); [exact C|]. intros e He. apply nth_upd_other.
        rewrite Forall_forall in F. specialize (F e He). lia.
      * exact F.
    + destruct (IH fuel) as (r & Er & R); [cbn in Hf; lia|]. exists r. split; [exact Er|]. destruct r as [q|].
      * destruct R as (m & Em & Tm & Hm & Hin & Hc). exists m. repeat split; auto; [now right|].
        intros v h' Eh. cbn [replace_first fst snd]. destruct (Nat.eqb_spec (ntag n) tag); [contradiction|].
        apply chain_cons.
        -- rewrite Eh, nth_upd_other; [exact E|]. apply in_map_iff in Hin as (e & He & Hi). rewrite Forall_forall in F. specialize (F e Hi). lia.
        -- now apply Hc.
        -- now apply (replace_addrs tag v l (fun a => a < p)).
      * exact R.
Qed.

(** [unset] past the head. *)
Lemma unset_loop_spec w o tag c rest : chain (heap w) c rest -> forall q m fuel, nth_error (heap w) q = Some m -> nnext m = c ->
  Forall (fun e => fst e < q) rest -> length rest < fuel ->
  exists w', unset_loop fuel w o tag (Some q) c = Ok w' /\ heads w' = heads w /\
    length (heap w') = length (heap w) /\
    chain (heap w') (Some q) ((q, (ntag m, nvalue m)) :: remove_first tag rest) /\
    forall a, ~ In a (q :: map fst rest) -> nth_error (heap w') a = nth_error (heap w) a.
Proof.
  induction 1 as [|p n l E C IH FF]; intros q m fuel Em Ec F Hf; (destruct fuel as [|fuel]; [cbn in Hf; lia|]); cbn [unset_loop].
  - exists w. repeat split; auto. apply chain_cons; [exact Em|rewrite Ec; constructor|constructor].
  - rewrite (rd_ok _ _ _ E). cbn [obind]. inversion F as [|? ? Hpq Fl]; subst. cbn [fst] in Hpq.
    cbn [remove_first fst snd]. destruct (Nat.eqb_spec (ntag n) tag) as [Et|Et].
    + rewrite (rd_ok _ _ _ Em). cbn [obind]. eexists. split; [reflexivity|]. cbn [heap heads]. split; [easy|]. split; [apply length_upd|]. split.
      * apply (chain_cons (upd (heap w) q (mknode (ntag m) (nvalue m) (nnext n))) q (mknode (ntag m) (nvalue m) (nnext n)) l).
        -- apply nth_upd_same. eapply nth_some_lt; eauto.
        -- cbn [nnext]. apply (chain_frame (heap w)); [exact C|]. intros e He. apply nth_upd_other.
           rewrite Forall_forall in Fl. specialize (Fl e He). lia.
        -- exact Fl.
      * intros a Ha. apply nth_upd_other. intros ->. apply Ha. now left.
    + destruct (IH p n fuel E eq_refl FF) as (w' & Ew & Hh & Hl & Hc & Hfr); [cbn in Hf; lia|].
      exists w'. split; [exact Ew|]. split; [exact Hh|]. split; [exact Hl|]. split.
      * apply chain_cons.
        -- rewrite Hfr; [exact Em|]. intros [->|Hin]; [lia|]. apply in_map_iff in Hin as (e & He & Hi).
           rewrite Forall_forall in Fl. specialize (Fl e Hi). lia.
        -- rewrite Ec. exact Hc.
        -- constructor; [exact Hpq|]. now apply (remove_addrs tag l (fun a => a < q)).
      * intros a Ha. apply Hfr. intros Hin. apply Ha. now right.
Qed.

(** [unset] on an object. *)
Lemma unset_spec w o tag c l : nth_error (heads w) o = Some c -> chain (heap w) c l ->
  exists w' c', unset w o tag = Ok w' /\ heads w' = upd (heads w) o c' /\ length (heap w') = length (heap w) /\
    chain (heap w') c' (remove_first tag l) /\
    (forall a, ~ In a (map fst l) -> nth_error (heap w') a = nth_error (heap w) a) /\
    (match l with [] => True | e :: _ => fst (snd e) = tag -> heap w' = heap w end).
Proof.
  intros Eo C. unfold unset. rewrite (rd_ok _ _ _ Eo). cbn [obind].
  pose proof (chain_len _ _ _ C) as HL. remember (length (heap w)) as N0 eqn:EN.
  assert (Hupd : upd (heads w) o c = heads w).
  { clear -Eo. revert o Eo. induction (heads w) as [|x hs IH]; intros [|o] Eo; cbn in *; try discriminate; [now injection Eo as ->|]. f_equal. auto. }
  destruct C as [|p n l E C F]; cbn [unset_loop].
  - exists w, None. repeat split; auto. constructor.
  - rewrite (rd_ok _ _ _ E). cbn [obind remove_first fst snd]. destruct (Nat.eqb_spec (ntag n) tag) as [Et|Et].
    + eexists. exists (nnext n). split; [reflexivity|]. cbn [heads heap]. repeat split; auto.
    + cbn [length] in HL. destruct (unset_loop_spec w o tag (nnext n) l C p n N0 E eq_refl F) as (w' & Ew & Hh & Hl & Hc & Hfr); [lia|].
      exists w', (Some p). rewrite Hupd. repeat split; auto; try congruence.
Qed.

(* ---------- simulation ---------- *)

Lemma nth_put (ss : list (stacks V)) o f i : nth_error (put ss o f) i = option_map (fun s => if Nat.eqb i o then f s else s) (nth_error ss i).
Proof.
  unfold put. enough (HH : forall a, nth_error (map (fun p => if Nat.eqb (fst p) o then f (snd p) else snd p) (combine (seq a (length ss)) ss)) i =
    option_map (fun s => if Nat.eqb (a + i) o then f s else s) (nth_error ss i)) by exact (HH 0).
  revert i. induction ss as [|s ss IH]; intros [|i] a; cbn; try reflexivity.
  - now rewrite Nat.add_0_r.
  - rewrite IH. now replace (S a + i) with (a + S i) by lia.
Qed.

Lemma length_put (ss : list (stacks V)) o f : length (put ss o f) = length ss.
Proof. unfold put. rewrite map_length, combine_length, seq_length. lia. Qed.

Definition sim (w : world V) (ss : list (stacks V)) : Prop :=
  length (heads w) = length ss /\
  forall o c s, nth_error (heads w) o = Some c -> nth_error ss o = Some s ->
    exists l, chain (heap w) c l /\ forall t, stack_of l t = s t.

Definition disjoint (w : world V) : Prop :=
  forall o o' c c' l l', o <> o' -> nth_error (heads w) o = Some c -> nth_error (heads w) o' = Some c' ->
    chain (heap w) c l -> chain (heap w) c' l' -> forall a, In a (map fst l) -> ~ In a (map fst l').

Lemma sim_get w ss o tag : sim w ss -> o < length ss -> get w o tag = Ok (answer ss o tag).
Proof.
  intros [HL HS] Ho. unfold get, find, answer.
  destruct (nth_error (heads w) o) as [c|] eqn:Ec; [|apply nth_error_None in Ec; lia].
  destruct (nth_error ss o) as [s|] eqn:Es; [|apply nth_error_None in Es; lia].
  destruct (HS o c s Ec Es) as (l & C & Hs). rewrite (rd_ok _ _ _ Ec). cbn [obind].
  rewrite (nth_error_nth _ _ nothing Es). rewrite <- Hs.
  destruct (find_loop_spec _ tag c l C (S (length (heap w)))) as (r & Er & R); [pose proof (chain_len _ _ _ C); lia|].
  rewrite Er. cbn [obind]. destruct r as [p|].
  - destruct R as (n & En & _ & Hh & _). rewrite (rd_ok _ _ _ En). cbn [obind]. now rewrite Hh.
  - now rewrite R.
Qed.

Lemma sim_set w ss o tag v : sim w ss -> o < length ss ->
  exists w', set w o tag v = Ok w' /\ sim w' (put ss o (fun s => push s tag v)) /\ (disjoint w -> disjoint w').
Proof.
  intros [HL HS] Ho. destruct (nth_error (heads w) o) as [c|] eqn:Ec; [|apply nth_error_None in Ec; lia].
  unfold set. rewrite (rd_ok _ _ _ Ec). cbn [obind alloc]. eexists. split; [reflexivity|].
  assert (NEW : forall l, chain (heap w) c l -> chain (heap w ++ [mknode tag v c]) (Some (length (heap w))) ((length (heap w), (tag, v)) :: l)).
  { intros l C. apply (chain_cons (heap w ++ [mknode tag v c]) (length (heap w)) (mknode tag v c) l).
    - rewrite nth_error_app2, Nat.sub_diag by lia. reflexivity.
    - now apply chain_extend.
    - eapply chain_bound; eauto. }
  split.
  - split; [cbn [heads]; now rewrite length_upd, length_put|]. cbn [heads heap]. intros o' c' s' E1 E2. rewrite nth_put in E2.
    destruct (nth_error ss o') as [s|] eqn:Es; [|discriminate]. cbn in E2. injection E2 as <-.
    destruct (Nat.eqb_spec o' o) as [->|Hn].
    + rewrite nth_upd_same in E1 by (eapply nth_some_lt; eauto). injection E1 as <-.
      destruct (HS o c s Ec Es) as (l & C & Hs). eexists. split; [apply NEW, C|]. intros t. unfold stack_of, push. cbn [filter fst snd].
      rewrite <- Hs. rewrite (Nat.eqb_sym t tag). destruct (Nat.eqb tag t); reflexivity.
    + rewrite nth_upd_other in E1 by congruence. destruct (HS o' c' s E1 Es) as (l & C & Hs). exists l. split; [now apply chain_extend|exact Hs].
  - intros D. intros o1 o2 c1 c2 l1 l2 Hne E1 E2 C1 C2 a Ha Ha'. cbn [heads heap] in *.
    assert (AUX : forall o' c' l', nth_error (upd (heads w) o (Some (length (heap w)))) o' = Some c' ->
       chain (heap w ++ [mknode tag v c]) c' l' -> exists c0 l0, nth_error (heads w) o' = Some c0 /\ chain (heap w) c0 l0 /\
        (l' = l0 /\ o' <> o \/ l' = (length (heap w), (tag, v)) :: l0 /\ o' = o)).
    { intros o' c' l' E C. destruct (Nat.eq_dec o' o) as [->|Hn].
      - rewrite nth_upd_same in E by (eapply nth_some_lt; eauto). injection E as <-.
        destruct (nth_error ss o) as [s|] eqn:Es; [|apply nth_error_None in Es; lia].
        destruct (HS o c s Ec Es) as (l & C0 & _). exists c, l. split; [exact Ec|]. split; [exact C0|]. right. split; [|easy].
        eapply chain_fun; eauto.
      - rewrite nth_upd_other in E by congruence.
        destruct (nth_error ss o') as [s|] eqn:Es; [|apply nth_error_None in Es; apply nth_some_lt in E; lia].
        destruct (HS o' c' s E Es) as (l & C0 & _). exists c', l. split; [exact E|]. split; [exact C0|]. left. split; [|easy].
        eapply chain_fun; eauto. now apply chain_extend. }
    destruct (AUX o1 c1 l1 E1 C1) as (d1 & k1 & F1 & K1 & R1). destruct (AUX o2 c2 l2 E2 C2) as (d2 & k2 & F2 & K2 & R2).
    pose proof (chain_bound _ _ _ K1) as B1. pose proof (chain_bound _ _ _ K2) as B2. rewrite Forall_forall in B1, B2.
    destruct R1 as [[-> H1]|[-> H1]], R2 as [[-> H2]|[-> H2]].
    + exact (D o1 o2 d1 d2 k1 k2 Hne F1 F2 K1 K2 a Ha Ha').
    + destruct Ha' as [<-|Ha']; [|exact (D o1 o2 d1 d2 k1 k2 Hne F1 F2 K1 K2 a Ha Ha')].
      apply in_map_iff in Ha as (e & He & Hi). specialize (B1 e Hi). cbn in He. lia.
    + destruct Ha as [<-|Ha]; [|exact (D o1 o2 d1 d2 k1 k2 Hne F1 F2 K1 K2 a Ha Ha')].
      apply in_map_iff in Ha' as (e & He & Hi). specialize (B2 e Hi). cbn in He. lia.
    + congruence.
Qed.

Lemma sim_unset w ss o tag : sim w ss -> disjoint w -> o < length ss ->
  exists w', unset w o tag = Ok w' /\ sim w' (put ss o (fun s => pop s tag)) /\ disjoint w'.
Proof.
  intros [HL HS] D Ho. destruct (nth_error (heads w) o) as [c|] eqn:Ec; [|apply nth_error_None in Ec; lia].
  destruct (nth_error ss o) as [s0|] eqn:Es0; [|apply nth_error_None in Es0; lia].
  destruct (HS o c s0 Ec Es0) as (l & C & Hs0).
  destruct (unset_spec w o tag c l Ec C) as (w' & c' & E & Eh & Hlen & C' & Fr & _). exists w'. split; [exact E|].
  assert (OTHER : forall o' d l', o' <> o -> nth_error (heads w) o' = Some d -> chain (heap w) d l' -> chain (heap w') d l').
  { intros o' d l' Hne Ed Cd. apply (chain_frame (heap w)); [exact Cd|]. intros e He. apply Fr.
    apply (D o' o d c l' l Hne Ed Ec Cd C). now apply in_map. }
  split.
  - split; [rewrite Eh, length_upd, length_put; exact HL|]. intros o' d s E1 E2. rewrite Eh in E1. rewrite nth_put in E2.
    destruct (nth_error ss o') as [s1|] eqn:Es; [|discriminate]. cbn in E2. injection E2 as <-.
    destruct (Nat.eqb_spec o' o) as [->|Hn].
    + rewrite nth_upd_same in E1 by (eapply nth_some_lt; eauto). injection E1 as <-. exists (remove_first tag l). split; [exact C'|].
      intros t. rewrite filter_remove. unfold pop. rewrite Es0 in Es. injection Es as <-. now rewrite Hs0.
    + rewrite nth_upd_other in E1 by congruence. destruct (HS o' d s1 E1 Es) as (l' & Cl & Hl). exists l'. split; [|exact Hl]. eauto.
  - assert (AUX : forall o' d l', nth_error (heads w') o' = Some d -> chain (heap w') d l' ->
       exists d0 l0, nth_error (heads w) o' = Some d0 /\ chain (heap w) d0 l0 /\ incl (map fst l') (map fst l0)).
    { intros o' d l' E1 Cd. rewrite Eh in E1. destruct (Nat.eq_dec o' o) as [->|Hn].
      - rewrite nth_upd_same in E1 by (eapply nth_some_lt; eauto). injection E1 as <-. exists c, l. split; [exact Ec|]. split; [exact C|].
        rewrite (chain_fun _ _ _ Cd _ C'). clear. induction l as [|e l IH]; cbn; [easy|]. destruct (Nat.eqb _ _); cbn.
        + now apply incl_tl.
        + apply incl_cons; [now left|]. now apply incl_tl.
      - rewrite nth_upd_other in E1 by congruence. destruct (nth_error ss o') as [s1|] eqn:Es; [|apply nth_error_None in Es; apply nth_some_lt in E1; lia].
        destruct (HS o' d s1 E1 Es) as (l1 & Cl & _). exists d, l1. split; [exact E1|]. split; [exact Cl|].
        rewrite (chain_fun _ _ _ Cd l1); [easy|]. eapply OTHER; eauto. }
    intros o1 o2 c1 c2 l1 l2 Hne E1 E2 C1 C2 a Ha Ha'.
    destruct (AUX o1 c1 l1 E1 C1) as (d1 & k1 & F1 & K1 & I1). destruct (AUX o2 c2 l2 E2 C2) as (d2 & k2 & F2 & K2 & I2).
    exact (D o1 o2 d1 d2 k1 k2 Hne F1 F2 K1 K2 a (I1 a Ha) (I2 a Ha')).
Qed.

Lemma sim_poke w ss o tag v : sim w ss -> disjoint w -> o < length ss ->
  exists w', poke w o tag v = Ok w' /\ sim w' (put ss o (fun s => replace_top s tag v)) /\ disjoint w'.
Proof.
  intros [HL HS] D Ho. destruct (nth_error (heads w) o) as [c|] eqn:Ec; [|apply nth_error_None in Ec; lia].
  destruct (nth_error ss o) as [s0|] eqn:Es0; [|apply nth_error_None in Es0; lia].
  destruct (HS o c s0 Ec Es0) as (l & C & Hs0). unfold poke, find. rewrite (rd_ok _ _ _ Ec). cbn [obind].
  destruct (find_loop_spec _ tag c l C (S (length (heap w)))) as (r & Er & R); [pose proof (chain_len _ _ _ C); lia|].
  rewrite Er. cbn [obind]. destruct r as [p|].
  - destruct R as (n & En & Tn & _ & Hin & Hc). rewrite (rd_ok _ _ _ En). cbn [obind]. eexists. split; [reflexivity|].
    specialize (Hc v _ eq_refl). set (h' := upd (heap w) p (mknode (ntag n) v (nnext n))) in *.
    assert (OTHER : forall o' d l', o' <> o -> nth_error (heads w) o' = Some d -> chain (heap w) d l' -> chain h' d l').
    { intros o' d l' Hne Ed Cd. apply (chain_frame (heap w)); [exact Cd|]. intros e He. apply nth_upd_other. intros Ep.
      apply (D o' o d c l' l Hne Ed Ec Cd C (fst e)); [now apply in_map|congruence]. }
    split.
    + split; [cbn; now rewrite length_put|]. cbn [heads heap]. intros o' d s E1 E2. rewrite nth_put in E2.
      destruct (nth_error ss o') as [s1|] eqn:Es; [|discriminate]. cbn in E2. injection E2 as <-.
      destruct (Nat.eqb_spec o' o) as [->|Hn].
      * rewrite Ec in E1. injection E1 as <-. exists (replace_first tag v l). split; [exact Hc|].
        intros t. rewrite filter_replace. unfold replace_top. rewrite Es0 in Es. injection Es as <-. now rewrite Hs0.
      * destruct (HS o' d s1 E1 Es) as (l' & Cl & Hl). exists l'. split; [|exact Hl]. eauto.
    + assert (AUX : forall o' d l', nth_error (heads w) o' = Some d -> chain h' d l' ->
         exists l0, chain (heap w) d l0 /\ map fst l' = map fst l0).
      { intros o' d l' E1 Cd. destruct (nth_error ss o') as [s1|] eqn:Es; [|apply nth_error_None in Es; apply nth_some_lt in E1; lia].
        destruct (HS o' d s1 E1 Es) as (l1 & Cl & _). exists l1. split; [exact Cl|]. destruct (Nat.eq_dec o' o) as [->|Hn].
        - rewrite Ec in E1. injection E1 as <-. rewrite (chain_fun _ _ _ Cd _ Hc), (chain_fun _ _ _ Cl _ C).
          clear. induction l as [|e l IH]; cbn; [easy|]. destruct (Nat.eqb _ _); cbn; [reflexivity|]. now rewrite IH.
        - rewrite (chain_fun _ _ _ Cd l1); [easy|]. eapply OTHER; eauto. }
      intros o1 o2 c1 c2 l1 l2 Hne E1 E2 C1 C2 a. cbn [heads heap] in *.
      destruct (AUX o1 c1 l1 E1 C1) as (k1 & K1 & ->). destruct (AUX o2 c2 l2 E2 C2) as (k2 & K2 & ->).
      exact (D o1 o2 c1 c2 k1 k2 Hne E1 E2 K1 K2 a).
  - exists w. split; [reflexivity|]. split; [|exact D]. split; [now rewrite length_put|]. intros o' d s E1 E2. rewrite nth_put in E2.
    destruct (nth_error ss o') as [s1|] eqn:Es; [|discriminate]. cbn in E2. injection E2 as <-.
    destruct (HS o' d s1 E1 Es) as (l' & Cl & Hl). exists l'. split; [exact Cl|]. destruct (Nat.eqb_spec o' o) as [->|Hn]; [|exact Hl].
    rewrite Ec in E1. injection E1 as <-. rewrite (chain_fun _ _ _ Cl _ C) in *. intros t. unfold replace_top.
    destruct (Nat.eqb_spec t tag) as [->|]; [|apply Hl]. rewrite <- Hl, R. reflexivity.
Qed.

Lemma sim_construct w ss : sim w ss -> sim (construct w) (ss ++ [nothing]) /\ (disjoint w -> disjoint (construct w)).
Proof.
  intros [HL HS]. split.
  - split; [cbn; rewrite !app_length; cbn; lia|]. cbn [heads heap construct]. intros o c s E1 E2.
    destruct (Nat.lt_ge_cases o (length (heads w))) as [Ho|Ho].
    + rewrite nth_error_app1 in E1 by lia. rewrite nth_error_app1 in E2 by lia. eauto.
    + rewrite nth_error_app2 in E1 by lia. rewrite nth_error_app2 in E2 by lia. rewrite HL in E1.
      destruct (o - length ss) as [|k]; cbn in E1, E2; [|destruct k; discriminate]. injection E1 as <-. injection E2 as <-.
      exists []. split; [constructor|easy].
  - intros D o1 o2 c1 c2 l1 l2 Hne E1 E2 C1 C2 a. cbn [heads heap construct] in *.
    assert (AUX : forall o c l, nth_error (heads w ++ [None]) o = Some c -> chain (heap w) c l -> l = [] \/ nth_error (heads w) o = Some c).
    { intros o c l E C. destruct (Nat.lt_ge_cases o (length (heads w))) as [Ho|Ho].
      - rewrite nth_error_app1 in E by lia. auto.
      - rewrite nth_error_app2 in E by lia. destruct (o - length (heads w)) as [|k]; cbn in E; [|destruct k; discriminate].
        injection E as <-. inversion C. auto. }
    destruct (AUX o1 c1 l1 E1 C1) as [-> | F1]; [easy|]. destruct (AUX o2 c2 l2 E2 C2) as [-> | F2]; [easy|].
    exact (D o1 o2 c1 c2 l1 l2 Hne F1 F2 C1 C2 a).
Qed.

Lemma sim_copy w ss o : sim w ss -> o < length ss -> exists w', copy w o = Ok w' /\ sim w' (ss ++ [nth o ss nothing]).
Proof.
  intros [HL HS] Ho. destruct (nth_error (heads w) o) as [c|] eqn:Ec; [|apply nth_error_None in Ec; lia].
  destruct (nth_error ss o) as [s0|] eqn:Es0; [|apply nth_error_None in Es0; lia].
  unfold copy. rewrite (rd_ok _ _ _ Ec). cbn [obind]. eexists. split; [reflexivity|].
  split; [cbn; rewrite !app_length; cbn; lia|]. cbn [heads heap]. intros o' c' s E1 E2.
  destruct (Nat.lt_ge_cases o' (length (heads w))) as [Ho'|Ho'].
  - rewrite nth_error_app1 in E1 by lia. rewrite nth_error_app1 in E2 by lia. eauto.
  - rewrite nth_error_app2 in E1 by lia. rewrite nth_error_app2 in E2 by lia. rewrite HL in E1.
    destruct (o' - length ss) as [|k]; cbn in E1, E2; [|destruct k; discriminate]. injection E1 as <-. injection E2 as <-.
    rewrite (nth_error_nth _ _ nothing Es0). eauto.
Qed.

Lemma sim_assign w ss d r : sim w ss -> d < length ss -> r < length ss ->
  exists w', assign w d r = Ok w' /\ sim w' (put ss d (fun _ => nth r ss nothing)).
Proof.
  intros [HL HS] Hd Hr. destruct (nth_error (heads w) r) as [c|] eqn:Ec; [|apply nth_error_None in Ec; lia].
  destruct (nth_error (heads w) d) as [c0|] eqn:Ec0; [|apply nth_error_None in Ec0; lia].
  destruct (nth_error ss r) as [s0|] eqn:Es0; [|apply nth_error_None in Es0; lia].
  unfold assign. rewrite (rd_ok _ _ _ Ec). cbn [obind]. rewrite (rd_ok _ _ _ Ec0). cbn [obind]. eexists. split; [reflexivity|].
  split; [cbn; now rewrite length_upd, length_put|]. cbn [heads heap]. intros o' c' s E1 E2. rewrite nth_put in E2.
  destruct (nth_error ss o') as [s1|] eqn:Es; [|discriminate]. cbn in E2. injection E2 as <-.
  destruct (Nat.eqb_spec o' d) as [->|Hn].
  - rewrite nth_upd_same in E1 by lia. injection E1 as <-. rewrite (nth_error_nth _ _ nothing Es0). eauto.
  - rewrite nth_upd_other in E1 by congruence. eauto.
Qed.

Lemma run_no_copies ops : forall w ss, sim w ss -> disjoint w -> well_formed (length ss) ops -> no_copies ops ->
  exists w', run w ops = Ok w' /\ sim w' (fold_left ideal_step ops ss).
Proof.
  induction ops as [|a ops IH]; intros w ss S D W F; cbn [run fold_left]; [eauto|].
  inversion F as [|? ? Fa Fo]; subst. destruct a as [o tag v|o tag|o tag v| |o|d r]; cbn [well_formed step ideal_step] in *; try contradiction.
  - destruct W as [Ho W]. destruct (sim_set w ss o tag v S Ho) as (w' & E & S' & D'). rewrite E. cbn [obind]. apply IH; auto. now rewrite length_put.
  - destruct W as [Ho W]. destruct (sim_unset w ss o tag S D Ho) as (w' & E & S' & D'). rewrite E. cbn [obind]. apply IH; auto. now rewrite length_put.
  - destruct W as [Ho W]. destruct (sim_poke w ss o tag v S D Ho) as (w' & E & S' & D'). rewrite E. cbn [obind]. apply IH; auto. now rewrite length_put.
  - destruct (sim_construct w ss S) as [S' D']. cbn [obind]. apply IH; auto. rewrite app_length, Nat.add_comm. exact W.
Qed.

Lemma run_only_adds ops : forall w ss, sim w ss -> well_formed (length ss) ops -> only_adds ops ->
  exists w', run w ops = Ok w' /\ sim w' (fold_left ideal_step ops ss).
Proof.
  induction ops as [|a ops IH]; intros w ss S W F; cbn [run fold_left]; [eauto|].
  inversion F as [|? ? Fa Fo]; subst. destruct a as [o tag v|o tag|o tag v| |o|d r]; cbn [well_formed step ideal_step] in *; try contradiction.
  - destruct W as [Ho W]. destruct (sim_set w ss o tag v S Ho) as (w' & E & S' & _). rewrite E. cbn [obind]. apply IH; auto. now rewrite length_put.
  - destruct (sim_construct w ss S) as [S' _]. cbn [obind]. apply IH; auto. rewrite app_length, Nat.add_comm. exact W.
  - destruct W as [Ho W]. destruct (sim_copy w ss o S Ho) as (w' & E & S'). rewrite E. cbn [obind]. apply IH; auto. rewrite app_length, Nat.add_comm. exact W.
  - destruct W as (Hd & Hr & W). destruct (sim_assign w ss d r S Hd Hr) as (w' & E & S'). rewrite E. cbn [obind]. apply IH; auto. now rewrite length_put.
Qed.

Lemma sim_empty : sim empty_world [].
Proof. split; [reflexivity|]. intros [|o]; discriminate. Qed.
Lemma disjoint_empty : disjoint empty_world.
Proof. intros [|o]; discriminate. Qed.

Lemma stack_lemma (ops : list (op V)) : well_formed 0 ops -> no_copies ops ->
  exists w, run empty_world ops = Ok w /\
    forall o tag, o < length (ideal ops) -> get w o tag = Ok (answer (ideal ops) o tag).
Proof.
  intros W F. destruct (run_no_copies ops empty_world [] sim_empty disjoint_empty W F) as (w & E & S).
  exists w. split; [exact E|]. intros o tag Ho. now apply sim_get.
Qed.

Lemma copies_lemma (ops : list (op V)) : well_formed 0 ops -> only_adds ops ->
  exists w, run empty_world ops = Ok w /\
    forall o tag, o < length (ideal ops) -> get w o tag = Ok (answer (ideal ops) o tag).
Proof.
  intros W F. destruct (run_only_adds ops empty_world [] sim_empty W F) as (w & E & S).
  exists w. split; [exact E|]. intros o tag Ho. now apply sim_get.
Qed.

(* ---------- any history: safety, and what unset can reach ---------- *)

(** Pointers go down in every node, so [unset] keeps all chains finite. *)
Definition heap_ok (h : list (node V)) : Prop :=
  forall p n q, nth_error h p = Some n -> nnext n = Some q -> q < p.

Lemma heap_chain h : heap_ok h -> forall b p, p < b -> p < length h -> exists l, chain h (Some p) l /\ Forall (fun e => fst e <= p) l.
Proof.
  intros H. induction b as [|b IH]; intros p Hb Hp; [lia|].
  destruct (nth_error h p) as [n|] eqn:E; [|apply nth_error_None in E; lia].
  destruct (nnext n) as [q|] eqn:En.
  - pose proof (H p n q E En) as Hq. destruct (IH q) as (l & C & F); [lia|lia|].
    assert (F' : Forall (fun e : entry => fst e < p) l) by (revert F; apply Forall_impl; intros; lia).
    eexists. split; [apply (chain_cons h p n l E); [now rewrite En|exact F']|].
    constructor; [cbn; lia|]. revert F'. apply Forall_impl. intros; lia.
  - eexists. split; [apply (chain_cons h p n [] E); [rewrite En; constructor|constructor]|]. repeat constructor.
Qed.

Definition winv (w : world V) : Prop :=
  heap_ok (heap w) /\ forall o p, nth_error (heads w) o = Some (Some p) -> p < length (heap w).

Lemma winv_chain w o c : winv w -> nth_error (heads w) o = Some c -> exists l, chain (heap w) c l.
Proof.
  intros [H1 H2] E. destruct c as [p|]; [|eexists; constructor].
  destruct (heap_chain _ H1 (S p) p) as (l & C & _); [lia|eauto|eauto].
Qed.

Lemma upd_heap_ok h q m n : heap_ok h -> nth_error h q = Some m ->
  (forall r, nnext n = Some r -> r < q) -> heap_ok (upd h q n).
Proof.
  intros H E Hn p k r Ep Er. destruct (Nat.eq_dec p q) as [->|Hne].
  - rewrite nth_upd_same in Ep by (eapply nth_some_lt; eauto). injection Ep as <-. auto.
  - rewrite nth_upd_other in Ep by congruence. eauto.
Qed.

Lemma unset_loop_inv fuel : forall w o tag prev cur w', winv w -> unset_loop fuel w o tag prev cur = Ok w' ->
  (forall p, cur = Some p -> p < length (heap w)) ->
  (forall q, prev = Some q -> exists m, nth_error (heap w) q = Some m /\ nnext m = cur) -> winv w' /\ length (heads w') = length (heads w).
Proof.
  induction fuel as [|fuel IH]; intros w o tag prev cur w' [H1 H2] E Hc Hp; cbn [unset_loop] in E; [discriminate|].
  destruct cur as [p|]; [|injection E as <-; now split].
  unfold rd in E. destruct (nth_error (heap w) p) as [n|] eqn:En; [|discriminate]. cbn [obind] in E.
  destruct (Nat.eqb (ntag n) tag).
  - destruct prev as [q|].
    + destruct (Hp q eq_refl) as (m & Em & Enx). rewrite Em in E. cbn [obind] in E. injection E as <-. split; [|reflexivity]. split; cbn [heap heads].
      * eapply upd_heap_ok; eauto. cbn [nnext]. intros r Hr. pose proof (H1 q m p Em Enx). pose proof (H1 p n r En Hr). lia.
      * intros o' p' Eo. rewrite length_upd. eauto.
    + injection E as <-. split; [|cbn; apply length_upd]. split; cbn [heap heads]; [exact H1|]. intros o' p' Eo.
      destruct (Nat.eq_dec o' o) as [->|Hne].
      * destruct (Nat.lt_ge_cases o (length (heads w))) as [Hl|Hl].
        -- rewrite nth_upd_same in Eo by exact Hl. injection Eo as Eo. pose proof (H1 p n p' En Eo). apply nth_some_lt in En. lia.
        -- apply nth_some_lt in Eo. rewrite length_upd in Eo. lia.
      * rewrite nth_upd_other in Eo by congruence. eauto.
  - eapply (IH w o tag (Some p) (nnext n) w'); [now split|exact E| |].
    + intros r Hr. pose proof (H1 p n r En Hr). apply nth_some_lt in En. lia.
    + intros q Eq. injection Eq as <-. eauto.
Qed.

Lemma run_total ops : forall w n, winv w -> length (heads w) = n -> well_formed n ops ->
  exists w', run w ops = Ok w' /\ winv w'.
Proof.
  induction ops as [|a ops IH]; intros w n I L W; cbn [run]; [eauto|].
  destruct a as [o tag v|o tag|o tag v| |o|d r]; cbn [well_formed step] in *.
  - destruct W as [Ho W]. destruct (nth_error (heads w) o) as [c|] eqn:Ec; [|apply nth_error_None in Ec; lia].
    unfold set. rewrite (rd_ok _ _ _ Ec). cbn [obind alloc]. apply (IH _ n); [|cbn; now rewrite length_upd|exact W].
    destruct I as [H1 H2]. split; cbn [heap heads].
    + intros p m q E1 E2. destruct (Nat.lt_ge_cases p (length (heap w))) as [Hp|Hp].
      * rewrite nth_error_app1 in E1 by lia. eauto.
      * rewrite nth_error_app2 in E1 by lia. destruct (p - length (heap w)) as [|k] eqn:Ek; cbn in E1; [|destruct k; discriminate].
        injection E1 as <-. cbn in E2. subst c. specialize (H2 o q Ec). lia.
    + intros o' p E. rewrite app_length. cbn. destruct (Nat.eq_dec o' o) as [->|Hne].
      * rewrite nth_upd_same in E by lia. injection E as <-. lia.
      * rewrite nth_upd_other in E by congruence. specialize (H2 o' p E). lia.
  - destruct W as [Ho W]. destruct (nth_error (heads w) o) as [c|] eqn:Ec; [|apply nth_error_None in Ec; lia].
    destruct (winv_chain w o c I Ec) as (l & C). destruct (unset_spec w o tag c l Ec C) as (w' & c' & E & _). rewrite E. cbn [obind].
    unfold unset in E. rewrite (rd_ok _ _ _ Ec) in E. cbn [obind] in E.
    destruct (unset_loop_inv _ _ _ _ _ _ _ I E) as [I' L'].
    + intros p ->. destruct I as [_ H2]. eauto.
    + discriminate.
    + apply (IH w' n); [exact I'|lia|exact W].
  - destruct W as [Ho W]. destruct (nth_error (heads w) o) as [c|] eqn:Ec; [|apply nth_error_None in Ec; lia].
    destruct (winv_chain w o c I Ec) as (l & C). unfold poke, find. rewrite (rd_ok _ _ _ Ec). cbn [obind].
    destruct (find_loop_spec _ tag c l C (S (length (heap w)))) as (r & Er & R); [pose proof (chain_len _ _ _ C); lia|].
    rewrite Er. cbn [obind]. destruct r as [p|].
    + destruct R as (m & Em & _). rewrite (rd_ok _ _ _ Em). cbn [obind]. apply (IH _ n); [|exact L|exact W].
      destruct I as [H1 H2]. split; cbn [heap heads].
      * eapply upd_heap_ok; eauto.
      * intros o' p' Eo. rewrite length_upd. eauto.
    + apply (IH _ n); auto.
  - cbn [obind]. apply (IH _ (S n)); [|cbn; rewrite app_length; cbn; lia|exact W]. destruct I as [H1 H2]. split; [exact H1|].
    cbn [heads construct heap]. intros o p E. destruct (Nat.lt_ge_cases o (length (heads w))).
    + rewrite nth_error_app1 in E by lia. eauto.
    + rewrite nth_error_app2 in E by lia. destruct (o - length (heads w)) as [|k]; cbn in E; [discriminate|destruct k; discriminate].
  - destruct W as [Ho W]. destruct (nth_error (heads w) o) as [c|] eqn:Ec; [|apply nth_error_None in Ec; lia].
    unfold copy. rewrite (rd_ok _ _ _ Ec). cbn [obind]. apply (IH _ (S n)); [|cbn; rewrite app_length; cbn; lia|exact W].
    destruct I as [H1 H2]. split; [exact H1|]. cbn [heads heap]. intros o' p E. destruct (Nat.lt_ge_cases o' (length (heads w))).
    + rewrite nth_error_app1 in E by lia. eauto.
    + rewrite nth_error_app2 in E by lia. destruct (o' - length (heads w)) as [|k]; cbn in E; [|destruct k; discriminate].
      injection E as ->. eauto.
  - destruct W as (Hd & Hr & W). destruct (nth_error (heads w) r) as [c|] eqn:Ec; [|apply nth_error_None in Ec; lia].
    destruct (nth_error (heads w) d) as [c0|] eqn:Ec0; [|apply nth_error_None in Ec0; lia].
    unfold assign. rewrite (rd_ok _ _ _ Ec). cbn [obind]. rewrite (rd_ok _ _ _ Ec0). cbn [obind].
    apply (IH _ n); [|cbn; now rewrite length_upd|exact W]. destruct I as [H1 H2]. split; [exact H1|]. cbn [heads heap]. intros o' p E.
    destruct (Nat.eq_dec o' d) as [->|Hne].
    + rewrite nth_upd_same in E by lia. injection E as ->. eauto.
    + rewrite nth_upd_other in E by congruence. eauto.
Qed.

Lemma winv_empty : winv empty_world.
Proof. split; [intros [|p] n q H; discriminate|intros [|o] p H; discriminate]. Qed.

Lemma total_lemma (ops : list (op V)) : well_formed 0 ops -> exists w, run empty_world ops = Ok w.
Proof. intros W. destruct (run_total ops empty_world 0 winv_empty eq_refl W) as (w & E & _). eauto. Qed.

Lemma listing_loop_spec h c l : chain h c l -> forall fuel, length l < fuel -> listing_loop fuel h c = Ok (map snd l).
Proof.
  induction 1 as [|p n l E C IH F]; intros fuel Hf; (destruct fuel as [|fuel]; [cbn in Hf; lia|]); cbn [listing_loop]; [reflexivity|].
  rewrite (rd_ok _ _ _ E). cbn [obind]. rewrite IH by (cbn in Hf; lia). reflexivity.
Qed.

(** Removing the newest value of an object does not change any other object. *)
Lemma newest_lemma (ops : list (op V)) w o tag v rest : well_formed 0 ops -> run empty_world ops = Ok w ->
  listing w o = Ok ((tag, v) :: rest) ->
  exists w', unset w o tag = Ok w' /\ listing w' o = Ok rest /\
    forall o' t, o' <> o -> get w' o' t = get w o' t.
Proof.
  intros W R HL. destruct (run_total ops empty_world 0 winv_empty eq_refl W) as (w0 & E & I). rewrite R in E. injection E as <-.
  unfold listing in HL. destruct (nth_error (heads w) o) as [c|] eqn:Ec; [|unfold rd in HL; rewrite Ec in HL; discriminate].
  rewrite (rd_ok _ _ _ Ec) in HL. cbn [obind] in HL. destruct (winv_chain w o c I Ec) as (l & C).
  rewrite (listing_loop_spec _ _ _ C) in HL by (pose proof (chain_len _ _ _ C); lia). injection HL as HL.
  destruct l as [|e l]; [discriminate|]. cbn [map] in HL.
  assert (He : snd e = (tag, v)) by congruence. assert (Hr : map snd l = rest) by congruence.
  destruct (unset_spec w o tag c (e :: l) Ec C) as (w' & c' & Eu & Eh & Hlen & C' & _ & Hsame).
  rewrite He in Hsame. specialize (Hsame eq_refl). exists w'. split; [exact Eu|].
  cbn [remove_first] in C'. rewrite He in C'. cbn [fst] in C'. rewrite Nat.eqb_refl in C'. split.
  - unfold listing. rewrite Eh. rewrite (rd_ok (upd (heads w) o c') o c') by (apply nth_upd_same; eapply nth_some_lt; eauto). cbn [obind].
    rewrite (listing_loop_spec _ _ _ C') by (pose proof (chain_len _ _ _ C'); lia). now rewrite Hr.
  - intros o' t Hne. unfold get, find. rewrite Eh, Hsame. unfold rd at 1 3. rewrite nth_upd_other by congruence. reflexivity.
Qed.
End proofs.
