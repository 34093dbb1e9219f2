From Coq Require Import List NArith Arith Bool Lia.
From Verif Require Import Base PathModel PathSpec PathProofs PmemModel PmemSpec PmemProofs.
Import ListNotations.

Lemma passes_way s segs : passes s segs <-> way [] (pieces s) segs.
Proof. reflexivity. Qed.

Lemma way_slash t segs : way [] (pieces (ch_slash :: t)) segs <-> way [] (pieces t) segs.
Proof.
  change (pieces (ch_slash :: t)) with ([] :: pieces t). split.
  - intros H. apply way_inv in H. destruct H as [->|(s1 & E & H)]; [apply way_start|]. cbn in E. injection E as <-. exact H.
  - intros H. now apply (way_cons [] [] (pieces t) []).
Qed.

(** The text after a leading slash. *)
Definition body (s : list N) : list N := match s with c :: t => if N.eqb c ch_slash then t else s | [] => s end.
Lemma way_body s segs : way [] (pieces s) segs <-> way [] (pieces (body s)) segs.
Proof. destruct s as [|c t]; [reflexivity|]. cbn [body]. destruct (N.eqb_spec c ch_slash) as [->|N]; [apply way_slash|reflexivity]. Qed.
Lemma body_length s : length (body s) <= length s.
Proof. destruct s as [|c t]; [cbn; lia|]. cbn [body]. destruct (c =? ch_slash)%N; cbn; lia. Qed.

Definition short (s : list N) : bool := (length s =? 0) || str_eqb s [ch_slash].
Lemma short_way s segs : short s = true -> way [] (pieces s) segs -> segs = [].
Proof.
  intros H. assert (s = [] \/ s = [ch_slash]) as [->| ->].
  { unfold short, str_eqb in H. destruct s; [now left|]. cbn [length Nat.eqb orb] in H. destruct (list_eq_dec N.eq_dec (n :: s) [ch_slash]); [now right|discriminate]. }
  - intros X. apply way_inv in X. destruct X as [->|(s1 & E & (a & b & X & Y))]; [reflexivity|]. cbn in E. injection E as <-.
    symmetry in X. apply app_eq_nil in X. destruct X as [-> _]. cbn in Y. congruence.
  - rewrite way_slash. intros X. apply way_inv in X. destruct X as [->|(s1 & E & (a & b & X & Y))]; [reflexivity|]. cbn in E. injection E as <-.
    symmetry in X. apply app_eq_nil in X. destruct X as [-> _]. cbn in Y. congruence.
Qed.

Lemma path_set_body p s : short s = false -> path_set p s = set_loop (S (length (body s))) (body s) (mkpath [] []).
Proof. intros H. unfold path_set. fold (short s). rewrite H. reflexivity. Qed.
Lemma m_set_body heap m s : short s = false ->
  m_set heap m s = mbind (reserve heap (with_path m (mkpath [] [])) (length s)) (m_loop heap (S (length (body s))) (body s)).
Proof. intros H. unfold m_set. fold (short s). rewrite H. reflexivity. Qed.

(** Everything about one call. *)
Lemma set_mem heap m s p :
  (short s = true /\ m_set heap m s = MOk (with_path m (mkpath [] [])) /\ path_set p s = POk (mkpath [] [])) \/
  (short s = false /\ tcap m < length s /\ heap (length (asked m)) = None /\
     m_set heap m s = MNoMem (with_asked (with_path m (mkpath [] [])) (Text (length s)))) \/
  (short s = false /\ exists m1 t l,
     m1 = mkmem (mkpath [] []) (tcap m1) (scap m) (asked m ++ t) /\ length s <= tcap m1 /\
     ((length s <= tcap m /\ t = [] /\ tcap m1 = tcap m) \/ (tcap m < length s /\ t = [Text (length s)] /\ heap (length (asked m)) <> None)) /\
     Forall for_segments l /\ (l = [] <-> forall segs, passes s segs -> length segs <= scap m) /\
     final heap m1 [] (pieces (body s)) (path_set p s) (m_set heap m s) l).
Proof.
  destruct (short s) eqn:Sh.
  { left. split; [reflexivity|]. unfold m_set, path_set. fold (short s). rewrite Sh. auto. }
  right. rewrite (m_set_body heap m s Sh), (path_set_body p s Sh). pose proof (body_length s) as BL.
  assert (GO : forall m1 t, m1 = mkmem (mkpath [] []) (tcap m1) (scap m) (asked m ++ t) -> length s <= tcap m1 ->
     exists l, Forall for_segments l /\ (l = [] <-> forall segs, passes s segs -> length segs <= scap m) /\
       final heap m1 [] (pieces (body s)) (set_loop (S (length (body s))) (body s) (mkpath [] [])) (m_loop heap (S (length (body s))) (body s) m1) l).
  { intros m1 t E L. assert (Pm : path_of m1 = mkpath [] []) by (rewrite E; reflexivity). assert (Sm : scap m1 = scap m) by (rewrite E; reflexivity).
    destruct (loop_mem heap (S (length (body s))) (body s) m1 []) as (l & A & B & C).
    - lia.
    - rewrite Pm. apply rep_empty.
    - unfold used. rewrite Pm. cbn. lia.
    - unfold within. rewrite Pm. cbn. lia.
    - exists l. split; [exact A|]. rewrite Pm, Sm in *. split; [|exact C]. rewrite B.
      split; intros H x Hx; apply H; [apply -> way_body|apply <- way_body]; exact Hx. }
  unfold reserve. cbn [with_path tcap asked]. destruct (Nat.leb_spec (length s) (tcap m)) as [L|L].
  - right. split; [reflexivity|]. cbn [mbind]. destruct (GO (with_path m (mkpath [] [])) []) as (l & A & B & C).
    + unfold with_path. cbn. now rewrite app_nil_r.
    + exact L.
    + exists (with_path m (mkpath [] [])), [], l.
      split; [unfold with_path; cbn; now rewrite app_nil_r|]. split; [exact L|]. split; [left; auto|]. auto.
  - destruct (heap (length (asked m))) as [more|] eqn:Hh; [|left; auto].
    right. split; [reflexivity|]. cbn [mbind].
    destruct (GO (with_tcap (with_asked (with_path m (mkpath [] [])) (Text (length s))) (length s + more)) [Text (length s)]) as (l & A & B & C).
    + reflexivity.
    + cbn. lia.
    + exists (with_tcap (with_asked (with_path m (mkpath [] [])) (Text (length s))) (length s + more)), [Text (length s)], l.
      split; [reflexivity|]. split; [cbn; lia|]. split; [right; split; [exact L|split; [reflexivity|discriminate]]|]. auto.
Qed.

Lemma set_refines heap m s p :
  match m_set heap m s with
  | MOk m' => path_set p s = POk (path_of m')
  | MThrow m' => path_set p s = PThrow (path_of m')
  | MNoMem m' => exists k, length (asked m) <= k < length (asked m') /\ heap k = None
  | MUB => False
  end.
Proof.
  destruct (set_mem heap m s p) as [(_ & -> & ->)|[(_ & _ & H & ->)|(_ & m1 & t & l & E1 & _ & _ & _ & _ & F)]].
  - reflexivity.
  - exists (length (asked m)). cbn. rewrite app_length. cbn. split; [lia|exact H].
  - assert (A1 : asked m1 = asked m ++ t) by (rewrite E1; reflexivity).
    destruct F as [(m' & -> & -> & _)|[(m' & -> & -> & _)|(m' & q & d & junk & -> & E & _ & _ & _ & _ & _ & _ & N & H)]]; try reflexivity.
    exists (length (asked m1) + (length l - 1)). split; [|exact H]. rewrite E, A1, !app_length. destruct l; [congruence|]. cbn [length]. lia.
Qed.

Lemma set_requests heap m s m' : left_over (m_set heap m s) = Some m' ->
  exists t l, asked m' = asked m ++ t ++ l /\ (t = [] \/ t = [Text (length s)]) /\ (length s <= tcap m -> t = []) /\
    Forall for_segments l /\
    ((length s <= tcap m \/ heap (length (asked m)) <> None) ->
     (l = [] <-> forall segs, passes s segs -> length segs <= scap m)).
Proof.
  intros H. destruct (set_mem heap m s path_default) as [(Sh & E & _)|[(_ & L & X & E)|(_ & m1 & t & l & E1 & _ & T & A & B & F)]].
  - rewrite E in H. injection H as <-. exists [], []. cbn. rewrite app_nil_r. split; [reflexivity|]. split; [now left|]. split; [reflexivity|]. split; [constructor|].
    intros _. split; [|reflexivity]. intros _ segs W. rewrite (short_way s segs Sh W). cbn. lia.
  - rewrite E in H. injection H as <-. exists [Text (length s)], []. cbn. split; [reflexivity|]. split; [now right|]. split; [lia|]. split; [constructor|].
    intros [Y|Y]; [lia|congruence].
  - assert (A1 : asked m1 = asked m ++ t) by (rewrite E1; reflexivity). exists t, l.
    assert (E : asked m' = asked m1 ++ l).
    { destruct F as [(m2 & E2 & _ & Q & _)|[(m2 & E2 & _ & Q & _)|(m2 & ? & ? & ? & E2 & Q & _)]]; rewrite E2 in H; injection H as <-; exact Q. }
    rewrite E, A1, app_assoc. split; [reflexivity|].
    split; [destruct T as [(_ & -> & _)|(_ & -> & _)]; auto|]. split; [destruct T as [(_ & -> & _)|(L & _ & _)]; [reflexivity|lia]|]. split; [exact A|]. intros _. exact B.
Qed.

Lemma set_quiet heap m s p : length s <= tcap m -> (forall segs, passes s segs -> length segs <= scap m) ->
  exists m', asked m' = asked m /\ tcap m' = tcap m /\
    ((m_set heap m s = MOk m' /\ path_set p s = POk (path_of m')) \/ (m_set heap m s = MThrow m' /\ path_set p s = PThrow (path_of m'))).
Proof.
  intros L P. destruct (set_mem heap m s p) as [(Sh & E & E')|[(_ & L' & _)|(_ & m1 & t & l & E1 & _ & T & A & B & F)]]; [|lia|].
  - eexists. split; [|split; [|left; split; [exact E|exact E']]]; reflexivity.
  - destruct T as [(_ & -> & T1)|(L' & _)]; [|lia]. apply B in P. subst l.
    assert (A1 : asked m1 = asked m) by (rewrite E1; cbn; apply app_nil_r).
    destruct F as [(m' & -> & -> & Q & _ & _ & T' & _)|[(m' & -> & -> & Q & _ & _ & T' & _)|(m' & ? & ? & ? & _ & _ & _ & _ & _ & _ & _ & _ & N & _)]]; [| |congruence].
    + exists m'. rewrite app_nil_r in Q. split; [congruence|]. split; [congruence|]. auto.
    + exists m'. rewrite app_nil_r in Q. split; [congruence|]. split; [congruence|]. auto.
Qed.

Lemma apply_piece_length segs piece segs' : apply_piece segs piece = Some segs' -> length segs' <= S (length segs).
Proof.
  unfold apply_piece. destruct (list_eq_dec N.eq_dec piece []); [intros E; injection E as <-; lia|].
  destruct (list_eq_dec N.eq_dec piece dot); [intros E; injection E as <-; lia|].
  destruct (list_eq_dec N.eq_dec piece dotdot); [intros E; injection E as <-; pose proof (removelast_le segs); lia|].
  destruct (unescape piece); [|discriminate]. cbn. intros E; injection E as <-. rewrite app_length. cbn. lia.
Qed.
Lemma apply_pieces_length ps : forall segs segs', apply_pieces segs ps = Some segs' -> length segs' <= length segs + length ps.
Proof.
  induction ps as [|a ps IH]; intros segs segs' E; cbn in *; [injection E as <-; lia|].
  destruct (apply_piece segs a) as [s1|] eqn:E1; [|discriminate]. apply IH in E. apply apply_piece_length in E1. lia.
Qed.
Lemma passes_length s segs : passes s segs -> length segs <= length (pieces s).
Proof. intros (a & b & -> & H). apply apply_pieces_length in H. rewrite app_length. cbn in H. lia. Qed.

Lemma shows_rep p segs junk : rep p segs junk -> shows p segs.
Proof.
  intros R. split; [exact (rep_length _ _ _ R)|]. split.
  - intros i seg Hi. unfold path_at. erewrite segment_at_spec by eassumption. cbn. now rewrite Hi.
  - intros k. erewrite joined_spec by eassumption. eauto.
Qed.

Lemma set_failure heap m s m' : m_set heap m s = MNoMem m' ->
  exists segs, passes s segs /\ shows (path_of m') segs /\ within m' /\ scap m <= scap m' /\ tcap m <= tcap m'.
Proof.
  intros H. destruct (set_mem heap m s path_default) as [(_ & E & _)|[(_ & _ & _ & E)|(_ & m1 & t & l & E1 & L1 & T & A & B & F)]]; [congruence| |].
  - rewrite E in H. injection H as <-. exists []. split; [apply passes_way, way_start|]. split; [exact (shows_rep _ _ _ rep_empty)|].
    unfold within. cbn. repeat split; auto; lia.
  - destruct F as [(m2 & E & _)|[(m2 & E & _)|(m2 & q & d & junk & E & _ & W1 & W2 & R & W & S & T2 & _ & _)]]; try congruence.
    rewrite E in H. injection H as <-. exists q. split; [apply passes_way, way_body; exact W1|]. split; [exact (shows_rep _ _ _ R)|].
    assert (S1 : scap m1 = scap m) by (rewrite E1; reflexivity).
    split; [exact W|]. split; [lia|]. destruct T as [(_ & _ & X)|(X & _ & _)]; lia.
Qed.

Lemma set_again heap m s p : (forall k, heap k <> None) ->
  exists m', (m_set heap m s = MOk m' /\ path_set p s = POk (path_of m')) \/ (m_set heap m s = MThrow m' /\ path_set p s = PThrow (path_of m')).
Proof.
  intros H. pose proof (set_refines heap m s p) as R. destruct (m_set heap m s) as [m'|m'|m'|]; [eauto|eauto| |contradiction].
  destruct R as (k & _ & X). destruct (H k X).
Qed.
