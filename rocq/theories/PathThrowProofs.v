(** The path after a failed [set]. *)
From Coq Require Import List NArith Arith Bool Lia.
From Verif Require Import Base PathModel PathSpec PathProofs.
Import ListNotations.

(** What the failing piece leaves behind. *)
Definition junk_of (segs : list text) (piece : text) : text :=
  match segs with [] => unescaped_part piece | _ => slash :: unescaped_part piece end.

Lemma push_throw p segs piece : rep p segs [] -> unescape piece = None ->
  exists p', push_decoded_segment p piece = PThrow p' /\ rep p' segs (junk_of segs piece).
Proof.
  intros (Hv & Hs & Hok) E. rewrite app_nil_r in Hv. unfold push_decoded_segment. rewrite decode_loop_full, E.
  eexists. split; [reflexivity|]. split; [|split]; cbn [value_ segments_]; auto. unfold junk_of. rewrite Hv.
  destruct segs as [|s r]; [reflexivity|]. destruct (join (s :: r)) as [|c t] eqn:Ej.
  - apply join_nil in Ej; [discriminate|assumption].
  - now rewrite <- app_assoc.
Qed.

Lemma step_throw p segs piece : rep p segs [] -> apply_piece segs piece = None ->
  unescape piece = None /\
  exists p', (if negb (Nat.eqb (length piece) 0) then
       if str_eqb piece [ch_dot] then POk p
       else if str_eqb piece [ch_dot; ch_dot] then POk (pop_segment p)
       else push_decoded_segment p piece
     else POk p) = PThrow p' /\ rep p' segs (junk_of segs piece).
Proof.
  intros Hr. unfold apply_piece, str_eqb. change [ch_dot; ch_dot] with dotdot. change [ch_dot] with dot.
  destruct (list_eq_dec N.eq_dec piece []) as [|Hne]; [discriminate|].
  destruct (list_eq_dec N.eq_dec piece dot); [discriminate|].
  destruct (list_eq_dec N.eq_dec piece dotdot); [discriminate|].
  destruct (unescape piece) eqn:E; [discriminate|]. intros _. split; [reflexivity|].
  destruct (Nat.eqb_spec (length piece) 0); [destruct piece; [congruence|discriminate]|]. cbn [negb].
  exact (push_throw p segs piece Hr E).
Qed.

Lemma set_loop_throw : forall fuel value p segs,
  length value < fuel -> rep p segs [] -> apply_pieces segs (pieces value) = None ->
  exists p' ps piece ps' segs', set_loop fuel value p = PThrow p' /\
    pieces value = ps ++ piece :: ps' /\ apply_pieces segs ps = Some segs' /\ unescape piece = None /\
    rep p' segs' (junk_of segs' piece).
Proof.
  induction fuel as [|fuel IH]; intros value p segs Hf Hr HN; [lia|]. cbn [set_loop].
  destruct (find_slash value) as [n|] eqn:E.
  - destruct (pieces_some _ _ E) as [Ep Hn].
    assert (Hns : ~ In slash (firstn n value)).
    { pose proof (pieces_no_slash value) as HF. rewrite Ep in HF. now inversion HF. }
    rewrite Ep in HN |- *. cbn [apply_pieces] in HN.
    destruct (apply_piece segs (firstn n value)) as [segs'|] eqn:Ea.
    + pose proof (step_ok p segs (firstn n value) Hr Hns) as HS. unfold step_spec in HS. rewrite Ea in HS.
      destruct HS as (p' & -> & Hr').
      assert (Hl : length (skipn (n + 1) value) < fuel) by (rewrite skipn_length; lia).
      destruct (IH _ _ _ Hl Hr' HN) as (p2 & ps & piece & ps' & segs2 & -> & -> & H1 & H2 & H3).
      exists p2, (firstn n value :: ps), piece, ps', segs2. split; [reflexivity|]. split; [reflexivity|].
      split; [cbn [apply_pieces]; rewrite Ea; exact H1|]. split; assumption.
    + destruct (step_throw p segs _ Hr Ea) as (Hu & p' & -> & Hr').
      exists p', [], (firstn n value), (pieces (skipn (n + 1) value)), segs. repeat split; try assumption; apply Hr'.
  - rewrite (pieces_none _ E) in HN |- *. cbn [apply_pieces] in HN. rewrite firstn_all.
    destruct (apply_piece segs value) as [segs'|] eqn:Ea; [discriminate|].
    destruct (step_throw p segs _ Hr Ea) as (Hu & p' & -> & Hr').
    exists p', [], value, [], segs. repeat split; try assumption; apply Hr'.
Qed.

Lemma path_set_throw p s : path_meaning s = None ->
  exists p' ps piece ps' segs', path_set p s = PThrow p' /\
    pieces s = ps ++ piece :: ps' /\ apply_pieces [] ps = Some segs' /\ unescape piece = None /\
    rep p' segs' (junk_of segs' piece).
Proof.
  unfold path_meaning, path_set, str_eqb. change (clear p) with (mkpath [] []).
  destruct s as [|c t]; cbn [length Nat.eqb orb]; [discriminate|].
  destruct (list_eq_dec N.eq_dec (c :: t) [ch_slash]) as [E|E]; [rewrite E; discriminate|].
  destruct (N.eqb_spec c ch_slash) as [->|Hc].
  - cbn [pieces]. change (ch_slash =? slash)%N with true. cbv iota. cbn [apply_pieces].
    change (apply_piece [] []) with (Some (@nil text)). cbv iota. intros HN.
    destruct (set_loop_throw (S (length t)) t _ _ ltac:(lia) rep_empty HN) as (p2 & ps & piece & ps' & segs2 & -> & -> & H1 & H2 & H3).
    exists p2, ([] :: ps), piece, ps', segs2. split; [reflexivity|]. split; [reflexivity|]. split; [exact H1|]. split; assumption.
  - intros HN. exact (set_loop_throw (S (length (c :: t))) (c :: t) _ _ ltac:(lia) rep_empty HN).
Qed.

(** The decoded part is what the text before the first bad escape means. *)
Lemma part_spec n : forall s, length s <= n -> unescape s = None ->
  exists a rest, s = a ++ percent :: rest /\ unescape a = Some (unescaped_part s) /\ bad_escape rest.
Proof.
  induction n as [|n IH]; intros s Hn; [destruct s; [discriminate|cbn in Hn; lia]|].
  destruct s as [|c t]; [discriminate|]. cbn [length] in Hn. cbn [unescape unescaped_part].
  destruct (N.eqb_spec c percent) as [->|Hc].
  - destruct t as [|h [|l t]].
    + intros _. exists [], []. split; [reflexivity|]. split; [reflexivity|]. intros (h & l & t & x & y & F & _). discriminate.
    + intros _. exists [], [h]. split; [reflexivity|]. split; [reflexivity|]. intros (h' & l & t & x & y & F & _). discriminate.
    + destruct (hex_value h) as [x|] eqn:Eh; [destruct (hex_value l) as [y|] eqn:El|].
      * destruct (N.eqb_spec (16 * x + y) slash) as [Es|Es].
        -- intros _. exists [], (h :: l :: t). split; [reflexivity|]. split; [reflexivity|].
           intros (h' & l' & t' & x' & y' & F & F1 & F2 & F3). injection F as <- <- <-. congruence.
        -- destruct (unescape t) eqn:Eu; [discriminate|]. intros _. cbn [length] in Hn.
           destruct (IH t ltac:(lia) Eu) as (a & rest & E1 & E2 & E3).
           exists (percent :: h :: l :: a), rest. split; [rewrite E1; reflexivity|]. split; [|exact E3].
           cbn [unescape]. rewrite N.eqb_refl, Eh, El. destruct (N.eqb_spec (16 * x + y) slash); [contradiction|].
           rewrite E2. reflexivity.
      * intros _. exists [], (h :: l :: t). split; [reflexivity|]. split; [reflexivity|].
        intros (h' & l' & t' & x' & y' & F & F1 & F2 & F3). injection F as <- <- <-. congruence.
      * intros _. exists [], (h :: l :: t). split; [reflexivity|]. split; [reflexivity|].
        intros (h' & l' & t' & x' & y' & F & F1 & F2 & F3). injection F as <- <- <-. congruence.
  - destruct (unescape t) eqn:Eu; [discriminate|]. intros _. destruct (IH t ltac:(lia) Eu) as (a & rest & E1 & E2 & E3).
    exists (c :: a), rest. split; [rewrite E1; reflexivity|]. split; [|exact E3].
    cbn [unescape]. destruct (N.eqb_spec c percent); [contradiction|]. rewrite E2. reflexivity.
Qed.

Lemma join_last_part segs d : segs <> [] -> join segs ++ slash :: d = join (segs ++ [d]).
Proof. intros H. rewrite join_snoc. destruct segs; [congruence|reflexivity]. Qed.

Lemma path_throw_exactly q s : path_meaning s = None ->
  exists p ps piece ps' segs before rest d, path_set q s = PThrow p /\
    pieces s = ps ++ piece :: ps' /\ apply_pieces [] ps = Some segs /\
    piece = before ++ percent :: rest /\ unescape before = Some d /\ bad_escape rest /\
    path_size p = length segs /\
    (forall i seg, nth_error segs i = Some seg -> path_at p i = Ok seg) /\
    (forall k, k < length segs -> joined p k = Ok (join (skipn k segs ++ [d]))) /\
    (forall k, length segs <= k -> joined p k = Ok []).
Proof.
  intros HN. destruct (path_set_throw q s HN) as (p & ps & piece & ps' & segs & E & E1 & E2 & Hu & Hr).
  destruct (part_spec (length piece) piece (Nat.le_refl _) Hu) as (before & rest & F1 & F2 & F3).
  exists p, ps, piece, ps', segs, before, rest, (unescaped_part piece).
  split; [exact E|]. split; [exact E1|]. split; [exact E2|]. split; [exact F1|]. split; [exact F2|]. split; [exact F3|].
  split. { unfold path_size. destruct Hr as (_ & -> & _). apply length_offs. }
  split. { intros i seg Hi. unfold path_at. erewrite segment_at_spec by eassumption. cbn. now rewrite Hi. }
  split; intros k Hk; rewrite (joined_spec _ _ _ _ Hr).
  - replace (k <? length segs) with true by (symmetry; apply Nat.ltb_lt; lia). f_equal.
    rewrite <- join_last_part. 2: { intros E0. apply (f_equal (@length _)) in E0. rewrite skipn_length in E0. cbn in E0. lia. }
    unfold junk_of. destruct segs; [cbn in Hk; lia|reflexivity].
  - replace (k <? length segs) with false by (symmetry; apply Nat.ltb_ge; lia). reflexivity.
Qed.
