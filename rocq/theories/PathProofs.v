(** Proofs about the path model. *)
From Coq Require Import List NArith Lia Bool Arith.
From Verif Require Import Base Sweep PathModel PathSpec.
Import ListNotations.
Local Open Scope outcome_scope.

Fixpoint offs (base : nat) (segs : list text) : list path_segment :=
  match segs with
  | [] => []
  | s :: r => mkseg base (length s) :: offs (base + length s + 1) r
  end.

Fixpoint total (segs : list text) : nat :=
  match segs with [] => 0 | s :: r => length s + 1 + total r end.

Lemma length_offs b segs : length (offs b segs) = length segs.
Proof. revert b; induction segs; cbn; auto. Qed.

Lemma offs_app b s1 s2 : offs b (s1 ++ s2) = offs b s1 ++ offs (b + total s1) s2.
Proof.
  revert b; induction s1 as [|s r IH]; intros b; cbn.
  - now rewrite Nat.add_0_r.
  - rewrite IH. do 3 f_equal. lia.
Qed.

Lemma total_app s1 s2 : total (s1 ++ s2) = total s1 + total s2.
Proof. induction s1; cbn; lia. Qed.

Lemma join_cons s r : r <> [] -> join (s :: r) = s ++ slash :: join r.
Proof. destruct r; [congruence|reflexivity]. Qed.

Lemma join_snoc segs d :
  join (segs ++ [d]) = match segs with [] => d | _ => join segs ++ slash :: d end.
Proof.
  induction segs as [|s r IH]; [reflexivity|].
  destruct r as [|s' r'].
  - reflexivity.
  - change ((s :: s' :: r') ++ [d]) with (s :: ((s' :: r') ++ [d])).
    rewrite join_cons by (destruct r'; discriminate). rewrite IH.
    rewrite (join_cons s) by discriminate. rewrite <- app_assoc. reflexivity.
Qed.

Lemma join_app s1 s2 : s1 <> [] -> s2 <> [] ->
  join (s1 ++ s2) = join s1 ++ slash :: join s2.
Proof.
  intros H1 H2. induction s1 as [|s r IH]; [congruence|].
  destruct r as [|s' r'].
  - cbn [app]. now rewrite join_cons.
  - cbn [app] in *. rewrite (join_cons s) by discriminate. rewrite IH by discriminate.
    rewrite (join_cons s) by discriminate. rewrite <- app_assoc. reflexivity.
Qed.

Lemma total_join segs : segs <> [] -> length (join segs) + 1 = total segs.
Proof.
  induction segs as [|s r IH]; [congruence|]. intros _. destruct r as [|s' r'].
  - cbn. lia.
  - rewrite join_cons by discriminate. rewrite app_length. cbn [length total] in *.
    rewrite <- IH by discriminate. cbn [length]. lia.
Qed.

Lemma join_nil segs : Forall segment_ok segs -> join segs = [] -> segs = [].
Proof.
  intros H E. destruct segs as [|s r]; [reflexivity|]. exfalso.
  inversion_clear H as [|? ? [Hs _] _]. destruct r; cbn in E; [congruence|].
  destruct s; [congruence|discriminate].
Qed.

(** Representation invariant: [junk] is the text of an abandoned piece. *)
Definition rep (p : path) (segs : list text) (junk : text) : Prop :=
  value_ p = join segs ++ junk /\ segments_ p = offs 0 segs /\ Forall segment_ok segs.

(* ---------- unescape ---------- *)

Lemma from_xdigit_hex c : from_xdigit c = hex_value c.
Proof.
  unfold from_xdigit, hex_value.
  destruct ((48 <=? c)%N && (c <=? 57)%N) eqn:E1; [reflexivity|].
  destruct ((65 <=? c)%N && (c <=? 70)%N) eqn:E2.
  - apply andb_true_iff in E2. rewrite !N.leb_le in E2. f_equal. lia.
  - destruct ((97 <=? c)%N && (c <=? 102)%N) eqn:E3; [|reflexivity].
    apply andb_true_iff in E3. rewrite !N.leb_le in E3. f_equal. lia.
Qed.

Lemma hex_lt c v : hex_value c = Some v -> (v < 16)%N.
Proof.
  unfold hex_value. intros H.
  destruct ((48 <=? c)%N && (c <=? 57)%N) eqn:E1;
    [|destruct ((65 <=? c)%N && (c <=? 70)%N) eqn:E2;
      [|destruct ((97 <=? c)%N && (c <=? 102)%N) eqn:E3; [|discriminate]]];
  injection H as <-;
  match goal with E : _ = true |- _ => apply andb_true_iff in E; rewrite !N.leb_le in E end; lia.
Qed.

Lemma lor_shift hi lo : (hi < 16)%N -> (lo < 16)%N ->
  N.lor (N.shiftl hi 4) lo = (16 * hi + lo)%N.
Proof.
  intros H1 H2. apply N.eqb_eq. revert hi lo H1 H2. apply (sweep2 16 16).
  vm_compute. reflexivity.
Qed.

(** What has been decoded when the first bad escape is met. *)
Fixpoint unescaped_part (s : text) : text :=
  match s with
  | [] => []
  | c :: t =>
      if N.eqb c percent then
        match t with
        | h :: l :: t' =>
            match hex_value h, hex_value l with
            | Some a, Some b =>
                if N.eqb (16 * a + b) slash then []
                else (16 * a + b)%N :: unescaped_part t'
            | _, _ => []
            end
        | _ => []
        end
      else c :: unescaped_part t
  end.

Lemma rd_skipn {A} (l : list A) i : rd l i = match skipn i l with x :: _ => Ok x | [] => UB end.
Proof.
  unfold rd. revert i; induction l as [|x l IH]; intros [|i]; cbn; try apply IH; reflexivity.
Qed.

Lemma skipn_plus {A} (l : list A) i k : skipn (i + k) l = skipn k (skipn i l).
Proof. revert l; induction i; intros l; cbn; [reflexivity|]. destruct l; [now rewrite skipn_nil|apply IHi]. Qed.

Lemma decode_loop_spec segment : forall fuel i value,
  i <= length segment -> length segment - i < fuel ->
  decode_loop fuel segment i value
  = match unescape (skipn i segment) with
    | Some d => LOk (value ++ d)
    | None => LThrow (value ++ unescaped_part (skipn i segment))
    end.
Proof.
  induction fuel as [|fuel IH]; intros i value Hi Hf; [lia|].
  cbn [decode_loop].
  destruct (Nat.ltb_spec i (length segment)) as [Hlt|Hge].
  2: { rewrite skipn_all2 by lia. cbn. now rewrite app_nil_r. }
  rewrite (rd_skipn _ (i + 1)), (rd_skipn _ (i + 2)), (rd_skipn _ i).
  rewrite (skipn_plus _ i 1), (skipn_plus _ i 2).
  assert (Hlen : length (skipn i segment) = length segment - i) by apply skipn_length.
  destruct (skipn i segment) as [|c t] eqn:E; [cbn in Hlen; lia|].
  cbn [skipn] in *. cbn [length] in Hlen.
  destruct (N.eqb_spec c ch_percent) as [Hc|Hc]; cbn [negb].
  - subst c. cbn [unescape unescaped_part]. change (ch_percent =? percent)%N with true. cbv iota.
    destruct (Nat.leb_spec (length segment) (i + 2)) as [Hle|Hgt].
    + destruct t as [|h [|l t']]; cbn [length] in Hlen; try lia; rewrite app_nil_r; reflexivity.
    + destruct t as [|h [|l t']]; cbn [length] in Hlen; try lia.
      cbn [skipn]. rewrite !from_xdigit_hex.
      destruct (hex_value h) as [a|] eqn:Ea; [|now rewrite app_nil_r].
      destruct (hex_value l) as [b|] eqn:Eb; [|now rewrite app_nil_r].
      rewrite lor_shift by eauto using hex_lt.
      change ch_slash with slash.
      destruct (16 * a + b =? slash)%N; [now rewrite app_nil_r|].
      rewrite IH by lia. rewrite (skipn_plus _ i 3), E. cbn [skipn].
      destruct (unescape t'); cbn; rewrite <- app_assoc; reflexivity.
  - cbn [unescape unescaped_part]. change percent with ch_percent.
    destruct (N.eqb_spec c ch_percent) as [?|_]; [congruence|].
    rewrite IH by lia. rewrite (skipn_plus _ i 1), E. cbn [skipn].
    destruct (unescape t); cbn; rewrite <- app_assoc; reflexivity.
Qed.

Lemma decode_loop_full segment value :
  decode_loop (S (length segment)) segment 0 value
  = match unescape segment with
    | Some d => LOk (value ++ d)
    | None => LThrow (value ++ unescaped_part segment)
    end.
Proof. rewrite decode_loop_spec by lia. reflexivity. Qed.

Lemma unescape_ok : forall n s d, length s <= n -> ~ In slash s -> unescape s = Some d ->
  ~ In slash d /\ (s <> [] -> d <> []).
Proof.
  induction n as [|n IH]; intros s d Hn Hin H.
  - destruct s; [|cbn in Hn; lia]. cbn in H. injection H as <-. auto.
  - destruct s as [|c t]; [cbn in H; injection H as <-; auto|]. cbn [unescape] in H.
    destruct (N.eqb_spec c percent) as [->|Hc].
    + destruct t as [|h [|l t']]; try discriminate.
      destruct (hex_value h) as [a|]; [|discriminate].
      destruct (hex_value l) as [b|]; [|discriminate].
      destruct (N.eqb_spec (16 * a + b) slash) as [|Hne]; [discriminate|].
      destruct (unescape t') as [d'|] eqn:E; [|discriminate]. injection H as <-.
      destruct (IH t' d') as [H1 _]; auto.
      * cbn in Hn. lia.
      * intros Hx. apply Hin. cbn. auto.
      * split; [|congruence]. intros [Hx|Hx]; [|auto]. now apply Hne.
    + destruct (unescape t) as [d'|] eqn:E; [|discriminate]. injection H as <-.
      destruct (IH t d') as [H1 _]; auto.
      * cbn in Hn. lia.
      * intros Hx. apply Hin. cbn. auto.
      * split; [|congruence]. intros [Hx|Hx]; [|auto]. subst. apply Hin. cbn. auto.
Qed.

(* ---------- push and pop ---------- *)

Lemma push_spec p segs piece : rep p segs [] -> piece <> [] -> ~ In slash piece ->
  match unescape piece with
  | Some d => exists p', push_decoded_segment p piece = POk p' /\ rep p' (segs ++ [d]) []
  | None => exists p' junk, push_decoded_segment p piece = PThrow p' /\ rep p' segs junk
  end.
Proof.
  intros (Hv & Hs & Hok) Hne Hns. rewrite app_nil_r in Hv.
  unfold push_decoded_segment. rewrite decode_loop_full.
  destruct (unescape piece) as [d|] eqn:E.
  - eexists. split; [reflexivity|].
    destruct (unescape_ok (length piece) piece d) as [Hd1 Hd2]; auto.
    assert (Hok' : Forall segment_ok (segs ++ [d])).
    { apply Forall_app. split; [assumption|]. constructor; [|constructor]. split; auto. }
    assert (Hval : (match value_ p with [] => value_ p | _ => value_ p ++ [ch_slash] end) ++ d
                   = join (segs ++ [d])).
    { rewrite join_snoc, Hv. destruct segs as [|s r]; [reflexivity|].
      destruct (join (s :: r)) as [|c t] eqn:Ej.
      - apply join_nil in Ej; [discriminate|assumption].
      - now rewrite <- app_assoc. }
    assert (Hoff : length (match value_ p with [] => value_ p | _ => value_ p ++ [ch_slash] end)
                   = total segs).
    { rewrite Hv. destruct segs as [|s r]; [reflexivity|].
      destruct (join (s :: r)) as [|c t] eqn:Ej.
      - apply join_nil in Ej; [discriminate|assumption].
      - rewrite <- Ej, app_length. rewrite <- total_join by discriminate. cbn. lia. }
    set (V := match value_ p with [] => value_ p | _ => value_ p ++ [ch_slash] end) in *.
    split; [|split]; cbn [value_ segments_].
    + now rewrite app_nil_r.
    + change (length V = total segs) in Hoff. rewrite offs_app, Hs. cbn [offs]. rewrite app_length, !Hoff.
      f_equal. cbn [plus]. f_equal. f_equal. lia.
    + assumption.
  - destruct (value_ p) as [|c0 t0] eqn:Ev.
    + eexists _, (unescaped_part piece). split; [reflexivity|].
      split; [|split]; cbn [value_ segments_]; auto. now rewrite <- Hv.
    + eexists _, ([ch_slash] ++ unescaped_part piece). split; [reflexivity|].
      split; [|split]; cbn [value_ segments_]; auto. now rewrite <- Hv, <- app_assoc.
Qed.

Lemma pop_spec p segs : rep p segs [] -> rep (pop_segment p) (removelast segs) [].
Proof.
  intros (Hv & Hs & Hok). rewrite app_nil_r in Hv. unfold pop_segment.
  destruct segs as [|s0 r0] using rev_ind.
  - rewrite Hs. cbn. split; [now rewrite Hv|]. auto.
  - clear IHr0. rewrite removelast_last. rewrite Hs, offs_app, rev_app_distr. cbn [offs rev app].
    cbn [seg_offset]. rewrite rev_involutive. cbn [plus].
    apply Forall_app in Hok. destruct Hok as [Hok _].
    split; [|split]; cbn [value_ segments_]; auto.
    rewrite app_nil_r, Hv, join_snoc.
    destruct r0 as [|s r]; [cbn; now destruct s0|].
    rewrite <- total_join by discriminate.
    replace (length (join (s :: r)) + 1 =? 0) with false by (symmetry; apply Nat.eqb_neq; lia).
    replace (length (join (s :: r)) + 1 - 1) with (length (join (s :: r))) by lia.
    rewrite firstn_app, firstn_all, Nat.sub_diag. cbn [firstn]. now rewrite app_nil_r.
Qed.

(* ---------- the set loop ---------- *)

Lemma pieces_none s : find_slash s = None -> pieces s = [s].
Proof.
  induction s as [|c t IH]; cbn; [reflexivity|]. change slash with ch_slash.
  destruct (c =? ch_slash)%N; [discriminate|].
  destruct (find_slash t); [discriminate|]. intros _. now rewrite IH.
Qed.

Lemma pieces_some s n : find_slash s = Some n ->
  pieces s = firstn n s :: pieces (skipn (n + 1) s) /\ n < length s.
Proof.
  revert n; induction s as [|c t IH]; cbn; intros n H; [discriminate|]. change slash with ch_slash.
  destruct (c =? ch_slash)%N eqn:E.
  - injection H as <-. cbn. split; [reflexivity|lia].
  - destruct (find_slash t) as [m|]; [|discriminate]. injection H as <-.
    destruct (IH m eq_refl) as [-> Hm]. split; [reflexivity|lia].
Qed.

Lemma pieces_no_slash s : Forall (fun p => ~ In slash p) (pieces s).
Proof.
  induction s as [|c t IH]; cbn; [repeat constructor; auto|].
  destruct (N.eqb_spec c slash) as [->|Hc].
  - constructor; [cbn; auto|assumption].
  - destruct (pieces t) as [|p ps]; [repeat constructor; cbn; intros [H|[]]; auto|].
    inversion_clear IH. constructor; [|assumption]. cbn. intros [Hx|Hx]; [congruence|auto].
Qed.

(** Segments collected before the first failing piece. *)
Fixpoint apply_until (segs : list text) (ps : list text) : list text :=
  match ps with
  | [] => segs
  | p :: ps' =>
      match apply_piece segs p with
      | Some segs' => apply_until segs' ps'
      | None => segs
      end
  end.

Definition step_spec (p : path) (segs : list text) (piece : text) (r : presult) : Prop :=
  match apply_piece segs piece with
  | Some segs' => exists p', r = POk p' /\ rep p' segs' []
  | None => exists p' junk, r = PThrow p' /\ rep p' segs junk
  end.

Lemma step_ok p segs piece : rep p segs [] -> ~ In slash piece ->
  step_spec p segs piece
    (if negb (Nat.eqb (length piece) 0) then
       if str_eqb piece [ch_dot] then POk p
       else if str_eqb piece [ch_dot; ch_dot] then POk (pop_segment p)
       else push_decoded_segment p piece
     else POk p).
Proof.
  intros Hr Hns. unfold step_spec, apply_piece, str_eqb.
  change [ch_dot; ch_dot] with dotdot. change [ch_dot] with dot.
  destruct (Nat.eqb_spec (length piece) 0) as [E|E]; cbn [negb].
  - destruct piece; [|discriminate].
    destruct (list_eq_dec N.eq_dec [] []); [|congruence]. eauto.
  - destruct (list_eq_dec N.eq_dec piece []) as [->|Hne]; [now destruct E|].
    destruct (list_eq_dec N.eq_dec piece dot); [eauto|].
    destruct (list_eq_dec N.eq_dec piece dotdot).
    + eexists. split; [reflexivity|]. now apply pop_spec.
    + pose proof (push_spec p segs piece Hr Hne Hns) as HP.
      destruct (unescape piece); exact HP.
Qed.

Lemma set_loop_spec : forall fuel value p segs,
  length value < fuel -> rep p segs [] ->
  match apply_pieces segs (pieces value) with
  | Some segs' => exists p', set_loop fuel value p = POk p' /\ rep p' segs' []
  | None => exists p' junk, set_loop fuel value p = PThrow p'
                            /\ rep p' (apply_until segs (pieces value)) junk
  end.
Proof.
  induction fuel as [|fuel IH]; intros value p segs Hf Hr; [lia|].
  cbn [set_loop].
  destruct (find_slash value) as [n|] eqn:E.
  - destruct (pieces_some _ _ E) as [Ep Hn].
    assert (Hns : ~ In slash (firstn n value)).
    { pose proof (pieces_no_slash value) as HF. rewrite Ep in HF. now inversion HF. }
    pose proof (step_ok p segs (firstn n value) Hr Hns) as HS. unfold step_spec in HS.
    rewrite Ep. cbn [apply_pieces apply_until].
    destruct (apply_piece segs (firstn n value)) as [segs'|] eqn:Ea.
    + destruct HS as (p' & -> & Hr').
      apply IH; [|assumption]. rewrite skipn_length. lia.
    + destruct HS as (p' & junk & -> & Hr'). eauto.
  - rewrite (pieces_none _ E). cbn [apply_pieces apply_until].
    rewrite firstn_all.
    assert (Hns : ~ In slash value).
    { pose proof (pieces_no_slash value) as HF. rewrite (pieces_none _ E) in HF. now inversion HF. }
    pose proof (step_ok p segs value Hr Hns) as HS. unfold step_spec in HS.
    destruct (apply_piece segs value) as [segs'|] eqn:Ea.
    + destruct HS as (p' & -> & Hr'). eauto.
    + destruct HS as (p' & junk & -> & Hr'). eauto.
Qed.

Lemma rep_empty : rep (mkpath [] []) [] [].
Proof. repeat split; constructor. Qed.

Lemma path_set_spec p s :
  match path_meaning s with
  | Some segs => exists p', path_set p s = POk p' /\ rep p' segs []
  | None => exists p' junk, path_set p s = PThrow p' /\ rep p' (apply_until [] (pieces s)) junk
  end.
Proof.
  unfold path_meaning, path_set, str_eqb. change (clear p) with (mkpath [] []).
  destruct s as [|c t]; cbn [length Nat.eqb orb].
  { cbn. eexists. split; [reflexivity|apply rep_empty]. }
  destruct (list_eq_dec N.eq_dec (c :: t) [ch_slash]) as [E|E].
  { rewrite E. cbn. eexists. split; [reflexivity|apply rep_empty]. }
  destruct (N.eqb_spec c ch_slash) as [->|Hc].
  - cbn [pieces]. change (ch_slash =? slash)%N with true. cbv iota.
    cbn [apply_pieces apply_until].
    change (apply_piece [] []) with (Some (@nil text)). cbv iota.
    apply set_loop_spec; [lia|apply rep_empty].
  - apply set_loop_spec; [cbn; lia|apply rep_empty].
Qed.

(* ---------- accessors ---------- *)

Lemma rd_offs b segs i :
  rd (offs b segs) i
  = match nth_error segs i with
    | Some s => Ok (mkseg (b + total (firstn i segs)) (length s))
    | None => UB
    end.
Proof.
  unfold rd. revert b i; induction segs as [|s r IH]; intros b [|i]; cbn; auto.
  - now rewrite Nat.add_0_r.
  - specialize (IH (b + length s + 1) i).
    destruct (nth_error (offs (b + length s + 1) r) i), (nth_error r i); try discriminate IH.
    + injection IH as ->. do 2 f_equal. lia.
    + reflexivity.
Qed.

Lemma skipn_join segs junk : forall i s, nth_error segs i = Some s ->
  skipn (total (firstn i segs)) (join segs ++ junk) = join (skipn i segs) ++ junk
  /\ total (firstn i segs) <= length (join segs).
Proof.
  intros i s H.
  destruct (nth_error_split _ _ H) as (l1 & l2 & -> & Hl).
  subst i. rewrite firstn_app, firstn_all, Nat.sub_diag. cbn [firstn]. rewrite app_nil_r.
  rewrite (skipn_app (length l1) l1), skipn_all, Nat.sub_diag. cbn [skipn app].
  destruct l1 as [|x l1].
  - cbn. split; [reflexivity|lia].
  - rewrite join_app by discriminate.
    rewrite <- total_join by discriminate. rewrite app_length. cbn [length]. split; [|lia].
    rewrite <- app_assoc. rewrite (Nat.add_comm _ 1).
    replace (1 + length (join (x :: l1))) with (length (join (x :: l1)) + 1) by lia.
    rewrite skipn_plus, skipn_app, skipn_all, Nat.sub_diag. reflexivity.
Qed.

Lemma firstn_join_cons s r : firstn (length s) (join (s :: r)) = s.
Proof.
  destruct r as [|s' r]; [cbn; apply firstn_all|].
  rewrite join_cons by discriminate. rewrite firstn_app, firstn_all, Nat.sub_diag.
  cbn. apply app_nil_r.
Qed.

Lemma length_join_ge s r : length s <= length (join (s :: r)).
Proof. destruct r; [cbn; lia|]. rewrite join_cons by discriminate. rewrite app_length. lia. Qed.

Lemma segment_at_spec p segs junk base i : rep p segs junk ->
  path_segment_at (value_ p) (segments_ p) base i
  = match nth_error segs (base + i) with Some s => Ok s | None => UB end.
Proof.
  intros (Hv & Hs & Hok). unfold path_segment_at. rewrite Hs, rd_offs.
  destruct (nth_error segs (base + i)) as [s|] eqn:E; [|reflexivity].
  cbn [obind seg_offset seg_length plus]. unfold substr. rewrite Hv.
  destruct (skipn_join segs junk _ _ E) as [Hk Hle].
  replace (length (join segs ++ junk) <? total (firstn (base + i) segs)) with false
    by (symmetry; apply Nat.ltb_ge; rewrite app_length; lia).
  rewrite Hk.
  destruct (nth_error_split _ _ E) as (l1 & l2 & -> & Hl).
  rewrite <- Hl. rewrite skipn_app, skipn_all, Nat.sub_diag. cbn [skipn app].
  rewrite firstn_app.
  pose proof (length_join_ge s l2).
  replace (length s - length (join (s :: l2))) with 0 by lia.
  cbn [firstn]. rewrite app_nil_r. now rewrite firstn_join_cons.
Qed.

Lemma joined_spec p segs junk k : rep p segs junk ->
  joined p k = Ok (if k <? length segs then join (skipn k segs) ++ junk else []).
Proof.
  intros (Hv & Hs & Hok). unfold joined. rewrite Hs, length_offs, rd_offs.
  destruct (Nat.leb_spec (length segs) k) as [H|H].
  - replace (k <? length segs) with false by (symmetry; apply Nat.ltb_ge; lia). reflexivity.
  - replace (k <? length segs) with true by (symmetry; apply Nat.ltb_lt; lia).
    destruct (nth_error segs k) as [s|] eqn:E.
    2: { apply nth_error_None in E. lia. }
    cbn [obind seg_offset plus]. unfold substr_from. rewrite Hv.
    destruct (skipn_join segs junk _ _ E) as [Hk Hle].
    replace (length (join segs ++ junk) <? total (firstn k segs)) with false
      by (symmetry; apply Nat.ltb_ge; rewrite app_length; lia).
    now rewrite Hk.
Qed.

(** A view that was obtained from a path representing [segs] by [b]
    drop_fronts and some drop_backs. *)
Definition view_rep (v : path_view) (segs : list text) (b n : nat) : Prop :=
  exists p junk, rep p segs junk /\
    v = mkview false (value_ p) (segments_ p) b n /\ b + n <= length segs.

Lemma view_of_path p segs junk : rep p segs junk ->
  view_rep (path_to_view p) segs 0 (length segs).
Proof.
  intros Hr. exists p, junk. split; [assumption|]. split.
  - unfold path_to_view. destruct Hr as (_ & Hs & _). now rewrite Hs, length_offs.
  - lia.
Qed.

Lemma view_at_spec v segs b n i : view_rep v segs b n -> i < n ->
  exists s, nth_error segs (b + i) = Some s /\ view_at v i = Ok s.
Proof.
  intros (p & junk & Hr & -> & Hle) Hi. unfold view_at. cbn [pv_null pv_value pv_segments pv_base].
  rewrite (segment_at_spec p segs junk) by assumption.
  destruct (nth_error segs (b + i)) eqn:E; [eauto|].
  apply nth_error_None in E. lia.
Qed.

Lemma drop_front_spec v segs b n : view_rep v segs b (S n) ->
  exists v', drop_front v = Ok v' /\ view_rep v' segs (b + 1) n.
Proof.
  intros (p & junk & Hr & -> & Hle). eexists. split; [reflexivity|].
  exists p, junk. repeat split; auto; try apply Hr. lia.
Qed.

Lemma drop_back_spec v segs b n : view_rep v segs b (S n) ->
  exists v', drop_back v = Ok v' /\ view_rep v' segs b n.
Proof.
  intros (p & junk & Hr & -> & Hle). eexists. split; [reflexivity|].
  exists p, junk. repeat split; auto; try apply Hr. lia.
Qed.

Lemma prefix_spec v segs b n k : view_rep v segs b n -> k <= n ->
  view_prefix v k = Ok (if k =? 0 then [] else join (firstn (b + k) segs)).
Proof.
  intros (p & junk & (Hv & Hs & Hok) & -> & Hle) Hk. unfold view_prefix.
  cbn [pv_null pv_value pv_segments pv_base pv_size].
  replace (n <? k) with false by (symmetry; apply Nat.ltb_ge; lia).
  destruct k as [|c]; [reflexivity|]. cbn [Nat.eqb].
  rewrite Hs, rd_offs.
  destruct (nth_error segs (b + c)) as [s|] eqn:E.
  2: { apply nth_error_None in E. lia. }
  cbn [obind seg_offset seg_length plus]. unfold substr. cbn [Nat.ltb Nat.leb skipn].
  destruct (nth_error_split _ _ E) as (l1 & l2 & -> & Hl).
  replace (length (value_ p) <? 0) with false by (symmetry; apply Nat.ltb_ge; lia).
  rewrite Hv. f_equal.
  replace (b + S c) with (length l1 + 1) by lia. rewrite <- Hl.
  replace (firstn (length l1 + 1) (l1 ++ s :: l2)) with (l1 ++ [s]).
  2: { rewrite firstn_app. replace (length l1 + 1 - length l1) with 1 by lia.
       rewrite firstn_all2 by lia. reflexivity. }
  rewrite (firstn_app (length l1) l1), firstn_all, Nat.sub_diag. cbn [firstn]. rewrite app_nil_r.
  assert (Hlen : total l1 + length s = length (join (l1 ++ [s]))).
  { pose proof (total_join (l1 ++ [s]) ltac:(destruct l1; discriminate)) as HT.
    rewrite total_app in HT. cbn in HT. lia. }
  rewrite Hlen.
  destruct l2 as [|s' l2].
  - rewrite firstn_app, firstn_all, Nat.sub_diag. cbn. apply app_nil_r.
  - replace (l1 ++ s :: s' :: l2) with ((l1 ++ [s]) ++ s' :: l2) by (rewrite <- app_assoc; reflexivity).
    rewrite (join_app (l1 ++ [s])) by (try discriminate; destruct l1; discriminate).
    rewrite <- app_assoc.
    rewrite firstn_app, firstn_all, Nat.sub_diag. cbn. apply app_nil_r.
Qed.

(* ---------- injectivity of join ---------- *)

Lemma no_slash_split a b x y : ~ In slash a -> ~ In slash b ->
  a ++ slash :: x = b ++ slash :: y -> a = b /\ x = y.
Proof.
  revert b; induction a as [|c a IH]; intros b Ha Hb H.
  - destruct b as [|d b]; cbn in H; [injection H as ->; auto|].
    injection H as <- _. exfalso. apply Hb. cbn. auto.
  - destruct b as [|d b]; cbn in H.
    + injection H as -> _. exfalso. apply Ha. cbn. auto.
    + injection H as -> H. destruct (IH b) as [-> ->]; auto.
      * intros Hx. apply Ha. cbn. auto.
      * intros Hx. apply Hb. cbn. auto.
Qed.

Lemma no_slash_neq a b y : ~ In slash a -> a = b ++ slash :: y -> False.
Proof. intros Ha ->. apply Ha. apply in_or_app. right. cbn. auto. Qed.

Lemma join_inj l1 : forall l2, Forall segment_ok l1 -> Forall segment_ok l2 ->
  join l1 = join l2 -> l1 = l2.
Proof.
  induction l1 as [|s1 r1 IH]; intros l2 H1 H2 H.
  - symmetry. apply join_nil; auto.
  - destruct l2 as [|s2 r2].
    + exfalso. apply join_nil in H; [discriminate|assumption].
    + inversion_clear H1 as [|? ? [Hn1 Hs1] Hr1]. inversion_clear H2 as [|? ? [Hn2 Hs2] Hr2].
      destruct r1 as [|t1 r1]; destruct r2 as [|t2 r2].
      * cbn in H. congruence.
      * exfalso. rewrite (join_cons s2) in H by discriminate. eapply no_slash_neq; [|exact H]. assumption.
      * exfalso. rewrite (join_cons s1) in H by discriminate. symmetry in H. eapply no_slash_neq; [|exact H]. assumption.
      * rewrite !join_cons in H by discriminate.
        apply no_slash_split in H; auto. destruct H as [-> H].
        f_equal. apply IH; auto.
Qed.

Lemma meaning_ok s segs : path_meaning s = Some segs -> Forall segment_ok segs.
Proof.
  intros H. pose proof (path_set_spec path_default s) as HS. rewrite H in HS.
  destruct HS as (p' & _ & (_ & _ & Hok)). exact Hok.
Qed.

(* ---------- statements used in PathProps ---------- *)

Lemma apply_pieces_none segs ps :
  apply_pieces segs ps = None <-> exists p, In p ps /\ kept p /\ unescape p = None.
Proof.
  revert segs; induction ps as [|p ps IH]; intros segs; cbn [apply_pieces].
  - split; [discriminate|]. intros (? & [] & _).
  - unfold apply_piece, kept.
    destruct (list_eq_dec N.eq_dec p []) as [->|H1];
      [|destruct (list_eq_dec N.eq_dec p dot) as [->|H2];
        [|destruct (list_eq_dec N.eq_dec p dotdot) as [->|H3];
          [|destruct (unescape p) as [d|] eqn:E; cbn [option_map]]]].
    5: { split; [|reflexivity]. intros _. exists p. cbn. auto 7. }
    all: rewrite IH; split; [intros (q & Hq & Hk & Hn); exists q; split; [right; auto|auto]|].
    all: intros (q & [<-|Hq] & Hk & Hn); [|exists q; auto].
    all: try (exfalso; unfold kept in Hk; tauto). congruence.
Qed.

Lemma unescape_none s :
  unescape s = None <->
  exists a rest d, s = a ++ percent :: rest /\ unescape a = Some d /\ bad_escape rest.
Proof.
  remember (length s) as n eqn:Hn. assert (Hle : length s <= n) by lia. clear Hn.
  revert s Hle; induction n as [|n IH]; intros s Hle.
  - destruct s; [|cbn in Hle; lia]. split; [discriminate|].
    intros (a & rest & d & H & _). destruct a; discriminate.
  - destruct s as [|c t].
    + split; [discriminate|]. intros (a & rest & d & H & _). destruct a; discriminate.
    + cbn [unescape]. destruct (N.eqb_spec c percent) as [->|Hc].
      * destruct t as [|h [|l t']].
        -- split; [intros _|reflexivity]. exists [], [], []. repeat split.
           intros (? & ? & ? & ? & ? & H & _). discriminate.
        -- split; [intros _|reflexivity]. exists [], [h], []. repeat split.
           intros (? & ? & ? & ? & ? & H & _). discriminate.
        -- destruct (hex_value h) as [x|] eqn:Ex; [destruct (hex_value l) as [y|] eqn:Ey|].
           ++ destruct (N.eqb_spec (16 * x + y) slash) as [E|E].
              ** split; [intros _|reflexivity]. exists [], (h :: l :: t'), []. repeat split.
                 intros (? & ? & ? & ? & ? & H & Hx & Hy & Hne). injection H as <- <- <-.
                 congruence.
              ** assert (HI := IH t' ltac:(cbn in Hle; lia)).
                 split.
                 --- intros H. destruct (unescape t') as [d'|]; [discriminate|].
                     destruct HI as [HI _]. destruct (HI eq_refl) as (a & rest & d & -> & Ha & Hb).
                     exists (percent :: h :: l :: a), rest, ((16 * x + y)%N :: d).
                     split; [reflexivity|]. split; [|assumption].
                     cbn [unescape]. change (percent =? percent)%N with true. cbv iota.
                     rewrite Ex, Ey, Ha. destruct (N.eqb_spec (16 * x + y) slash); [congruence|reflexivity].
                 --- intros (a & rest & d & H & Ha & Hb).
                     destruct a as [|a0 a].
                     { cbn in H. injection H as <-. exfalso. apply Hb. exists h, l, t', x, y. auto. }
                     cbn [app] in H. injection H as <- H.
                     destruct a as [|a1 [|a2 a]].
                     { cbn in H. injection H as -> _. discriminate Ex. }
                     { cbn in H. injection H as <- -> _. discriminate Ey. }
                     cbn [app] in H. injection H as <- <- ->.
                     cbn [unescape] in Ha. change (percent =? percent)%N with true in Ha. cbv iota in Ha.
                     rewrite Ex, Ey in Ha. destruct (N.eqb_spec (16 * x + y) slash); [congruence|].
                     destruct (unescape a) as [d'|] eqn:Ea; [|discriminate].
                     destruct HI as [_ HI]. rewrite HI; [reflexivity|]. eauto 7.
           ++ split; [intros _|reflexivity]. exists [], (h :: l :: t'), []. repeat split.
              intros (? & ? & ? & ? & ? & H & Hx & Hy & Hne). injection H as <- <- <-. congruence.
           ++ split; [intros _|reflexivity]. exists [], (h :: l :: t'), []. repeat split.
              intros (? & ? & ? & ? & ? & H & Hx & Hy & Hne). injection H as <- <- <-. congruence.
      * assert (HI := IH t ltac:(cbn in Hle; lia)). split.
        -- intros H. destruct (unescape t) as [d'|]; [discriminate|].
           destruct HI as [HI _]. destruct (HI eq_refl) as (a & rest & d & -> & Ha & Hb).
           exists (c :: a), rest, (c :: d). split; [reflexivity|]. split; [|assumption].
           cbn [unescape]. destruct (N.eqb_spec c percent); [congruence|]. now rewrite Ha.
        -- intros (a & rest & d & H & Ha & Hb).
           destruct a as [|a0 a]; [cbn in H; injection H as -> _; congruence|].
           cbn [app] in H. injection H as <- ->.
           cbn [unescape] in Ha. destruct (N.eqb_spec c percent); [congruence|].
           destruct (unescape a) as [d'|] eqn:Ea; [|discriminate].
           destruct HI as [_ HI]. rewrite HI; [reflexivity|]. eauto 7.
Qed.

Lemma path_set_meaning q s segs : path_meaning s = Some segs ->
  exists p, path_set q s = POk p /\ path_size p = length segs /\
    (forall i seg, nth_error segs i = Some seg -> path_at p i = Ok seg).
Proof.
  intros H. pose proof (path_set_spec q s) as HS. rewrite H in HS.
  destruct HS as (p & Hp & Hr). exists p. split; [assumption|]. split.
  - unfold path_size. destruct Hr as (_ & -> & _). apply length_offs.
  - intros i seg Hi. unfold path_at. rewrite (segment_at_spec p segs []) by assumption.
    cbn. now rewrite Hi.
Qed.

Lemma path_set_throws q s :
  (path_meaning s = None <-> exists p, path_set q s = PThrow p) /\ path_set q s <> PUB.
Proof.
  pose proof (path_set_spec q s) as HS. destruct (path_meaning s).
  - destruct HS as (p & -> & _). split; [|discriminate]. split; [discriminate|]. intros (? & ?). discriminate.
  - destruct HS as (p & junk & -> & _). split; [|discriminate]. split; eauto.
Qed.

Lemma path_throws_iff q s :
  (exists p, path_set q s = PThrow p) <->
  exists piece a rest d, In piece (pieces s) /\ kept piece /\
    piece = a ++ percent :: rest /\ unescape a = Some d /\ bad_escape rest.
Proof.
  destruct (path_set_throws q s) as [<- _]. unfold path_meaning.
  rewrite apply_pieces_none. split.
  - intros (p & Hi & Hk & Hn). apply unescape_none in Hn.
    destruct Hn as (a & rest & d & H). exists p, a, rest, d. tauto.
  - intros (p & a & rest & d & Hi & Hk & H). exists p. split; [assumption|]. split; [assumption|].
    apply unescape_none. eauto.
Qed.

Lemma view_of_rep p segs b n v : rep p segs [] -> view_of p b n v -> view_rep v segs b n.
Proof.
  intros Hr H. induction H as [|b n v v' H IH Hd|b n v v' H IH Hd].
  - unfold path_size. replace (length (segments_ p)) with (length segs).
    + eapply view_of_path; eauto.
    + destruct Hr as (_ & -> & _). now rewrite length_offs.
  - destruct (drop_front_spec _ _ _ _ IH) as (v2 & E & Hv). congruence.
  - destruct (drop_back_spec _ _ _ _ IH) as (v2 & E & Hv). congruence.
Qed.

Lemma path_set_rep q s segs p : path_meaning s = Some segs -> path_set q s = POk p -> rep p segs [].
Proof.
  intros H Hp. pose proof (path_set_spec q s) as HS. rewrite H in HS.
  destruct HS as (p' & Hp' & Hr). congruence.
Qed.

Lemma path_accessors q s segs p :
  path_meaning s = Some segs -> path_set q s = POk p ->
  (forall k, joined p k = Ok (join (skipn k segs))) /\
  (forall b n v, view_of p b n v ->
     b + n <= length segs /\ view_size v = n /\
     (forall i, i < n -> exists seg, nth_error segs (b + i) = Some seg /\ view_at v i = Ok seg) /\
     (forall k, k <= n -> view_prefix v k = Ok (if k =? 0 then [] else join (firstn (b + k) segs))) /\
     (0 < n -> (exists v', drop_front v = Ok v') /\ (exists v', drop_back v = Ok v') /\
               (exists seg, nth_error segs b = Some seg /\ view_front v = Ok seg))).
Proof.
  intros H Hp. pose proof (path_set_rep q s segs p H Hp) as Hr. split.
  - intros k. rewrite (joined_spec p segs []) by assumption. rewrite app_nil_r.
    destruct (Nat.ltb_spec k (length segs)); [reflexivity|].
    now rewrite skipn_all2 by lia.
  - intros b n v Hv. pose proof (view_of_rep p segs b n v Hr Hv) as HR.
    split. { destruct HR as (? & ? & _ & _ & Hle). exact Hle. }
    split. { destruct HR as (? & ? & _ & -> & _). reflexivity. }
    split. { intros i Hi. eapply view_at_spec; eauto. }
    split. { intros k Hk. eapply prefix_spec; eauto. }
    intros Hn. destruct n as [|n]; [lia|].
    destruct (drop_front_spec _ _ _ _ HR) as (v1 & E1 & _).
    destruct (drop_back_spec _ _ _ _ HR) as (v2 & E2 & _).
    split; [eauto|]. split; [eauto|].
    destruct (view_at_spec v segs b (S n) 0 HR ltac:(lia)) as (seg & E & E').
    rewrite Nat.add_0_r in E. eauto.
Qed.

Lemma firstn_segment_ok segs k : Forall segment_ok segs -> Forall segment_ok (firstn k segs).
Proof.
  intros H. apply Forall_forall. intros x Hx. rewrite Forall_forall in H. apply H.
  rewrite <- (firstn_skipn k segs). apply in_or_app. auto.
Qed.

Lemma prefix_injective q1 q2 s1 s2 l1 l2 p1 p2 k1 k2 :
  path_meaning s1 = Some l1 -> path_set q1 s1 = POk p1 -> k1 <= length l1 ->
  path_meaning s2 = Some l2 -> path_set q2 s2 = POk p2 -> k2 <= length l2 ->
  view_prefix (path_to_view p1) k1 = view_prefix (path_to_view p2) k2 <->
  firstn k1 l1 = firstn k2 l2.
Proof.
  intros M1 P1 K1 M2 P2 K2.
  pose proof (path_set_rep q1 s1 l1 p1 M1 P1) as R1.
  pose proof (path_set_rep q2 s2 l2 p2 M2 P2) as R2.
  rewrite (prefix_spec _ l1 0 (length l1) k1 (view_of_path _ _ _ R1) K1).
  rewrite (prefix_spec _ l2 0 (length l2) k2 (view_of_path _ _ _ R2) K2).
  cbn [plus].
  replace (if k1 =? 0 then [] else join (firstn k1 l1)) with (join (firstn k1 l1))
    by (destruct k1; reflexivity).
  replace (if k2 =? 0 then [] else join (firstn k2 l2)) with (join (firstn k2 l2))
    by (destruct k2; reflexivity).
  split; [|congruence]. intros H. apply join_inj; [| |congruence];
    apply firstn_segment_ok; eapply meaning_ok; eauto.
Qed.

Lemma path_after_throw q s p : path_set q s = PThrow p ->
  exists segs, Forall segment_ok segs /\ path_size p = length segs /\
    (exists ps piece ps', pieces s = ps ++ piece :: ps' /\ apply_pieces [] ps = Some segs
       /\ apply_piece segs piece = None) /\
    (forall i seg, nth_error segs i = Some seg -> path_at p i = Ok seg) /\
    (forall k, exists t, joined p k = Ok t).
Proof.
  intros H. pose proof (path_set_spec q s) as HS.
  destruct (path_meaning s) as [l|] eqn:E.
  { destruct HS as (p' & Hp' & _). congruence. }
  destruct HS as (p' & junk & Hp' & Hr). assert (p' = p) by congruence. subst p'.
  exists (apply_until [] (pieces s)). split; [apply Hr|]. split.
  { unfold path_size. destruct Hr as (_ & -> & _). apply length_offs. }
  split.
  { unfold path_meaning in E. revert E. generalize (@nil text) as segs. generalize (pieces s) as l.
    clear. induction l as [|piece l IH]; intros segs E; [discriminate|].
    cbn [apply_pieces apply_until] in *.
    destruct (apply_piece segs piece) as [segs'|] eqn:Ea.
    - destruct (IH segs' E) as (ps & pc & ps' & -> & Hs & Hn).
      exists (piece :: ps), pc, ps'. split; [reflexivity|]. split; [|assumption].
      cbn [apply_pieces]. now rewrite Ea.
    - exists [], piece, l. auto. }
  split.
  - intros i seg Hi. unfold path_at. erewrite segment_at_spec by eassumption. cbn. now rewrite Hi.
  - intros k. erewrite joined_spec by eassumption. eauto.
Qed.
