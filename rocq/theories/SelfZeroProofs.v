(** What becomes of a path set from the whole of its own text. *)
From Coq Require Import List NArith Arith Bool Lia.
From Verif Require Import Base PathModel PathSpec PathProofs PmemProofs PmemSetProofs SelfModel SelfProofs.
Import ListNotations.

(** null characters in its place *)
Definition blank (s : list N) : list N := repeat 0%N (length s).

Lemma decode_zero r len : forall fuel i o, size o = r + i -> buf o (r + i) = 0%N -> i <= len -> len - i < fuel ->
  exists o2, o_decode fuel r len i o = OOk o2 /\ window (buf o2) 0 (size o2) = window (buf o) 0 (size o) ++ repeat 0%N (len - i) /\
    size o2 = r + len /\ segs_ o2 = segs_ o /\ forall j, r + len < j -> buf o2 j = buf o j.
Proof.
  induction fuel as [|fuel IH]; intros i o Sz Z Li Lf; [lia|]. cbn [o_decode]. destruct (Nat.ltb_spec i len) as [L|L].
  - rewrite Z. change (negb (0 =? ch_percent)%N) with true. cbv iota.
    destruct (IH (i + 1) (o_append o 0%N)) as (o2 & E & W & S2 & Q & B).
    + cbn. lia.
    + cbn. replace (r + (i + 1)) with (Datatypes.S (size o)) by lia. apply put_same.
    + lia.
    + lia.
    + exists o2. split; [exact E|]. rewrite W, append_seen, <- app_assoc. replace (len - i) with (Datatypes.S (len - (i + 1))) by lia.
      split; [reflexivity|]. split; [exact S2|]. split; [exact Q|]. intros j Hj. rewrite B by exact Hj. apply append_buf. lia.
  - exists o. replace (len - i) with 0 by lia. cbn. rewrite app_nil_r. split; [reflexivity|]. split; [reflexivity|]. split; [lia|]. auto.
Qed.

(** At the start the buffer is read where it is written, later one place further, where the separator puts its null character. *)
Definition behind (o : own) (r : nat) : Prop := (size o = 0 /\ r = 0 /\ buf o 0 = 0%N) \/ (0 < size o /\ r = size o + 1).

Lemma unescape_zero n : unescape (repeat 0%N n) = Some (repeat 0%N n).
Proof. induction n as [|n IH]; [reflexivity|]. cbn in *. now rewrite IH. Qed.
Lemma zero_slash n : ~ In slash (repeat 0%N n).
Proof. intros H. apply repeat_spec in H. discriminate. Qed.

Lemma push_zero o r len done : behind o r -> 0 < len -> rep (seen o) done [] ->
  exists o2, o_push o r len = OOk o2 /\ rep (seen o2) (done ++ [repeat 0%N len]) [] /\ size o2 = r + len /\ behind o2 (r + (len + 1)) /\
    forall j, r + len < j -> buf o2 j = buf o j.
Proof.
  intros B L R. unfold o_push. set (o1 := match size o with O => o | _ => o_append o ch_slash end).
  assert (X : size o1 = r /\ buf o1 r = 0%N /\ segs_ o1 = segs_ o /\ window (buf o1) 0 (size o1) = sepv (window (buf o) 0 (size o)) /\
    forall j, r < j -> buf o1 j = buf o j).
  { unfold o1. destruct B as [(Sz & -> & Z)|(Sz & ->)].
    - rewrite Sz. cbn. rewrite Z, Sz. repeat split; reflexivity.
    - destruct (size o) as [|n] eqn:E; [lia|]. split; [cbn; lia|]. split; [cbn [o_append buf]; rewrite E; replace (S n + 1) with (S (S n)) by lia; apply put_same|].
      split; [reflexivity|]. split; [rewrite append_seen, E; reflexivity|]. intros j Hj. apply append_buf. lia. }
  destruct X as (S1 & Z1 & Q1 & W1 & B1). clearbody o1.
  destruct (decode_zero r len (S len) 0 o1) as (o2 & -> & W & S2 & Q & B2); [lia|now rewrite Nat.add_0_r|lia|lia|].
  rewrite Nat.sub_0_r in W. eexists. split; [reflexivity|]. split; [|split; [exact S2|split; [right; cbn; lia|]]].
  - pose proof (push_spec (seen o) done (repeat 0%N len) R) as P. rewrite unescape_zero in P.
    destruct P as (p & E & R2); [destruct len; [lia|discriminate]|apply zero_slash|].
    unfold push_decoded_segment in E. rewrite decode_loop_full, unescape_zero in E. injection E as E.
    replace (seen _) with p; [exact R2|]. rewrite <- E. unfold seen. cbn [buf size segs_ value_ segments_].
    fold (sepv (window (buf o) 0 (size o))). rewrite W, W1, Q, Q1. f_equal. f_equal. f_equal.
    rewrite <- W1, app_length, window_length, repeat_length. f_equal. lia.
  - intros j Hj. cbn. rewrite B2 by exact Hj. apply B1. lia.
Qed.

Lemma find_none s : ~ In slash s -> find_slash s = None.
Proof.
  induction s as [|c t IH]; intros H; [reflexivity|]. cbn. destruct (N.eqb_spec c ch_slash) as [->|N]; [exfalso; apply H; now left|].
  rewrite IH; [reflexivity|]. intros X. apply H. now right.
Qed.
Lemma find_some s t : ~ In slash s -> find_slash (s ++ slash :: t) = Some (length s).
Proof.
  induction s as [|c s IH]; intros H; [reflexivity|]. cbn. destruct (N.eqb_spec c ch_slash) as [->|N]; [exfalso; apply H; now left|].
  rewrite IH; [reflexivity|]. intros X. apply H. now right.
Qed.

Lemma step_zero o r s done : behind o r -> window (buf o) r (length s) = s -> kept s -> rep (seen o) done [] ->
  exists o2, o_step o r (length s) = OOk o2 /\ rep (seen o2) (done ++ [blank s]) [] /\ behind o2 (r + (length s + 1)) /\
    forall j, r + length s < j -> buf o2 j = buf o j.
Proof.
  intros B W (N1 & N2 & N3) R. unfold o_step. rewrite W. assert (L : 0 < length s) by (destruct s; [congruence|cbn; lia]).
  destruct (Nat.eqb_spec (length s) 0); [lia|]. cbn [negb]. unfold str_eqb.
  destruct (list_eq_dec N.eq_dec s [ch_dot]) as [X|_]; [elim N2; exact X|].
  destruct (list_eq_dec N.eq_dec s [ch_dot; ch_dot]) as [X|_]; [elim N3; exact X|].
  destruct (push_zero o r (length s) done B L R) as (o2 & E & R2 & _ & B2 & X). exists o2. auto.
Qed.

Lemma loop_zero : forall segs fuel r n o done, segs <> [] -> Forall (fun s => kept s /\ ~ In slash s) segs -> behind o r ->
  window (buf o) r n = join segs -> n < fuel -> rep (seen o) done [] ->
  exists o2, o_loop fuel r n o = OOk o2 /\ rep (seen o2) (done ++ map blank segs) [].
Proof.
  induction segs as [|s segs IH]; intros fuel r n o done NE F B W Lf R; [congruence|]. destruct fuel as [|fuel]; [lia|]. cbn [o_loop].
  inversion_clear F as [|? ? [K NS] F']. assert (Ln : n = length (join (s :: segs))) by (rewrite <- W; symmetry; apply window_length).
  rewrite W. destruct segs as [|s2 segs].
  - cbn [join] in *. rewrite (find_none s NS). rewrite Ln in *. destruct (step_zero o r s done B W K R) as (o2 & -> & R2 & _). exists o2. auto.
  - rewrite join_cons in * by discriminate. rewrite (find_some s _ NS). rewrite app_length in Ln. cbn [length] in Ln.
    assert (W1 : window (buf o) r (length s) = s).
    { rewrite <- (window_firstn (buf o) (length s) r n) by lia. rewrite W, firstn_app, firstn_all, Nat.sub_diag. cbn. apply app_nil_r. }
    destruct (step_zero o r s done B W1 K R) as (o2 & -> & R2 & B2 & X).
    assert (W2 : window (buf o2) (r + (length s + 1)) (n - (length s + 1)) = join (s2 :: segs)).
    { rewrite (window_ext (buf o)) by (intros j Hj; apply X; lia). rewrite <- (window_skipn (buf o) (length s + 1) r n) by lia. rewrite W.
      rewrite skipn_plus, skipn_app, skipn_all, Nat.sub_diag. reflexivity. }
    destruct (IH fuel _ _ o2 (done ++ [blank s]) ltac:(discriminate) F' B2 W2 ltac:(lia) R2) as (o3 & E3 & R3).
    exists o3. split; [exact E3|]. cbn [map] in *. rewrite <- app_assoc in R3. exact R3.
Qed.

Lemma rep_fun p p' segs : rep p segs [] -> rep p' segs [] -> p = p'.
Proof. intros (A & B & _) (C & D & _). destruct p, p'. cbn in *. congruence. Qed.

Lemma set_zero q s o segs : path_set q s = POk (seen o) -> path_meaning s = Some segs -> segs <> [] -> Forall kept segs ->
  exists o2, o_set o 0 (size o) = OOk o2 /\
    path_size (seen o2) = length segs /\ forall i, i < length segs -> path_at (seen o2) i = Ok (repeat 0%N (length (nth i segs []))).
Proof.
  intros P M NE K. pose proof (path_set_spec q s) as SP. rewrite P, M in SP. destruct SP as (p & E & R). injection E as <-.
  pose proof R as (Rv & Rs & Ro). cbn [seen value_] in Rv. rewrite app_nil_r in Rv.
  destruct segs as [|s0 rest]; [congruence|]. inversion_clear Ro as [|? ? [O1 O2] Ro']. inversion_clear K as [|? ? K0 K'].
  destruct s0 as [|c t]; [congruence|].
  set (segs' := (0%N :: t) :: rest).
  assert (J : join segs' = 0%N :: skipn 1 (join ((c :: t) :: rest))). { unfold segs'. destruct rest; reflexivity. }
  assert (Sz : size o = length (join ((c :: t) :: rest))) by (rewrite <- Rv; symmetry; apply window_length).
  assert (P1 : 1 <= size o). { rewrite Sz. destruct rest; cbn; lia. }
  assert (W : window (buf (o_clear o)) 0 (size o) = join segs').
  { rewrite J, <- Rv. destruct (size o) as [|n]; [lia|]. rewrite !window_cons. cbn [skipn]. f_equal. apply window_ext. intros j Hj. cbn. apply put_other. lia. }
  assert (F : Forall (fun s => kept s /\ ~ In slash s) segs').
  { constructor.
    - split; [split; [discriminate|split; discriminate]|]. intros [X|X]; [discriminate|]. apply O2. now right.
    - rewrite Forall_forall in *. intros y Hy. split; [auto|]. apply (Ro' y Hy). }
  destruct (loop_zero segs' (S (size o)) 0 (size o) (o_clear o) []) as (o2 & E2 & R2).
  - discriminate.
  - exact F.
  - left. cbn. auto.
  - exact W.
  - lia.
  - exact rep_empty.
  - exists o2. split.
    + unfold o_set. rewrite W. destruct (Nat.eqb_spec (size o) 0); [lia|]. cbn [orb]. rewrite J at 1. unfold str_eqb.
      destruct (list_eq_dec N.eq_dec _ [ch_slash]) as [X|_]; [discriminate|]. cbn [o_clear buf]. rewrite put_same. exact E2.
    + pose proof (shows_rep _ _ _ R2) as (A & B & _). cbn [app] in *. rewrite map_length in A. split; [exact A|].
      intros i Hi. apply B. rewrite nth_error_map. cbn [length] in Hi. destruct i as [|i]; [reflexivity|]. cbn in *.
      rewrite (nth_error_nth' rest []) by lia. reflexivity.
Qed.
