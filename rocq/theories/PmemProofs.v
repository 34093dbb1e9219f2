From Coq Require Import List NArith Arith Bool Lia.
From Verif Require Import Base PathModel PathSpec PathProofs PmemModel PmemSpec.
Import ListNotations.

Definition setv (m : mem) (v : list N) : mem := with_path m (mkpath v (segments_ (path_of m))).

Lemma append_room heap m c : length (value_ (path_of m)) < tcap m -> append heap m c = MOk (setv m (value_ (path_of m) ++ [c])).
Proof. intros H. unfold append. apply Nat.ltb_lt in H. rewrite H. reflexivity. Qed.

Lemma setv_setv m v w : setv (setv m v) w = setv m w.
Proof. reflexivity. Qed.
Lemma setv_same m : setv m (value_ (path_of m)) = m.
Proof. destruct m as [[v s] a b c]. reflexivity. Qed.

(** With room for the segment, decoding asks for nothing and does what it does without memory. *)
Lemma decode_sim heap segment : forall fuel i m, length (value_ (path_of m)) + (length segment - i) <= tcap m ->
  m_decode heap fuel segment i m =
    match decode_loop fuel segment i (value_ (path_of m)) with
    | LOk v => MOk (setv m v) | LThrow v => MThrow (setv m v) | LUB => MUB
    end.
Proof.
  induction fuel as [|fuel IH]; intros i m H; [reflexivity|]. cbn [m_decode decode_loop].
  destruct (Nat.ltb_spec i (length segment)) as [L|L]; [|now rewrite setv_same].
  destruct (rd segment i) as [c| |]; [|reflexivity|reflexivity].
  destruct (negb (c =? ch_percent)%N).
  - rewrite append_room by lia. cbn [mbind]. rewrite IH; [|cbn; rewrite app_length; cbn; lia]. cbn [setv with_path path_of value_]. reflexivity.
  - destruct (Nat.leb_spec (length segment) (i + 2)) as [L2|L2]; [now rewrite setv_same|].
    destruct (rd segment (i + 1)) as [h| |]; try reflexivity. destruct (rd segment (i + 2)) as [l| |]; try reflexivity.
    destruct (from_xdigit h); [|now rewrite setv_same]. destruct (from_xdigit l); [|now rewrite setv_same].
    destruct (_ =? ch_slash)%N; [now rewrite setv_same|].
    rewrite append_room by lia. cbn [mbind]. rewrite IH; [|cbn; rewrite app_length; cbn; lia]. reflexivity.
Qed.

Definition sepv (v : list N) : list N := match v with [] => v | _ => v ++ [ch_slash] end.
Definition sep (v : list N) : nat := match v with [] => 0 | _ => 1 end.
Lemma sepv_length v : length (sepv v) = length v + sep v.
Proof. destruct v; [reflexivity|]. cbn [sepv sep]. rewrite app_length. reflexivity. Qed.

Lemma push_sim heap m segment : length (value_ (path_of m)) + sep (value_ (path_of m)) + length segment <= tcap m -> segment <> [] ->
  m_push heap m segment =
    match push_decoded_segment (path_of m) segment with
    | POk p => push_back heap (setv m (value_ p)) (mkseg (length (sepv (value_ (path_of m)))) (length (value_ p) - length (sepv (value_ (path_of m)))))
    | PThrow p => MThrow (with_path m p)
    | PUB => MUB
    end.
Proof.
  intros H NE. unfold m_push, push_decoded_segment. fold (sepv (value_ (path_of m))).
  assert (E : match value_ (path_of m) with [] => MOk m | _ => append heap m ch_slash end = MOk (setv m (sepv (value_ (path_of m))))).
  { destruct (value_ (path_of m)) as [|c t] eqn:Ev.
    - cbn [sepv]. rewrite <- Ev. now rewrite setv_same.
    - rewrite append_room; [rewrite Ev; reflexivity|rewrite Ev; cbn [sep] in H; lia]. }
  rewrite E. cbn [mbind]. rewrite decode_sim.
  - cbn [setv with_path path_of value_]. destruct (decode_loop _ _ _ _); reflexivity.
  - cbn [setv with_path path_of value_ tcap]. rewrite sepv_length. lia.
Qed.

Lemma unescape_shorter : forall n s d, length s <= n -> unescape s = Some d -> length d <= length s.
Proof.
  induction n as [|n IH]; intros [|c t] d H E; cbn in *; try (injection E as <-; cbn; lia); try lia.
  destruct (c =? percent)%N.
  - destruct t as [|h [|l t']]; try discriminate. destruct (hex_value h); [|discriminate]. destruct (hex_value l); [|discriminate].
    destruct (_ =? slash)%N; [discriminate|]. destruct (unescape t') as [d'|] eqn:E'; [|discriminate]. cbn in E. injection E as <-.
    cbn in *. assert (length d' <= length t') by (apply IH; [lia|exact E']). lia.
  - destruct (unescape t) as [d'|] eqn:E'; [|discriminate]. cbn in E. injection E as <-. cbn.
    assert (length d' <= length t) by (apply IH; [lia|exact E']). lia.
Qed.

(** One piece. *)
Definition m_step (heap : heap_t) (m : mem) (segment : list N) : mresult :=
  if negb (length segment =? 0) then
    if str_eqb segment [ch_dot] then MOk m
    else if str_eqb segment [ch_dot; ch_dot] then MOk (with_path m (pop_segment (path_of m)))
    else m_push heap m segment
  else MOk m.
Definition p_step (p : path) (segment : list N) : presult :=
  if negb (length segment =? 0) then
    if str_eqb segment [ch_dot] then POk p
    else if str_eqb segment [ch_dot; ch_dot] then POk (pop_segment p)
    else push_decoded_segment p segment
  else POk p.

Definition used (m : mem) : nat := length (value_ (path_of m)) + sep (value_ (path_of m)).

Lemma sep_le v : sep v <= 1. Proof. destruct v; cbn; lia. Qed.
Lemma sep_mono v w : length v <= length w -> sep v <= sep w.
Proof. destruct v, w; cbn; lia. Qed.

Lemma rep_length p segs junk : rep p segs junk -> length (segments_ p) = length segs.
Proof. intros (_ & -> & _). apply length_offs. Qed.

Lemma removelast_le {A} (l : list A) : length (removelast l) <= length l.
Proof. induction l as [|x [|y l] IH]; cbn in *; lia. Qed.

Lemma step_mem heap m segs piece : rep (path_of m) segs [] -> ~ In slash piece -> used m + length piece <= tcap m -> within m ->
  match apply_piece segs piece with
  | None => exists p junk, p_step (path_of m) piece = PThrow p /\ m_step heap m piece = MThrow (with_path m p) /\ rep p segs junk
  | Some segs' =>
      exists p, p_step (path_of m) piece = POk p /\ rep p segs' [] /\
        length (value_ p) <= used m + length piece /\
        ((length segs' <= scap m /\ m_step heap m piece = MOk (with_path m p)) \/
         (scap m < length segs' /\
          match heap (length (asked m)) with
          | None => exists q d, segs' = segs ++ [d] /\ m_step heap m piece = MNoMem (with_asked (with_path m q) (Segs (length segs'))) /\
                      rep q segs ((match segs with [] => [] | _ => [ch_slash] end) ++ d)
          | Some more => m_step heap m piece = MOk (with_path (with_scap (with_asked m (Segs (length segs'))) (length segs' + more)) p)
          end))
  end.
Proof.
  intros R NS B W. pose proof (rep_length _ _ _ R) as RL. unfold within in W. unfold apply_piece, m_step, p_step, str_eqb, used in *.
  destruct (list_eq_dec N.eq_dec piece []) as [->|NE].
  { cbn [length Nat.eqb negb]. exists (path_of m). split; [reflexivity|]. split; [exact R|]. split; [cbn; lia|]. left. split; [lia|].
    destruct m as [? ? ? ?]; reflexivity. }
  destruct piece as [|c t] eqn:Ep; [congruence|]. rewrite <- Ep in *. assert (L0 : length piece =? 0 = false) by (rewrite Ep; reflexivity).
  rewrite L0. cbn [negb]. change dot with [ch_dot]. change dotdot with [ch_dot; ch_dot].
  destruct (list_eq_dec N.eq_dec piece [ch_dot]) as [ED|ND].
  { exists (path_of m). split; [reflexivity|]. split; [exact R|]. split; [lia|]. left. split; [lia|]. destruct m as [? ? ? ?]; reflexivity. }
  destruct (list_eq_dec N.eq_dec piece [ch_dot; ch_dot]) as [EDD|NDD].
  { exists (pop_segment (path_of m)). split; [reflexivity|]. split; [apply pop_spec, R|]. split.
    - unfold pop_segment. destruct (rev (segments_ (path_of m))); [lia|]. cbn [value_]. rewrite firstn_length. lia.
    - left. split; [|reflexivity]. pose proof (removelast_le segs). lia. }
  assert (NEp : piece <> []) by (rewrite Ep; discriminate).
  pose proof (push_spec (path_of m) segs piece R NEp NS) as P. rewrite (push_sim heap m piece B NEp).
  destruct (unescape piece) as [d|] eqn:U; cbn [option_map].
  2: { destruct P as (p & junk & -> & R'). exists p, junk. auto. }
  destruct P as (p & E & R'). exists p. rewrite E. split; [reflexivity|]. split; [exact R'|].
  pose proof (unescape_shorter _ _ _ (le_n _) U) as Ld.
  assert (V : value_ p = sepv (value_ (path_of m)) ++ d /\
              p = mkpath (value_ p) (segments_ (path_of m) ++
                    [mkseg (length (sepv (value_ (path_of m)))) (length (value_ p) - length (sepv (value_ (path_of m))))])).
  { unfold push_decoded_segment in E. rewrite decode_loop_full, U in E. injection E as <-. cbn. auto. }
  destruct V as [V Q]. split; [rewrite V, app_length, sepv_length; lia|].
  unfold push_back. cbn [setv with_path path_of segments_ value_ tcap scap asked]. rewrite RL, app_length. cbn [length]. rewrite <- Q.
  destruct (Nat.ltb_spec (length segs) (scap m)) as [L|L]; [left; split; [lia|reflexivity]|right; split; [lia|]].
  replace (length segs + 1) with (S (length segs)) by lia.
  destruct (heap (length (asked m))) as [more|]; [reflexivity|].
  exists (mkpath (value_ p) (segments_ (path_of m))), d. split; [reflexivity|]. split; [reflexivity|].
  destruct R as (Rv & Rs & Ro). rewrite app_nil_r in Rv. split; [|split; [exact Rs|exact Ro]]. cbn [value_]. rewrite V, Rv.
  destruct segs as [|s r]; [reflexivity|]. destruct (join (s :: r)) as [|c0 t0] eqn:Ej; [apply join_nil in Ej; [discriminate|assumption]|].
  cbn [sepv]. now rewrite <- app_assoc.
Qed.

Lemma set_loop_step fuel value p : set_loop (S fuel) value p =
  match p_step p (firstn (match find_slash value with None => length value | Some n => n end) value) with
  | POk p' => match find_slash value with None => POk p' | Some n => set_loop fuel (skipn (n + 1) value) p' end
  | other => other
  end.
Proof.
  cbn [set_loop]. unfold p_step. destruct (find_slash value); destruct (negb _); try reflexivity; destruct (str_eqb _ _); try reflexivity;
    destruct (str_eqb _ _); try reflexivity; destruct (push_decoded_segment _ _); reflexivity.
Qed.
Lemma m_loop_step heap fuel value m : m_loop heap (S fuel) value m =
  mbind (m_step heap m (firstn (match find_slash value with None => length value | Some n => n end) value))
    (fun m1 => match find_slash value with None => MOk m1 | Some n => m_loop heap fuel (skipn (n + 1) value) m1 end).
Proof. reflexivity. Qed.

(** What the segments are on the way. *)
Definition way (segs : list (list N)) (ps : list (list N)) (segs' : list (list N)) : Prop :=
  exists ps1 ps2, ps = ps1 ++ ps2 /\ apply_pieces segs ps1 = Some segs'.

Lemma way_start segs ps : way segs ps segs.
Proof. exists [], ps. auto. Qed.
Lemma way_cons segs piece ps s1 s : apply_piece segs piece = Some s1 -> way s1 ps s -> way segs (piece :: ps) s.
Proof. intros E (a & b & -> & H). exists (piece :: a), b. split; [reflexivity|]. cbn. now rewrite E. Qed.
Lemma way_inv segs piece ps s : way segs (piece :: ps) s -> s = segs \/ exists s1, apply_piece segs piece = Some s1 /\ way s1 ps s.
Proof.
  intros ([|x a] & b & E & H); cbn in *; [left; congruence|]. injection E as -> ->. right.
  destruct (apply_piece segs x) as [s1|]; [|discriminate]. exists s1. split; [reflexivity|]. exists a, b. auto.
Qed.

Definition final (heap : heap_t) (m : mem) (segs ps : list (list N)) (rp : presult) (r : mresult) (l : list request) : Prop :=
  (exists m', r = MOk m' /\ rp = POk (path_of m') /\ asked m' = asked m ++ l /\ within m' /\ scap m <= scap m' /\ tcap m' = tcap m /\
     (forall k q, nth_error l k = Some q -> heap (length (asked m) + k) <> None)) \/
  (exists m', r = MThrow m' /\ rp = PThrow (path_of m') /\ asked m' = asked m ++ l /\ within m' /\ scap m <= scap m' /\ tcap m' = tcap m /\
     (forall k q, nth_error l k = Some q -> heap (length (asked m) + k) <> None)) \/
  (exists m' s d junk, r = MNoMem m' /\ asked m' = asked m ++ l /\ way segs ps s /\ way segs ps (s ++ [d]) /\
     rep (path_of m') s (junk ++ d) /\ within m' /\ scap m <= scap m' /\ tcap m' = tcap m /\ l <> [] /\
     heap (length (asked m) + (length l - 1)) = None).

Lemma final_cons heap m m1 segs piece ps s1 rp r l1 l : apply_piece segs piece = Some s1 -> asked m1 = asked m ++ l1 ->
  (forall k q, nth_error l1 k = Some q -> heap (length (asked m) + k) <> None) -> scap m <= scap m1 -> tcap m1 = tcap m ->
  final heap m1 s1 ps rp r l -> final heap m segs (piece :: ps) rp r (l1 ++ l).
Proof.
  intros A E G S T F.
  assert (G' : (forall k q, nth_error l k = Some q -> heap (length (asked m1) + k) <> None) ->
               forall k q, nth_error (l1 ++ l) k = Some q -> heap (length (asked m) + k) <> None).
  { intros X k q Hk. destruct (Nat.lt_ge_cases k (length l1)) as [L|L].
    - rewrite nth_error_app1 in Hk by exact L. eauto.
    - rewrite nth_error_app2 in Hk by exact L. rewrite E, app_length in X.
      replace (length (asked m) + k) with (length (asked m) + length l1 + (k - length l1)) by lia. eauto. }
  destruct F as [(m' & -> & -> & E' & W & S' & T' & X)|[(m' & -> & -> & E' & W & S' & T' & X)|(m' & s & d & junk & -> & E' & W1 & W2 & R & W & S' & T' & N & X)]].
  - left. exists m'. split; [reflexivity|]. split; [reflexivity|]. split; [rewrite E', E, app_assoc; reflexivity|].
    split; [exact W|]. split; [lia|]. split; [congruence|]. exact (G' X).
  - right. left. exists m'. split; [reflexivity|]. split; [reflexivity|]. split; [rewrite E', E, app_assoc; reflexivity|].
    split; [exact W|]. split; [lia|]. split; [congruence|]. exact (G' X).
  - right. right. exists m', s, d, junk. split; [reflexivity|]. split; [rewrite E', E, app_assoc; reflexivity|].
    split; [eauto using way_cons|]. split; [eauto using way_cons|]. split; [exact R|]. split; [exact W|]. split; [lia|]. split; [congruence|].
    split; [destruct l1; [exact N|discriminate]|]. rewrite E, app_length in X. rewrite app_length. destruct l as [|x l]; [congruence|].
    cbn [length] in *. rewrite <- X. f_equal. lia.
Qed.

Lemma loop_mem heap : forall fuel value m segs, length value < fuel -> rep (path_of m) segs [] ->
  used m + length value <= tcap m -> within m ->
  exists l, Forall for_segments l /\ (l = [] <-> forall s, way segs (pieces value) s -> length s <= scap m) /\
    final heap m segs (pieces value) (set_loop fuel value (path_of m)) (m_loop heap fuel value m) l.
Proof.
  induction fuel as [|fuel IH]; intros value m segs Hf R B W; [lia|].
  rewrite set_loop_step, m_loop_step. pose proof (rep_length _ _ _ R) as RL.
  set (piece := firstn _ value).
  assert (X : exists rest, pieces value = piece :: rest /\ length piece <= length value /\
     match find_slash value with None => rest = [] | Some n => rest = pieces (skipn (n + 1) value) /\ n < length value /\ length piece = n end).
  { subst piece. destruct (find_slash value) as [n|] eqn:E.
    - destruct (pieces_some _ _ E) as [Ep Hn]. eexists. split; [exact Ep|]. rewrite firstn_length. split; [lia|]. split; [reflexivity|]. lia.
    - exists []. rewrite firstn_all. split; [apply pieces_none, E|]. auto. }
  destruct X as (rest & Ep & Lp & Er). clearbody piece.
  assert (NS : ~ In slash piece). { pose proof (pieces_no_slash value) as HF. rewrite Ep in HF. now inversion HF. }
  pose proof (step_mem heap m segs piece R NS ltac:(lia) W) as ST. rewrite Ep.
  destruct (apply_piece segs piece) as [s1|] eqn:A.
  2: { destruct ST as (p & junk & -> & -> & R'). exists []. split; [constructor|]. split.
       - split; [|auto]. intros _ s Hw. apply way_inv in Hw. destruct Hw as [->|(s1 & E & _)]; [unfold within in W; lia|congruence].
       - right. left. exists (with_path m p). cbn. split; [reflexivity|]. split; [reflexivity|]. split; [now rewrite app_nil_r|].
         unfold within in *. cbn. rewrite (rep_length _ _ _ R'). split; [lia|]. split; [lia|]. split; [reflexivity|]. intros [|k] q; discriminate. }
  destruct ST as (p & -> & R' & Lv & ST).
  (* after this piece *)
  assert (GO : forall m1 l1, path_of m1 = p -> asked m1 = asked m ++ l1 -> Forall for_segments l1 ->
      (forall k q, nth_error l1 k = Some q -> heap (length (asked m) + k) <> None) -> length s1 <= scap m1 -> scap m <= scap m1 -> tcap m1 = tcap m ->
      exists l, Forall for_segments l /\ (l = [] <-> forall s, way s1 rest s -> length s <= scap m1) /\
        final heap m segs (piece :: rest)
          (match find_slash value with None => POk p | Some n => set_loop fuel (skipn (n + 1) value) p end)
          (match find_slash value with None => MOk m1 | Some n => m_loop heap fuel (skipn (n + 1) value) m1 end) (l1 ++ l)).
  { intros m1 l1 Pm Em F1 G S1 S2 T1. assert (W1 : within m1) by (unfold within; rewrite Pm, (rep_length _ _ _ R'); exact S1).
    destruct (find_slash value) as [n|].
    - destruct Er as (Er & Hn & Ln).
      destruct (IH (skipn (n + 1) value) m1 s1) as (l & Fl & El & FF).
      + rewrite skipn_length. lia.
      + rewrite Pm. exact R'.
      + unfold used. rewrite Pm, skipn_length, T1. pose proof (sep_le (value_ p)). unfold used in *. lia.
      + exact W1.
      + rewrite <- Er, Pm in *. exists l. split; [exact Fl|]. split; [exact El|].
        eapply final_cons; eassumption.
    - subst rest. exists []. split; [constructor|]. split.
      + split; [|auto]. intros _ s (a & b & E & H). symmetry in E. apply app_eq_nil in E. destruct E as [-> ->]. cbn in H. injection H as <-. exact S1.
      + eapply final_cons; [exact A|exact Em|exact G|exact S2|exact T1|]. left. exists m1. rewrite Pm. split; [reflexivity|]. split; [reflexivity|].
        split; [now rewrite app_nil_r|]. split; [exact W1|]. split; [lia|]. split; [reflexivity|]. intros [|k] q; discriminate. }
  destruct ST as [[Ls ->]|[Ls ST]].
  - destruct (GO (with_path m p) []) as (l & Fl & El & FF); cbn; try reflexivity; try lia; auto; [now rewrite app_nil_r|intros [|k] q; discriminate|].
    exists l. split; [exact Fl|]. split; [|exact FF]. rewrite El. cbn [scap with_path]. split; intros H s Hw.
    + apply way_inv in Hw. destruct Hw as [->|(s2 & E & Hw)]; [unfold within in W; lia|]. apply H. congruence.
    + apply H. eauto using way_cons.
  - destruct (heap (length (asked m))) as [more|] eqn:Hh.
    + rewrite ST. cbn [mbind].
      destruct (GO (with_path (with_scap (with_asked m (Segs (length s1))) (length s1 + more)) p) [Segs (length s1)]) as (l & Fl & El & FF);
        cbn; try reflexivity; try lia; auto.
      { repeat constructor. }
      { intros [|[|k]] q Hq; cbn in Hq; try discriminate. rewrite Nat.add_0_r, Hh. discriminate. }
      exists (Segs (length s1) :: l). split; [constructor; [exact I|exact Fl]|]. split; [|exact FF].
      split; [discriminate|]. intros H. exfalso. assert (length s1 <= scap m); [|lia]. apply H. eauto using way_cons, way_start.
    + destruct ST as (q & d & Es & -> & Rq). cbn [mbind]. exists [Segs (length s1)]. split; [repeat constructor|]. split.
      * split; [discriminate|]. intros H. exfalso. assert (length s1 <= scap m); [|lia]. apply H. eauto using way_cons, way_start.
      * right. right. do 4 eexists. split; [reflexivity|]. cbn [with_asked with_path asked scap tcap path_of]. split; [reflexivity|].
        split; [apply way_start|]. split; [rewrite <- Es; eauto using way_cons, way_start|]. split; [exact Rq|].
        unfold within in *. cbn. rewrite (rep_length _ _ _ Rq). split; [lia|]. split; [lia|]. split; [reflexivity|]. split; [discriminate|].
        rewrite Nat.add_0_r. exact Hh.
Qed.
