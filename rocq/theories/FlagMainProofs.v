(** Bools in binary streams: main lemmas. *)
From Coq Require Import List NArith ZArith Arith Bool Lia.
From Verif Require Import Base BinModel BinSpec BinOrder BinProofs BinWrite BinMore FlagModel FlagSpec FlagProofs.
Import ListNotations.
Local Open Scope outcome_scope.

(** * Types that are not exposed *)

Lemma loop_same {S} (f g : S -> outcome (S * bool)) n s : (forall s, f s = g s) -> loop n f s = loop n g s.
Proof.
  intros H. rewrite !loop_nloop. revert s. induction (N.to_nat n) as [|m IH]; intros s; cbn [nloop]; [reflexivity|].
  rewrite H. destruct (g s) as [[s1 []]| |]; cbn [obind]; auto.
Qed.
Lemma bind_same {A B} (x y : outcome A) (f g : A -> outcome B) : x = y -> (forall a, f a = g a) -> obind x f = obind y g.
Proof. intros -> H. destruct y; cbn [obind]; auto. Qed.

Lemma members_same ts : Forall (fun t => forall old c, read_flags t old c = read_binary (erase t) old c) ts ->
  forall olds c, flag_members ts olds c = read_members (map erase ts) olds c.
Proof.
  induction 1 as [|t ts H _ IH]; intros [|o olds] c; cbn [flag_members read_members map]; try reflexivity.
  apply bind_same; [apply H|]. intros [c1 v]. now rewrite IH.
Qed.

Lemma unexposed_same t : ~ exposed t -> forall old c, read_flags t old c = read_binary (erase t) old c.
Proof.
  induction t as [t| |t IH|k t IHk IH|t IH|a b IHa IHb|t IH|ts IH|ts IH] using fty_induct; intros X old c; cbn [erase]; try reflexivity.
  - assert (C : ~ carries t) by (intros H; apply X; constructor; auto). assert (Y : ~ exposed t) by (intros H; apply X; constructor; auto).
    cbn [read_flags]. destruct (is_simple (erase t)) eqn:E; [reflexivity|]. cbn [read_binary]. rewrite E.
    apply bind_same; [reflexivity|]. intros [c1 n]. apply bind_same; [|reflexivity]. apply loop_same. intros [c2 l].
    apply bind_same; [now rewrite IH|]. intros [c3 v]. now rewrite not_carried.
  - assert (Ck : ~ carries k) by (intros H; apply X; apply e_key; auto). assert (Yk : ~ exposed k) by (intros H; apply X; apply e_key; auto).
    assert (C : ~ carries t) by (intros H; apply X; apply e_mapped; auto). assert (Y : ~ exposed t) by (intros H; apply X; apply e_mapped; auto).
    cbn [read_flags read_binary]. apply bind_same; [reflexivity|]. intros [c1 n]. apply bind_same; [|reflexivity]. apply loop_same. intros [c2 l].
    apply bind_same; [now rewrite IHk|]. intros [c3 x]. apply bind_same; [now rewrite IH|]. intros [c4 y]. now rewrite !not_carried.
  - assert (C : ~ carries t) by (intros H; apply X; constructor; auto). assert (Y : ~ exposed t) by (intros H; apply X; constructor; auto).
    cbn [read_flags read_binary]. apply bind_same; [reflexivity|]. intros [c1 n]. apply bind_same; [|reflexivity]. apply loop_same. intros [c2 l].
    apply bind_same; [now rewrite IH|]. intros [c3 v]. now rewrite not_carried.
  - cbn [read_flags read_binary]. destruct old; try reflexivity. destruct (err c); [reflexivity|].
    apply bind_same; [apply IHa; intros H; apply X; now apply e_first|]. intros [c1 x]. destruct (err c1); [reflexivity|].
    apply bind_same; [apply IHb; intros H; apply X; now apply e_second|]. reflexivity.
  - assert (C : ~ carries t) by (intros H; apply X; constructor; auto). assert (Y : ~ exposed t) by (intros H; apply X; constructor; auto).
    cbn [read_flags read_binary]. apply bind_same; [reflexivity|]. intros [c1 n]. destruct (negb (err c1) && _); [|reflexivity].
    apply bind_same; [now rewrite IH|]. intros [c2 v]. now rewrite not_carried.
  - cbn [read_flags read_binary]. apply bind_same; [reflexivity|]. intros [c1 n]. destruct (err c1) eqn:E1; [reflexivity|].
    pose proof (flag_visit_spec old c1 ts (N.to_nat n) 0) as F. pose proof (visit_spec old c1 (map erase ts) (N.to_nat n) 0) as B.
    rewrite E1 in F, B. rewrite F, B. rewrite nth_error_map. destruct (nth_error ts (N.to_nat n)) as [t|] eqn:N; cbn [option_map]; [|reflexivity].
    apply nth_error_In in N. rewrite Forall_forall in IH. apply bind_same.
    + apply IH; [assumption|]. intros H. apply X. apply (e_var ts t N). auto.
    + intros [c2 v]. rewrite not_carried; [reflexivity|]. intros H. apply X. apply (e_var ts t N). auto.
  - destruct old; try reflexivity. rewrite flags_rec, read_rec. apply bind_same; [|reflexivity].
    apply members_same. rewrite Forall_forall in *. intros t I. apply IH; [assumption|]. intros H. apply X. exact (e_rec ts t I H).
Qed.

(** * Exposed types *)

Definition past (c : cursor) (bs : list N) (c' : cursor) : Prop := moved c c' (pos c + N.of_nat (length bs))%N.

Lemma ahead_left c a b : ahead c (a ++ b) -> ahead c a.
Proof. intros (I & E & pre & post & B & P). repeat split; try apply I; auto. exists pre, (b ++ post). now rewrite B, <- app_assoc. Qed.
Lemma ahead_past c a b c' : ahead c (a ++ b) -> past c a c' -> ahead c' b.
Proof.
  intros (I & E & pre & post & B & P) M. assert (M' := M). destruct M' as (Mb & Mp & Me). rewrite P in Mp. split.
  - eapply moved_inside; [exact I|exact M|]. unfold size_bytes. rewrite B, P, !app_length. lia.
  - split; [assumption|]. exists (pre ++ a), post. rewrite Mb, B, Mp, app_length. split; [now rewrite <- !app_assoc | lia].
Qed.
Lemma ahead_ask c bs n : ahead c bs -> ahead (ask c n) bs.
Proof. intros H. exact H. Qed.

Lemma value_ahead t v old c : wf_ty t -> has_ty t v -> has_ty t old -> ahead c (encode t v) ->
  exists c', read_binary t old c = Ok (c', v) /\ past c (encode t v) c'.
Proof.
  intros W T O (I & E & pre & post & B & P). destruct (round_trip t W v T c pre post old I E B P O) as (c' & R & M). exists c'. split; [exact R|].
  unfold past. rewrite P. now rewrite app_length, Nat2N.inj_add in M.
Qed.
Lemma uint_ahead w n c : 1 <= w -> (n < 2 ^ (8 * N.of_nat w))%N -> ahead c (number w n) ->
  exists c', read_uint w c = Ok (c', n) /\ past c (number w n) c'.
Proof.
  intros W L (I & E & pre & post & B & P). destruct (read_uint_exact w n c pre post W L I E B P) as (c' & R & M). exists c'. split; [exact R|].
  unfold past. rewrite P. now rewrite app_length, Nat2N.inj_add in M.
Qed.

Lemma flags_ahead t v old c : wf_ty (erase t) -> has_ty (erase t) v -> has_ty (erase t) old -> ahead c (encode (erase t) v) ->
  read_flags t old c = UB \/ exists c', read_flags t old c = Ok (c', v) /\ past c (encode (erase t) v) c'.
Proof.
  intros W T O A. destruct (value_ahead _ v old c W T O A) as (c' & R & M). destruct (flags_under t old c) as [U|U]; [now left|]. right.
  rewrite U. eauto.
Qed.

(** Bytes after which an element is not there or cannot be moved. *)
Definition trap (t : fty) (bs : list N) : Prop := Forall is_octet bs /\ forall c, ahead c bs ->
  read_flags t (dflt (erase t)) c = UB \/
  exists c' v, read_flags t (dflt (erase t)) c = Ok (c', v) /\ movable t v = false /\ past c bs c'.
Definition deadly (t : fty) (bs : list N) : Prop := Forall is_octet bs /\ forall c old, has_ty (erase t) old -> ahead c bs -> read_flags t old c = UB.

Lemma trapped t : wf_ty (erase t) -> (exposed t -> exists bs, deadly t bs) -> carries t \/ exposed t -> exists bs, trap t bs.
Proof.
  intros W IH [C|X].
  - destruct (carried_forged t C W) as (v & T & M). exists (encode (erase t) v). split; [now apply encode_octets|]. intros c A.
    destruct (flags_ahead t v (dflt (erase t)) c W T (dflt_has_ty _ W) A) as [U|(c' & R & P)]; [now left|]. right. eauto.
  - destruct (IH X) as (bs & O & D). exists bs. split; [assumption|]. intros c A. left. apply D; [now apply dflt_has_ty | assumption].
Qed.

Lemma octets_app a b : Forall is_octet a -> Forall is_octet b -> Forall is_octet (a ++ b).
Proof. intros. apply Forall_app. auto. Qed.

Lemma members_deadly t bs : deadly t bs -> forall ts i, Forall wf_ty (map erase ts) -> nth_error ts i = Some t ->
  exists cs, Forall is_octet cs /\ forall c olds, members_ty (map erase ts) olds -> ahead c cs -> flag_members ts olds c = UB.
Proof.
  intros [O D]. induction ts as [|t0 ts IH]; intros [|i] W N; cbn in N; try discriminate; cbn [map] in W; inversion W as [|? ? W0 W']; subst.
  - injection N as ->. exists bs. split; [assumption|]. intros c [|o olds] M A; [contradiction|]. cbn [map members_ty] in M. destruct M as [M0 M].
    cbn [flag_members]. now rewrite D.
  - destruct (IH i W' N) as (cs & Oc & H). exists (encode (erase t0) (dflt (erase t0)) ++ cs).
    split; [apply octets_app; [apply encode_octets, dflt_has_ty|]; assumption|].
    intros c [|o olds] M A; [contradiction|]. cbn [map members_ty] in M. destruct M as [M0 M]. cbn [flag_members].
    destruct (flags_ahead t0 _ o c W0 (dflt_has_ty _ W0) M0 (ahead_left _ _ _ A)) as [U|(c' & R & P)]; [now rewrite U|].
    rewrite R. cbn [obind]. now rewrite (H c' olds M (ahead_past _ _ _ _ A P)).
Qed.

Lemma all_streamable ts : (fix all (ts : list fty) : Prop := match ts with [] => True | t :: ts' => streamable t /\ all ts' end) ts <-> Forall streamable ts.
Proof. induction ts as [|t ts IH]; [split; constructor|]. rewrite IH. split; [intros []; now constructor | inversion 1; auto]. Qed.

Lemma simple_quiet t : is_simple (erase t) = true -> carries t \/ exposed t -> t = FFlag.
Proof. destruct t; cbn; try discriminate; intros E [H|H]; inversion H; reflexivity. Qed.

Lemma exposed_deadly t : streamable t -> wf_ty (erase t) -> exposed t -> exists bs, deadly t bs.
Proof.
  induction t as [t| |t IH|k t IHk IH|t IH|a b IHa IHb|t IH|ts IH|ts IH] using fty_induct; intros St W X; cbn [erase] in W; try (inversion X; fail).
  - assert (S1 : streamable t) by (destruct t; auto; constructor). assert (Hc : carries t \/ exposed t) by (inversion X; auto).
    destruct (trapped t W (IH S1 W) Hc) as (bs & O & T).
    exists (number 4 1 ++ bs). split; [apply octets_app; [apply number_octets | assumption]|]. intros c old _ A. cbn [read_flags].
    destruct (is_simple (erase t)) eqn:E; [pose proof (simple_quiet t E Hc); subst; contradiction|].
    destruct (uint_ahead 4 1 c ltac:(lia) ltac:(reflexivity) (ahead_left _ _ _ A)) as (c1 & R1 & P1). rewrite R1. cbn [obind loop loop_pos].
    pose proof (ahead_past _ _ _ _ A P1) as A1. cbn [err ask]. assert (E1 : err c1 = false) by apply P1. rewrite E1.
    destruct (T (ask c1 1) A1) as [U|(c' & v & R & M & P)]; [now rewrite U|]. rewrite R. cbn [obind]. now rewrite M.
  - destruct St as [Sk S1]. destruct W as [Wk W1].
    assert (Hc : (carries k \/ exposed k) \/ (carries t \/ exposed t)) by (inversion X; auto).
    destruct Hc as [Hc|Hc].
    + destruct (trapped k Wk (IHk Sk Wk) Hc) as (bs & O & T). exists (number 4 1 ++ bs ++ encode (erase t) (dflt (erase t))).
      split; [apply octets_app; [apply number_octets | apply octets_app; [assumption | apply encode_octets, dflt_has_ty, W1]]|]. intros c old _ A. cbn [read_flags].
      destruct (uint_ahead 4 1 c ltac:(lia) ltac:(reflexivity) (ahead_left _ _ _ A)) as (c1 & R1 & P1). rewrite R1. cbn [obind loop loop_pos].
      pose proof (ahead_past _ _ _ _ A P1) as A1. assert (E1 : err c1 = false) by apply P1. rewrite E1.
      destruct (T c1 (ahead_left _ _ _ A1)) as [U|(c2 & v & R & M & P)]; [now rewrite U|]. rewrite R. cbn [obind].
      assert (E2 : err c2 = false) by apply P. rewrite E2.
      destruct (flags_ahead t _ _ c2 W1 (dflt_has_ty _ W1) (dflt_has_ty _ W1) (ahead_past _ _ _ _ A1 P)) as [U|(c3 & R3 & P3)]; [now rewrite U|].
      rewrite R3. cbn [obind]. now rewrite M.
    + destruct (trapped t W1 (IH S1 W1) Hc) as (bs & O & T). exists (number 4 1 ++ encode (erase k) (dflt (erase k)) ++ bs).
      split; [apply octets_app; [apply number_octets | apply octets_app; [apply encode_octets, dflt_has_ty, Wk | assumption]]|]. intros c old _ A. cbn [read_flags].
      destruct (uint_ahead 4 1 c ltac:(lia) ltac:(reflexivity) (ahead_left _ _ _ A)) as (c1 & R1 & P1). rewrite R1. cbn [obind loop loop_pos].
      pose proof (ahead_past _ _ _ _ A P1) as A1. assert (E1 : err c1 = false) by apply P1. rewrite E1.
      destruct (flags_ahead k _ _ c1 Wk (dflt_has_ty _ Wk) (dflt_has_ty _ Wk) (ahead_left _ _ _ A1)) as [U|(c2 & R2 & P2)]; [now rewrite U|].
      rewrite R2. cbn [obind]. assert (E2 : err c2 = false) by apply P2. rewrite E2.
      destruct (T c2 (ahead_past _ _ _ _ A1 P2)) as [U|(c3 & v & R & M & P)]; [now rewrite U|]. rewrite R. cbn [obind]. now rewrite M, andb_false_r.
  - assert (Hc : carries t \/ exposed t) by (inversion X; auto). destruct (trapped t W (IH St W) Hc) as (bs & O & T).
    exists (number 4 1 ++ bs). split; [apply octets_app; [apply number_octets | assumption]|]. intros c old _ A. cbn [read_flags].
    destruct (uint_ahead 4 1 c ltac:(lia) ltac:(reflexivity) (ahead_left _ _ _ A)) as (c1 & R1 & P1). rewrite R1. cbn [obind loop loop_pos].
    pose proof (ahead_past _ _ _ _ A P1) as A1. assert (E1 : err c1 = false) by apply P1. rewrite E1.
    destruct (T c1 A1) as [U|(c' & v & R & M & P)]; [now rewrite U|]. rewrite R. cbn [obind]. now rewrite M.
  - destruct St as [Sa Sb]. destruct W as [Wa Wb]. assert (Hc : exposed a \/ exposed b) by (inversion X; auto). destruct Hc as [Hc|Hc].
    + destruct (IHa Sa Wa Hc) as (bs & O & D). exists bs. split; [assumption|]. intros c old T A. destruct old as [| | | | | |x0 y0| |]; cbn [erase has_ty] in T; try contradiction.
      cbn [read_flags]. assert (E : err c = false) by apply A. rewrite E. rewrite D; [reflexivity | tauto | assumption].
    + destruct (IHb Sb Wb Hc) as (bs & O & D). exists (encode (erase a) (dflt (erase a)) ++ bs).
      split; [apply octets_app; [apply encode_octets, dflt_has_ty, Wa | assumption]|]. intros c old T A. destruct old as [| | | | | |x0 y0| |]; cbn [erase has_ty] in T; try contradiction.
      cbn [read_flags]. assert (E : err c = false) by apply A. rewrite E.
      destruct (flags_ahead a _ x0 c Wa (dflt_has_ty _ Wa) (proj1 T) (ahead_left _ _ _ A)) as [U|(c1 & R & P)]; [now rewrite U|].
      rewrite R. cbn [obind]. assert (E1 : err c1 = false) by apply P. rewrite E1. rewrite D; [reflexivity | tauto | exact (ahead_past _ _ _ _ A P)].
  - assert (Hc : carries t \/ exposed t) by (inversion X; auto). destruct (trapped t W (IH St W) Hc) as (bs & O & T).
    exists (number 1 1 ++ bs). split; [apply octets_app; [apply number_octets | assumption]|]. intros c old _ A. cbn [read_flags].
    destruct (uint_ahead 1 1 c ltac:(lia) ltac:(reflexivity) (ahead_left _ _ _ A)) as (c1 & R1 & P1). rewrite R1. cbn [obind].
    pose proof (ahead_past _ _ _ _ A P1) as A1. assert (E1 : err c1 = false) by apply P1. rewrite E1. cbn [negb andb N.eqb].
    destruct (T c1 A1) as [U|(c' & v & R & M & P)]; [now rewrite U|]. rewrite R. cbn [obind]. now rewrite M.
  - cbn [streamable] in St. apply all_streamable in St. apply wf_var in W. destruct W as [L W]. rewrite map_length in L.
    rewrite Forall_forall in IH, St, W. assert (Hc : exists t, In t ts /\ (carries t \/ exposed t)) by (inversion X; eauto). destruct Hc as (t & I & Hc).
    pose proof (W _ (in_map erase _ _ I)) as Wt. destruct (trapped t Wt (IH t I (St t I) Wt) Hc) as (bs & O & T).
    apply In_nth_error in I. destruct I as [i I]. assert (Li : i < length ts) by (apply nth_error_Some; congruence).
    exists (number 1 (N.of_nat i) ++ bs). split; [apply octets_app; [apply number_octets | assumption]|]. intros c old _ A. cbn [read_flags].
    destruct (uint_ahead 1 (N.of_nat i) c ltac:(lia) ltac:(change (2 ^ (8 * N.of_nat 1))%N with 256%N; lia) (ahead_left _ _ _ A)) as (c1 & R1 & P1).
    rewrite R1. cbn [obind]. pose proof (ahead_past _ _ _ _ A P1) as A1. assert (E1 : err c1 = false) by apply P1. rewrite E1.
    pose proof (flag_visit_spec old c1 ts (N.to_nat (N.of_nat i)) 0) as F. rewrite E1 in F. rewrite F, Nat2N.id, I.
    destruct (T c1 A1) as [U|(c' & v & R & M & P)]; [now rewrite U|]. rewrite R. cbn [obind]. assert (E2 : err c' = false) by apply P. now rewrite E2, M.
  - cbn [streamable] in St. apply all_streamable in St. apply wf_rec in W.
    rewrite Forall_forall in IH, St. assert (Hc : exists t, In t ts /\ exposed t) by (inversion X; eauto). destruct Hc as (t & I & Hc).
    assert (W' := W). rewrite Forall_forall in W'. destruct (IH t I (St t I) (W' _ (in_map erase _ _ I)) Hc) as (bs & D).
    apply In_nth_error in I. destruct I as [i I]. destruct (members_deadly t bs D ts i W I) as (cs & O & H). exists cs. split; [assumption|].
    intros c old T A. cbn [erase] in T. destruct (has_ty_rec _ _ T) as (olds & -> & M). rewrite flags_rec. now rewrite (H c olds M A).
Qed.

Lemma flagged_forged t : streamable t -> wf_ty (erase t) -> flagged t -> exists bs, Forall is_octet bs /\ forall c old,
  has_ty (erase t) old -> ahead c bs -> read_flags t old c = UB \/ exists c' v, read_flags t old c = Ok (c', v) /\ err c' = false /\ ~ proper t v.
Proof.
  intros St W [C|X].
  - destruct (carried_forged t C W) as (v & T & M). exists (encode (erase t) v). split; [now apply encode_octets|]. intros c old O A.
    destruct (flags_ahead t v old c W T O A) as [U|(c' & R & P)]; [now left|]. right. exists c', v. split; [assumption|]. split; [apply P|].
    intros H. apply proper_movable in H. congruence.
  - destruct (exposed_deadly t St W X) as (bs & O & D). exists bs. split; [assumption|]. auto.
Qed.

Lemma unflagged_proper t : ~ flagged t -> forall v, has_ty (erase t) v -> proper t v.
Proof.
  unfold flagged.
  induction t as [t| |t IH|k t IHk IH|t IH|a b IHa IHb|t IH|ts IH|ts IH] using fty_induct; intros F v T; cbn [erase] in T.
  - constructor.
  - exfalso. apply F. left. constructor.
  - destruct v; cbn [has_ty] in T; try contradiction. constructor. intros v I. destruct T as [T _]. rewrite Forall_forall in T.
    apply IH; [|auto]. intros H. apply F. right. now constructor.
  - destruct v; cbn [has_ty] in T; try contradiction. constructor. intros x y I. destruct T as [T _]. rewrite Forall_forall in T. specialize (T _ I).
    cbn [fst snd] in T. split; [apply IHk | apply IH]; try apply T; intros H; apply F; right; [now apply e_key | now apply e_mapped].
  - destruct v; cbn [has_ty] in T; try contradiction. constructor. intros v I. destruct T as [T _]. rewrite Forall_forall in T.
    apply IH; [|auto]. intros H. apply F. right. now constructor.
  - destruct v; cbn [has_ty] in T; try contradiction. constructor; [apply IHa | apply IHb]; try apply T; intros [H|H]; apply F.
    + left. now apply c_first. + right. now apply e_first. + left. now apply c_second. + right. now apply e_second.
  - destruct v as [| | | | | | |[v|]|]; cbn [has_ty] in T; try contradiction; constructor. apply IH; [|assumption]. intros H. apply F. right. now constructor.
  - destruct v; cbn [has_ty] in T; try contradiction. rewrite pick_ty, nth_error_map in T. destruct (nth_error ts i) as [t|] eqn:E; [|contradiction].
    cbn [option_map] in T. apply (p_var ts i t v E). apply nth_error_In in E. rewrite Forall_forall in IH. apply IH; [assumption| |assumption].
    intros H. apply F. right. exact (e_var ts t E H).
  - destruct (has_ty_rec _ _ T) as (vs & -> & M). constructor. clear T. rewrite Forall_forall in IH.
    assert (G : forall us, (forall t, In t us -> In t ts) -> forall vs, members_ty (map erase us) vs -> Forall2 proper us vs).
    { induction us as [|u us IHu]; intros Hin [|x xs] Mx; cbn [map members_ty] in Mx; try contradiction; constructor.
      - apply IH; [apply Hin; now left| |tauto]. intros [H|H]; apply F; [left; exact (c_rec ts u (Hin u (or_introl eq_refl)) H) | right; exact (e_rec ts u (Hin u (or_introl eq_refl)) H)].
      - apply IHu; [|tauto]. intros t I. apply Hin. now right. }
    now apply G.
Qed.
