(** Bools in binary streams: what is written is read. *)
From Coq Require Import List NArith ZArith Arith Bool Lia.
From Verif Require Import Base BinModel BinSpec BinOrder BinProofs BinWrite BinMore FlagModel FlagSpec FlagProofs FlagMainProofs.
Import ListNotations.
Local Open Scope outcome_scope.

Definition readable (t : fty) : Prop := forall v old c, wf_ty (erase t) -> has_ty (erase t) v -> has_ty (erase t) old -> proper t v ->
  ahead c (encode (erase t) v) -> read_flags t old c <> UB.

Lemma element_read t v c : readable t -> wf_ty (erase t) -> has_ty (erase t) v -> proper t v -> ahead c (encode (erase t) v) ->
  exists c', (if err c then Ok (c, dflt (erase t)) else read_flags t (dflt (erase t)) c) = Ok (c', v) /\ past c (encode (erase t) v) c'.
Proof.
  intros R W T P A. assert (E : err c = false) by apply A. rewrite E.
  destruct (flags_ahead t v _ c W T (dflt_has_ty _ W) A) as [U|H]; [|exact H]. exfalso. exact (R v _ c W T (dflt_has_ty _ W) P A U).
Qed.

Lemma loop_ahead {A R} (body : cursor * R -> outcome (cursor * R * bool)) (add : R -> A -> R) (enc : A -> list N) (l : list A) acc c :
  (forall x acc c, In x l -> ahead c (enc x) -> exists c', body (c, acc) = Ok (c', add acc x, false) /\ past c (enc x) c') ->
  ahead c (concat (map enc l)) -> loop (N.of_nat (length l)) body (c, acc) <> UB.
Proof.
  intros H (I & E & pre & post & B & P). rewrite loop_nloop, Nat2N.id.
  destruct (loop_items body add enc post l acc c pre) as (c' & L & _); auto; [|rewrite L; discriminate].
  intros x acc' c0 pre0 post0 Hx I0 E0 B0 P0.
  destruct (H x acc' c0 Hx) as (c' & L & M); [repeat split; try apply I0; eauto|]. exists c'. split; [assumption|].
  unfold past in M. rewrite P0 in M. now rewrite app_length, Nat2N.inj_add.
Qed.

Lemma bind_ub {A B} (x : outcome A) (f : A -> outcome B) : x <> UB -> (forall a, f a <> UB) -> obind x f <> UB.
Proof. intros X F. destruct x; cbn [obind]; [apply F | discriminate | contradiction]. Qed.

Lemma members_read ts : Forall readable ts -> forall vs olds c, Forall wf_ty (map erase ts) -> members_ty (map erase ts) vs ->
  members_ty (map erase ts) olds -> Forall2 proper ts vs -> ahead c (encode_members (map erase ts) vs) -> flag_members ts olds c <> UB.
Proof.
  induction 1 as [|t ts H _ IH]; intros [|v vs] [|o olds] c W M O P A; cbn [map members_ty] in *; try contradiction; [discriminate|].
  cbn [map encode_members] in A. inversion W; subst. inversion P; subst. cbn [flag_members].
  destruct (flags_ahead t v o c) as [U|(c1 & R & Q)]; auto; try tauto.
  - apply (ahead_left _ _ _ A).
  - exfalso. exact (H v o c ltac:(assumption) (proj1 M) (proj1 O) ltac:(assumption) (ahead_left _ _ _ A) U).
  - rewrite R. cbn [obind]. apply bind_ub; [|intros []; discriminate]. apply (IH vs olds c1); try tauto. exact (ahead_past _ _ _ _ A Q).
Qed.

Lemma proper_read t : readable t.
Proof.
  induction t as [t| |t IH|k t IHk IH|t IH|a b IHa IHb|t IH|ts IH|ts IH] using fty_induct; intros v old c W T O P A.
  - cbn [read_flags]. destruct (value_ahead t v old c W T O A) as (c' & R & _). rewrite R. discriminate.
  - destruct (value_ahead _ v old c W T O A) as (c' & R & _). change (read_binary (erase FFlag) old c <> UB). rewrite R. discriminate.
  - inversion P as [| | |? l Pl| | | | | | |]; subst. cbn [erase has_ty encode wf_ty] in *. destruct T as [T L]. rewrite Forall_forall in T.
    cbn [read_flags]. destruct (is_simple (erase t)) eqn:E.
    { destruct (value_ahead (TVec (erase t)) (VSeq l) old c W) as (c' & R & _); auto; [split; [now apply Forall_forall|assumption]|]. rewrite R. discriminate. }
    destruct (uint_ahead 4 (N.of_nat (length l)) c ltac:(lia) (fits_bound _ L) (ahead_left _ _ _ A)) as (c1 & R1 & P1). rewrite R1. cbn [obind].
    apply bind_ub; [|intros []; discriminate]. apply (loop_ahead _ (fun m x => m ++ [x]) (encode (erase t))).
    + intros x acc c0 I A0. destruct (element_read t x c0 IH W (T x I) (Pl x I) A0) as (c' & R & Q). exists c'. rewrite R. cbn [obind].
      rewrite (proper_movable t x (Pl x I)). assert (E' : err c' = false) by apply Q. rewrite E'. auto.
    + apply ahead_ask. exact (ahead_past _ _ _ _ A P1).
  - inversion P as [| | | |? ? l Pl| | | | | |]; subst. cbn [erase has_ty encode wf_ty] in *. destruct T as (T & _ & L). rewrite Forall_forall in T. destruct W as [Wk W].
    cbn [read_flags]. destruct (uint_ahead 4 (N.of_nat (length l)) c ltac:(lia) (fits_bound _ L) (ahead_left _ _ _ A)) as (c1 & R1 & P1). rewrite R1. cbn [obind].
    apply bind_ub; [|intros []; discriminate].
    apply (loop_ahead _ (fun m kv => map_insert m (fst kv) (snd kv)) (fun kv => encode (erase k) (fst kv) ++ encode (erase t) (snd kv))).
    + intros [x y] acc c0 I A0. cbn [fst snd] in *. destruct (Pl x y I) as [Px Py]. destruct (T _ I) as [Tx Ty]. cbn [fst snd] in *.
      destruct (element_read k x c0 IHk Wk Tx Px (ahead_left _ _ _ A0)) as (c' & R & Q). rewrite R. cbn [obind].
      destruct (element_read t y c' IH W Ty Py (ahead_past _ _ _ _ A0 Q)) as (c2 & R2 & Q2). rewrite R2. cbn [obind].
      rewrite (proper_movable k x Px), (proper_movable t y Py). cbn [andb]. assert (E' : err c2 = false) by apply Q2. rewrite E'.
      exists c2. split; [reflexivity|]. destruct Q as (Q1 & Q3 & Q4). destruct Q2 as (Q5 & Q6 & Q7). repeat split; try congruence.
      rewrite Q6, Q3, app_length. lia.
    + exact (ahead_past _ _ _ _ A P1).
  - inversion P as [| | | | |? l Pl| | | | |]; subst. cbn [erase has_ty encode wf_ty] in *. destruct T as (T & _ & L). rewrite Forall_forall in T.
    cbn [read_flags]. destruct (uint_ahead 4 (N.of_nat (length l)) c ltac:(lia) (fits_bound _ L) (ahead_left _ _ _ A)) as (c1 & R1 & P1). rewrite R1. cbn [obind].
    apply bind_ub; [|intros []; discriminate]. apply (loop_ahead _ set_insert (encode (erase t))).
    + intros x acc c0 I A0. destruct (element_read t x c0 IH W (T x I) (Pl x I) A0) as (c' & R & Q). exists c'. rewrite R. cbn [obind].
      rewrite (proper_movable t x (Pl x I)). assert (E' : err c' = false) by apply Q. rewrite E'. auto.
    + exact (ahead_past _ _ _ _ A P1).
  - inversion P as [| | | | | |? ? x y Px Py| | | |]; subst. cbn [erase has_ty encode wf_ty] in *. destruct old as [| | | | | |x0 y0| |]; try contradiction.
    cbn [read_flags]. assert (E : err c = false) by apply A. rewrite E. destruct W as [Wa Wb]. destruct T as [Ta Tb]. destruct O as [Oa Ob].
    destruct (flags_ahead a x x0 c Wa Ta Oa (ahead_left _ _ _ A)) as [U|(c1 & R & Q)].
    { exfalso. exact (IHa x x0 c Wa Ta Oa Px (ahead_left _ _ _ A) U). }
    rewrite R. cbn [obind]. assert (E1 : err c1 = false) by apply Q. rewrite E1. apply bind_ub; [|intros []; discriminate].
    exact (IHb y y0 c1 Wb Tb Ob Py (ahead_past _ _ _ _ A Q)).
  - inversion P as [| | | | | | | |? x Px| |]; subst; cbn [erase has_ty encode wf_ty] in *; cbn [read_flags].
    + change [0%N] with (number 1 0) in A. destruct (uint_ahead 1 0 c ltac:(lia) ltac:(reflexivity) A) as (c1 & R1 & P1). rewrite R1. cbn [obind].
      rewrite andb_false_r. discriminate.
    + change (1%N :: encode (erase t) x) with (number 1 1 ++ encode (erase t) x) in A.
      destruct (uint_ahead 1 1 c ltac:(lia) ltac:(reflexivity) (ahead_left _ _ _ A)) as (c1 & R1 & P1). rewrite R1. cbn [obind].
      assert (E1 : err c1 = false) by apply P1. rewrite E1. cbn [negb andb N.eqb].
      destruct (element_read t x c1 IH W T Px (ahead_past _ _ _ _ A P1)) as (c' & R & Q). rewrite E1 in R. rewrite R. cbn [obind].
      rewrite (proper_movable t x Px). discriminate.
  - inversion P as [| | | | | | | | |? i t x N Px|]; subst. cbn [erase has_ty encode] in *. apply wf_var in W. destruct W as [L W]. rewrite map_length in L.
    rewrite pick_ty, nth_error_map, N in T. rewrite pick_ty, nth_error_map, N in A. cbn [option_map] in *.
    assert (Li : i < length ts) by (apply nth_error_Some; congruence). rewrite Forall_forall in IH, W. assert (I := nth_error_In _ _ N).
    pose proof (W _ (in_map erase _ _ I)) as Wt. cbn [read_flags].
    destruct (uint_ahead 1 (N.of_nat i) c ltac:(lia) ltac:(change (2 ^ (8 * N.of_nat 1))%N with 256%N; lia) (ahead_left _ _ _ A)) as (c1 & R1 & P1).
    rewrite R1. cbn [obind]. assert (E1 : err c1 = false) by apply P1. rewrite E1.
    pose proof (flag_visit_spec old c1 ts (N.to_nat (N.of_nat i)) 0) as F. rewrite E1 in F. rewrite F, Nat2N.id, N.
    destruct (element_read t x c1 (IH t I) Wt T Px (ahead_past _ _ _ _ A P1)) as (c' & R & Q). rewrite E1 in R. rewrite R. cbn [obind].
    assert (E' : err c' = false) by apply Q. rewrite E', (proper_movable t x Px). discriminate.
  - cbn [erase] in *. destruct (has_ty_rec _ _ T) as (vs & -> & M). destruct (has_ty_rec _ _ O) as (olds & -> & Mo).
    inversion P; subst. rewrite flags_rec. apply bind_ub; [|intros []; discriminate]. rewrite encode_rec in A.
    apply (members_read ts IH vs olds c); auto. now apply wf_rec.
Qed.

Lemma proper_round_trip t v old c : wf_ty (erase t) -> has_ty (erase t) v -> has_ty (erase t) old -> proper t v -> ahead c (encode (erase t) v) ->
  exists c', read_flags t old c = Ok (c', v) /\ err c' = false /\ buf c' = buf c /\ pos c' = (pos c + N.of_nat (length (encode (erase t) v)))%N.
Proof.
  intros W T O P A. destruct (flags_ahead t v old c W T O A) as [U|(c' & R & Q)].
  - exfalso. exact (proper_read t v old c W T O P A U).
  - exists c'. destruct Q as (Q1 & Q2 & Q3). auto.
Qed.

(** Types whose reading is always defined. *)
Lemma defined_reading t : streamable t -> wf_ty (erase t) ->
  (exposed t -> exists bs, Forall is_octet bs /\ forall c old, has_ty (erase t) old -> ahead c bs -> read_flags t old c = UB) /\
  (~ exposed t -> forall old c, inside c -> has_ty (erase t) old ->
     exists c' v, read_flags t old c = Ok (c', v) /\ read_binary (erase t) old c = Ok (c', v)).
Proof.
  intros St W. split; [exact (exposed_deadly t St W)|]. intros X old c I O. rewrite (unexposed_same t X).
  destruct (typed_lemma (erase t) old c W O I) as (c' & v & R & _). eauto.
Qed.

(** Types whose values are always proper. *)
Lemma proper_reading t : streamable t -> wf_ty (erase t) ->
  (flagged t -> exists bs, Forall is_octet bs /\ forall c old, has_ty (erase t) old -> ahead c bs ->
     read_flags t old c = UB \/ exists c' v, read_flags t old c = Ok (c', v) /\ err c' = false /\ ~ proper t v) /\
  (~ flagged t -> forall old c, inside c -> has_ty (erase t) old -> exists c' v, read_flags t old c = Ok (c', v) /\ proper t v).
Proof.
  intros St W. split; [exact (flagged_forged t St W)|]. intros F old c I O. rewrite (unexposed_same t) by (intros X; apply F; now right).
  destruct (typed_lemma (erase t) old c W O I) as (c' & v & R & T). exists c', v. split; [assumption|]. exact (unflagged_proper t F v T).
Qed.
