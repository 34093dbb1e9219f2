(** User code of any kind: cursors stay inside and errors stay. *)
From Coq Require Import List NArith ZArith Arith Bool Lia ZifyBool ZifyNat ZifyN.
From Verif Require Import Base BinModel BinSpec BinOrder BinProofs BinSafety BinWrite BinGrammar AdaptModel AdaptSpec.
Import ListNotations.
Local Open Scope outcome_scope.
Arguments N.add : simpl never.
Arguments N.mul : simpl never.

Section uty_induction.
  Variable P : uty -> Prop.
  Variable Q : prog -> Prop.
  Hypothesis HStd : forall t, P (UStd t).
  Hypothesis HVec : forall t, P t -> P (UVec t).
  Hypothesis HMap : forall k t, P k -> P t -> P (UMap k t).
  Hypothesis HSet : forall t, P t -> P (USet t).
  Hypothesis HPair : forall a b, P a -> P b -> P (UPair a b).
  Hypothesis HOpt : forall t, P t -> P (UOpt t).
  Hypothesis HVar : forall ts, Forall P ts -> P (UVar ts).
  Hypothesis HUser : forall v rd wr, (forall old, Q (rd old)) -> P (UUser v rd wr).
  Hypothesis HRet : forall v, Q (PRet v).
  Hypothesis HThrow : forall v, Q (PThrow v).
  Hypothesis HLook : forall k, (forall e l n, Q (k e l n)) -> Q (PLook k).
  Hypothesis HNotify : forall k, Q k -> Q (PNotify k).
  Hypothesis HSkip : forall off k, Q k -> Q (PSkip off k).
  Hypothesis HSpan : forall n mv k, (forall bs, Q (k bs)) -> Q (PSpan n mv k).
  Hypothesis HPeek : forall n k, (forall r, Q (k r)) -> Q (PPeek n k).
  Hypothesis HRaw : forall n k, (forall r, Q (k r)) -> Q (PRaw n k).
  Hypothesis HExtract : forall t old k h, P t -> (forall v, Q (k v)) -> (forall v, Q (h v)) -> Q (PExtract t old k h).
  Hypothesis HRead : forall t old k h, P t -> (forall v b, Q (k v b)) -> (forall v, Q (h v)) -> Q (PRead t old k h).
  Fixpoint uty_induct (t : uty) : P t :=
    match t with
    | UStd t => HStd t
    | UVec t => HVec t (uty_induct t)
    | UMap k t => HMap k t (uty_induct k) (uty_induct t)
    | USet t => HSet t (uty_induct t)
    | UPair a b => HPair a b (uty_induct a) (uty_induct b)
    | UOpt t => HOpt t (uty_induct t)
    | UVar ts => HVar ts ((fix go ts : Forall P ts :=
        match ts with [] => Forall_nil _ | t :: ts' => Forall_cons t (uty_induct t) (go ts') end) ts)
    | UUser v rd wr => HUser v rd wr (fun old => prog_induct (rd old))
    end
  with prog_induct (p : prog) : Q p :=
    match p with
    | PRet v => HRet v
    | PThrow v => HThrow v
    | PLook k => HLook k (fun e l n => prog_induct (k e l n))
    | PNotify k => HNotify k (prog_induct k)
    | PSkip off k => HSkip off k (prog_induct k)
    | PSpan n mv k => HSpan n mv k (fun bs => prog_induct (k bs))
    | PPeek n k => HPeek n k (fun r => prog_induct (k r))
    | PRaw n k => HRaw n k (fun r => prog_induct (k r))
    | PExtract t old k h => HExtract t old k h (uty_induct t) (fun v => prog_induct (k v)) (fun v => prog_induct (h v))
    | PRead t old k h => HRead t old k h (uty_induct t) (fun v b => prog_induct (k v b)) (fun v => prog_induct (h v))
    end.
End uty_induction.

(** From [c] to [c']. *)
Definition kept (c c' : cursor) : Prop :=
  inside c' /\ buf c' = buf c /\ (err c = true -> err c' = true /\ pos c' = pos c).

Lemma kept_refl c : inside c -> kept c c.
Proof. intros H. split; [assumption|]. auto. Qed.

Lemma kept_trans a b c : kept a b -> kept b c -> kept a c.
Proof.
  intros (I1 & B1 & E1) (I2 & B2 & E2). split; [assumption|]. split; [congruence|].
  intros He. destruct (E1 He) as [He1 Hp1]. destruct (E2 He1). split; congruence.
Qed.

Lemma step_kept c c' : step_ok c c' -> kept c c'.
Proof. intros (I & B & _ & S). split; auto. Qed.

Lemma kept_notify c : inside c -> kept c (notify_error c).
Proof. intros H. apply step_kept. now apply step_ok_notify. Qed.

Lemma kept_ask c n : inside c -> kept c (ask c n).
Proof. intros H. apply step_kept. now apply step_ok_ask. Qed.

Lemma ends_trans {A} c c1 (r : ending A) : kept c c1 -> ends_with (kept c1) r -> ends_with (kept c) r.
Proof. intros H. destruct r; cbn; try contradiction; apply kept_trans; assumption. Qed.

Lemma std_kept t old c : wf_ty t -> overwritten t -> inside c -> ends_with (kept c) (ended (read_binary t old c)).
Proof.
  intros Hw Ho Hi.
  assert (H : exists old', has_ty t old' /\ match read_binary t old c, read_binary t old' c with
     | Ok (c1, _), Ok (c2, _) => c1 = c2 | UB, UB => True | Throws, Throws => True | _, _ => False end).
  { exists (dflt t). split; [now apply dflt_has_ty|].
    destruct t; cbn [overwritten] in Ho; try contradiction; cbn [read_binary].
    1,2: unfold read_raw; destruct (read_impl c _) as [[c1 [bs|]]| |]; cbn; auto.
    all: match goal with |- match ?x with _ => _ end => destruct x as [[? ?]| |] end; auto. }
  destruct H as (old' & Hty & H). destruct (read_safe t Hw old' c Hi Hty) as (c' & v & E & (S & _)).
  rewrite E in H. destruct (read_binary t old c) as [[c1 v1]| |]; try contradiction. subst c1. cbn. now apply step_kept.
Qed.

Lemma fresh_kept rd d c : (forall old c, inside c -> ends_with (kept c) (rd old c)) -> inside c ->
  ends_with (kept c) (read_fresh rd d c).
Proof. intros H Hi. unfold read_fresh. destruct (err c); [now apply kept_refl|now apply H]. Qed.

Lemma fill_kept {R} none (item : R -> cursor -> ending R) :
  (forall r c, inside c -> ends_with (kept c) (item r c)) ->
  forall n c r, inside c -> exists c' r' th st, nloop n (fill none item) (c, r, false) = Ok (c', r', th, st) /\ kept c c'.
Proof.
  intros Hit n. induction n as [|n IH]; intros c r Hi; cbn [nloop].
  - exists c, r, false, false. split; [reflexivity|]. now apply kept_refl.
  - unfold fill at 1. cbn [fst snd]. specialize (Hit r c Hi). destruct (item r c) as [c1 r1|c1 r1|]; cbn [ends_with] in Hit; [| |contradiction].
    + destruct (err c1); cbn [obind].
      * eexists _, _, _, _. split; [reflexivity|assumption].
      * destruct (IH c1 r1 (proj1 Hit)) as (c2 & r2 & th & st & E & K). rewrite E.
        eexists _, _, _, _. split; [reflexivity|]. eapply kept_trans; eauto.
    + cbn [obind]. eexists _, _, _, _. split; [reflexivity|assumption].
Qed.

Lemma filled_kept {R} none wrap (item : R -> cursor -> ending R) size c r :
  (forall r c, inside c -> ends_with (kept c) (item r c)) -> inside c ->
  ends_with (kept c) (filled wrap (loop size (fill none item) (c, r, false))).
Proof.
  intros Hit Hi. rewrite loop_nloop. destruct (fill_kept none item Hit (N.to_nat size) c r Hi) as (c' & r' & th & st & E & K).
  rewrite E. cbn. destruct th; exact K.
Qed.

Lemma uint_cases w c : 1 <= w -> inside c -> exists c1 n, read_uint w c = Ok (c1, n) /\ kept c c1 /\ (err c1 = true -> n = 0%N).
Proof. intros Hw Hi. destruct (read_uint_ok w c Hw Hi) as (c1 & n & E & S & Z & _). exists c1, n. split; [assumption|]. split; [now apply step_kept|assumption]. Qed.

Lemma careful_var ts : careful (UVar ts) -> Forall careful ts.
Proof. cbn. intros [_ H]. induction ts as [|t ts IH]; constructor; [apply H|apply IH, H]. Qed.

Lemma visit_user (old : val) (c1 : cursor) : forall ts index k,
  (fix visit (ts : list uty) (index k : nat) : ending val :=
     match ts with
     | [] => Done (notify_error c1) old
     | head :: tail =>
         match index with
         | O =>
             match read_fresh (uread head) (fresh_of head) c1 with
             | Done c2 v => if err c2 then Done c2 old else Done c2 (VVar k v)
             | Threw c2 _ => Threw c2 old
             | Undef => Undef
             end
         | S index' => visit tail index' (S k)
         end
     end) ts index k =
  match nth_error ts index with
  | None => Done (notify_error c1) old
  | Some head =>
      match read_fresh (uread head) (fresh_of head) c1 with
      | Done c2 v => if err c2 then Done c2 old else Done c2 (VVar (k + index) v)
      | Threw c2 _ => Threw c2 old
      | Undef => Undef
      end
  end.
Proof.
  induction ts as [|t ts IH]; intros [|i] k; cbn; auto.
  - now rewrite Nat.add_0_r.
  - rewrite IH. now replace (S k + i) with (k + S i) by lia.
Qed.

Lemma push_kept rd vec c : ends_with (kept c) (rd c) -> ends_with (kept c) (push_item rd vec c).
Proof. unfold push_item. destruct (rd c); auto. Qed.

Lemma set_kept rd m c : ends_with (kept c) (rd c) -> ends_with (kept c) (set_item rd m c).
Proof. unfold set_item. destruct (rd c); auto. Qed.

Lemma map_kept rk rv m c : ends_with (kept c) (rk c) -> (forall c, inside c -> ends_with (kept c) (rv c)) ->
  ends_with (kept c) (map_item rk rv m c).
Proof.
  unfold map_item. intros H1 H2. destruct (rk c) as [c1 k|c1 k|]; auto. cbn in H1.
  apply (ends_trans c c1); [exact H1|]. specialize (H2 c1 (proj1 H1)). destruct (rv c1); auto.
Qed.

Definition tame_type (t : uty) : Prop := careful t -> forall old c, inside c -> ends_with (kept c) (uread t old c).
Definition tame_prog (p : prog) : Prop := careful_reader p -> forall c, inside c -> ends_with (kept c) (run p c).

Lemma peek_impl_ok c n : inside c -> exists r, peek_impl c n = Ok r.
Proof.
  intros Hi. destruct (read_impl_ok c n Hi) as (c' & r & E & _). unfold read_impl in E.
  destruct (peek_impl c n) as [x| |]; cbn in E; try discriminate. eauto.
Qed.

Lemma all_tame : (forall t, tame_type t) /\ (forall p, tame_prog p).
Proof.
  assert (CStd : forall t, tame_type (UStd t)).
  { intros t [Hw Ho] old c Hi. now apply std_kept. }
  assert (CVec : forall t, tame_type t -> tame_type (UVec t)).
  { intros t IH Hc old c Hi. cbn [uread]. destruct (at_once t) as [t0|] eqn:Ea.
    - destruct t; cbn in Ea; try discriminate. destruct (is_simple t) eqn:Es; try discriminate. injection Ea as ->.
      apply std_kept; auto; [exact (proj1 Hc)|exact I].
    - destruct (uint_cases 4 c ltac:(lia) Hi) as (c1 & n & E & K & _). rewrite E.
      apply (ends_trans c c1); [exact K|]. apply (ends_trans c1 (ask c1 n)); [apply kept_ask, K|].
      apply filled_kept; [|apply K]. intros r c0 Hi0. apply push_kept. apply fresh_kept; [exact (IH Hc)|assumption]. }
  assert (CMap : forall k t, tame_type k -> tame_type t -> tame_type (UMap k t)).
  { intros k t IHk IH [Hk Ht] old c Hi. cbn [uread].
    destruct (uint_cases 4 c ltac:(lia) Hi) as (c1 & n & E & K & _). rewrite E.
    apply (ends_trans c c1); [exact K|]. apply filled_kept; [|apply K]. intros r c0 Hi0. apply map_kept.
    - apply fresh_kept; [exact (IHk Hk)|assumption].
    - intros c2 Hi2. apply fresh_kept; [exact (IH Ht)|assumption]. }
  assert (CSet : forall t, tame_type t -> tame_type (USet t)).
  { intros t IH Hc old c Hi. cbn [uread].
    destruct (uint_cases 4 c ltac:(lia) Hi) as (c1 & n & E & K & _). rewrite E.
    apply (ends_trans c c1); [exact K|]. apply filled_kept; [|apply K]. intros r c0 Hi0. apply set_kept.
    apply fresh_kept; [exact (IH Hc)|assumption]. }
  assert (CPair : forall a b, tame_type a -> tame_type b -> tame_type (UPair a b)).
  { intros a b IHa IHb [Ha Hb] old c Hi. cbn [uread]. destruct (err c); [now apply kept_refl|].
    destruct (match old with VPair x y => (x, y) | _ => (fresh_of a, fresh_of b) end) as [x y].
    pose proof (IHa Ha x c Hi) as H1. destruct (uread a x c) as [c1 a1|c1 a1|]; auto. cbn in H1.
    destruct (err c1); [exact H1|]. pose proof (IHb Hb y c1 (proj1 H1)) as H2.
    apply (ends_trans c c1); [exact H1|]. destruct (uread b y c1); auto. }
  assert (COpt : forall t, tame_type t -> tame_type (UOpt t)).
  { intros t IH Hc old c Hi. cbn [uread].
    destruct (uint_cases 1 c ltac:(lia) Hi) as (c1 & n & E & K & _). rewrite E.
    destruct (negb (err c1) && negb (n =? 0)%N)%bool; [|exact K].
    apply (ends_trans c c1); [exact K|].
    pose proof (fresh_kept (uread t) (fresh_of t) c1 (IH Hc) (proj1 K)) as H.
    destruct (read_fresh (uread t) (fresh_of t) c1); auto. }
  assert (CVar : forall ts, Forall tame_type ts -> tame_type (UVar ts)).
  { intros ts IH Hc old c Hi. pose proof (careful_var ts Hc) as Hcs. cbn [uread].
    destruct (uint_cases 1 c ltac:(lia) Hi) as (c1 & n & E & K & _). rewrite E.
    destruct (err c1) eqn:Ec1; [exact K|]. rewrite visit_user.
    destruct (nth_error ts (N.to_nat n)) as [t|] eqn:Et; [|apply (kept_trans c c1); [exact K|apply kept_notify, K]].
    pose proof (nth_error_In _ _ Et) as Hin. rewrite Forall_forall in IH, Hcs.
    pose proof (fresh_kept (uread t) (fresh_of t) c1 (IH t Hin (Hcs t Hin)) (proj1 K)) as H.
    apply (ends_trans c c1); [exact K|].
    destruct (read_fresh (uread t) (fresh_of t) c1) as [c2 v|c2 v|]; auto. destruct (err c2); exact H. }
  assert (CUser : forall v rd wr, (forall old, tame_prog (rd old)) -> tame_type (UUser v rd wr)).
  { intros v rd wr IH Hc old c Hi. cbn [uread]. apply (IH old); [apply Hc|assumption]. }
  assert (PR : forall v, tame_prog (PRet v)) by (intros v _ c Hi; now apply kept_refl).
  assert (PT : forall v, tame_prog (PThrow v)) by (intros v _ c Hi; now apply kept_refl).
  assert (PL : forall k, (forall e l n, tame_prog (k e l n)) -> tame_prog (PLook k)).
  { intros k IH Hc c Hi. cbn [run]. apply IH; [apply Hc|assumption]. }
  assert (PN : forall k, tame_prog k -> tame_prog (PNotify k)).
  { intros k IH Hc c Hi. cbn [run]. apply (ends_trans c (notify_error c)); [now apply kept_notify|]. apply IH; auto. }
  assert (PS : forall off k, tame_prog k -> tame_prog (PSkip off k)).
  { intros off k IH [Ho Hc] c Hi. cbn [run]. destruct (skip_spec c off Hi Ho) as (c1 & E & I1 & B1 & H). rewrite E.
    apply (ends_trans c c1); [|now apply IH]. split; [assumption|]. split; [assumption|]. intros He. rewrite He in H. exact H. }
  assert (PSp : forall n mv k, (forall bs, tame_prog (k bs)) -> tame_prog (PSpan n mv k)).
  { intros n mv k IH Hc c Hi. cbn [run]. destruct (span_spec c n mv Hi) as (c1 & bs & E & S & _). rewrite E.
    apply (ends_trans c c1); [now apply step_kept|]. apply IH; [apply Hc|apply S]. }
  assert (PP : forall n k, (forall r, tame_prog (k r)) -> tame_prog (PPeek n k)).
  { intros n k IH Hc c Hi. cbn [run]. destruct (peek_impl_ok c n Hi) as [r E]. rewrite E. apply IH; [apply Hc|assumption]. }
  assert (PW : forall n k, (forall r, tame_prog (k r)) -> tame_prog (PRaw n k)).
  { intros n k IH Hc c Hi. cbn [run]. destruct (read_impl_ok c n Hi) as (c1 & r & E & S & _). rewrite E.
    apply (ends_trans c c1); [now apply step_kept|]. apply IH; [apply Hc|apply S]. }
  assert (PE : forall t old k h, tame_type t -> (forall v, tame_prog (k v)) -> (forall v, tame_prog (h v)) -> tame_prog (PExtract t old k h)).
  { intros t old k h IHt IHk IHh (Ht & Hk & Hh) c Hi. cbn [run]. pose proof (IHt Ht old c Hi) as H.
    destruct (uread t old c) as [c1 v|c1 v|]; auto; (apply (ends_trans c c1); [exact H|]); [apply IHk|apply IHh]; auto; apply H. }
  assert (PRd : forall t old k h, tame_type t -> (forall v b, tame_prog (k v b)) -> (forall v, tame_prog (h v)) -> tame_prog (PRead t old k h)).
  { intros t old k h IHt IHk IHh (Ht & Hk & Hh) c Hi. cbn [run]. destruct (err c); [now apply IHk|].
    pose proof (IHt Ht old c Hi) as H.
    destruct (uread t old c) as [c1 v|c1 v|]; auto; (apply (ends_trans c c1); [exact H|]); [apply IHk|apply IHh]; auto; apply H. }
  split.
  - exact (uty_induct tame_type tame_prog CStd CVec CMap CSet CPair COpt CVar CUser PR PT PL PN PS PSp PP PW PE PRd).
  - exact (prog_induct tame_type tame_prog CStd CVec CMap CSet CPair COpt CVar CUser PR PT PL PN PS PSp PP PW PE PRd).
Qed.

Lemma any_reader_lemma t old c : careful t -> inside c ->
  ends_with (fun c' => inside c' /\ buf c' = buf c /\ (err c = true -> err c' = true /\ pos c' = pos c)) (uread t old c).
Proof. intros Hc Hi. exact (proj1 all_tame t Hc old c Hi). Qed.

(* ---------- containers, element by element ---------- *)

Lemma fill_exact {R A} none (item : R -> cursor -> ending R) (mk : cursor -> A -> cursor -> Prop)
  (thr : cursor -> cursor -> Prop) (add : R -> A -> R) :
  (forall r c, inside c -> err c = false ->
     match item r c with
     | Done c' r' => inside c' /\ (err c' = false -> exists a, mk c a c' /\ r' = add r a)
     | Threw c' _ => thr c c'
     | Undef => False
     end) ->
  forall n c r, inside c -> err c = false ->
  exists c' r' th st, nloop n (fill none item) (c, r, false) = Ok (c', r', th, st) /\
    if th : bool then exists items c2, in_turn mk c items c2 /\ length items < n /\ thr c2 c' /\ r' = fold_left add items r
    else if err c' then r' = none
    else exists items, in_turn mk c items c' /\ length items = n /\ r' = fold_left add items r.
Proof.
  intros Hit n. induction n as [|n IH]; intros c r Hi He; cbn [nloop].
  - exists c, r, false, false. split; [reflexivity|]. rewrite He. exists []. split; [constructor|]. auto.
  - unfold fill at 1. cbn [fst snd]. specialize (Hit r c Hi He). destruct (item r c) as [c1 r1|c1 r1|]; [| |contradiction].
    + destruct Hit as [Hi1 Hit]. destruct (err c1) eqn:Ec1; cbn [obind].
      * exists c1, none, false, true. split; [reflexivity|]. now rewrite Ec1.
      * destruct (Hit eq_refl) as (a & Ha & ->).
        destruct (IH c1 (add r a) Hi1 Ec1) as (c2 & r2 & th & st & E & K). rewrite E.
        exists c2, r2, th, st. split; [reflexivity|]. destruct th.
        -- destruct K as (items & c3 & T & L & Th & ->). exists (a :: items), c3. split; [econstructor; eauto|].
           split; [cbn; lia|]. auto.
        -- destruct (err c2); [assumption|]. destruct K as (items & T & L & ->). exists (a :: items).
           split; [econstructor; eauto|]. split; [cbn; lia|reflexivity].
    + cbn [obind]. exists c1, r, true, true. split; [reflexivity|]. exists [], c. split; [constructor|]. split; [cbn; lia|]. auto.
Qed.

Lemma filled_exact {R A} none (item : R -> cursor -> ending R) (mk : cursor -> A -> cursor -> Prop) thr add
  (wrap : R -> val) (gathers : list A -> val -> Prop) c c1 c1' n :
  (forall r c, inside c -> err c = false ->
     match item r c with
     | Done c' r' => inside c' /\ (err c' = false -> exists a, mk c a c' /\ r' = add r a)
     | Threw c' _ => thr c c'
     | Undef => False
     end) ->
  (forall items, gathers items (wrap (fold_left add items none))) ->
  inside c -> read_uint 4 c = Ok (c1, n) -> inside c1' -> rest c1' = rest c1 -> buf c1' = buf c1 -> err c1' = err c1 ->
  read_in_turn mk thr gathers (wrap none) c (filled wrap (loop n (fill none item) (c1', none, false))).
Proof.
  intros Hit Hg Hi E Hi1 Hr Hb He. rewrite loop_nloop.
  destruct (err c1) eqn:Ec1.
  - destruct (read_uint_ok 4 c ltac:(lia) Hi) as (c3 & n3 & E3 & _ & Z3 & _). rewrite E in E3. injection E3 as <- <-.
    rewrite (Z3 Ec1). cbn. rewrite He. reflexivity.
  - destruct (read_uint_took 4 c c1 n ltac:(lia) Hi E Ec1) as ((B & T & _) & _).
    destruct (fill_exact none item mk thr add Hit (N.to_nat n) c1' none Hi1 He) as (c2 & r2 & th & st & E2 & K).
    rewrite E2. cbn [filled]. destruct th.
    + destruct K as (items & c3 & T3 & L & Th & ->). exists n, c1', items, c3.
      split; [congruence|]. split; [congruence|]. split; [assumption|]. split; [assumption|]. split; [lia|]. auto.
    + cbn [read_in_turn]. destruct (err c2); [now subst|]. destruct K as (items & T3 & L & ->). exists n, c1', items.
      split; [congruence|]. split; [congruence|]. split; [assumption|]. split; [assumption|]. split; [lia|]. auto.
Qed.

Lemma tame t : careful t -> forall old c, inside c -> ends_with (kept c) (uread t old c).
Proof. exact (proj1 all_tame t). Qed.

Lemma vec_lemma t old c : careful t -> (forall t0, t = UStd t0 -> is_simple t0 = false) -> inside c ->
  read_in_turn (makes t) (fails_at t) gathers_vec (VSeq []) c (uread (UVec t) old c).
Proof.
  intros Hc Hs Hi. cbn [uread].
  assert (Ea : at_once t = None) by (destruct t; cbn; try reflexivity; now rewrite (Hs _ eq_refl)). rewrite Ea.
  destruct (uint_cases 4 c ltac:(lia) Hi) as (c1 & n & E & K & _). rewrite E.
  eapply (filled_exact [] _ (makes t) (fails_at t) (fun m x => m ++ [x]) VSeq gathers_vec c c1 (ask c1 n) n);
    [| |exact Hi|exact E|exact (proj1 K)|reflexivity|reflexivity|reflexivity].
  - intros r c0 Hi0 He0. unfold push_item, read_fresh. rewrite He0.
    pose proof (tame t Hc (fresh_of t) c0 Hi0) as H. unfold makes, fails_at.
    destruct (uread t (fresh_of t) c0) as [c2 v|c2 v|]; [| |contradiction]; [|eauto].
    split; [apply H|]. intros _. eauto.
  - intros items. unfold gathers_vec. now rewrite fold_push.
Qed.

Lemma set_lemma t old c : careful t -> inside c ->
  read_in_turn (makes t) (fails_at t) gathers_set (VSet []) c (uread (USet t) old c).
Proof.
  intros Hc Hi. cbn [uread].
  destruct (uint_cases 4 c ltac:(lia) Hi) as (c1 & n & E & K & _). rewrite E.
  eapply (filled_exact [] _ (makes t) (fails_at t) set_insert VSet gathers_set c c1 c1 n);
    [| |exact Hi|exact E|exact (proj1 K)|reflexivity|reflexivity|reflexivity].
  - intros r c0 Hi0 He0. unfold set_item, read_fresh. rewrite He0.
    pose proof (tame t Hc (fresh_of t) c0 Hi0) as H. unfold makes, fails_at.
    destruct (uread t (fresh_of t) c0) as [c2 v|c2 v|]; [| |contradiction]; [|eauto].
    split; [apply H|]. intros _. eauto.
  - intros items. exists (fold_left set_insert items []). split; [reflexivity|]. split; [now apply fold_set_increasing|].
    intros k. rewrite fold_set_in. cbn. tauto.
Qed.

Lemma map_lemma tk tv old c : careful tk -> careful tv -> inside c ->
  read_in_turn (makes_both tk tv)
    (fun c c' => fails_at tk c c' \/ exists k c1, makes tk c k c1 /\ err c1 = false /\ fails_at tv c1 c')
    gathers_map (VMap []) c (uread (UMap tk tv) old c).
Proof.
  intros Hk Hv Hi. cbn [uread].
  destruct (uint_cases 4 c ltac:(lia) Hi) as (c1 & n & E & K & _). rewrite E.
  eapply (filled_exact [] _ (makes_both tk tv) _ (fun m kv => map_insert m (fst kv) (snd kv)) VMap gathers_map c c1 c1 n);
    [| |exact Hi|exact E|exact (proj1 K)|reflexivity|reflexivity|reflexivity].
  - intros r c0 Hi0 He0. unfold map_item, read_fresh. rewrite He0.
    pose proof (tame tk Hk (fresh_of tk) c0 Hi0) as H. unfold makes_both, makes, fails_at.
    destruct (uread tk (fresh_of tk) c0) as [c2 k|c2 k|]; [| |contradiction]; [|left; eauto].
    cbn in H. destruct (err c2) eqn:Ec2.
    + split; [apply H|]. congruence.
    + pose proof (tame tv Hv (fresh_of tv) c2 (proj1 H)) as H2.
      destruct (uread tv (fresh_of tv) c2) as [c3 v|c3 v|] eqn:E3; [| |contradiction].
      * split; [apply H2|]. intros He3. exists (k, v). split; [|reflexivity]. exists c2. auto.
      * right. exists k, c2. split; [reflexivity|]. split; [assumption|]. eauto.
  - intros items. exists (collect items). split; [reflexivity|]. apply first_of_each_collect.
Qed.

(** Optionals and variants keep what they held when user code throws. *)
Lemma opt_var_lemma t ts old c c' v :
  (uread (UOpt t) old c = Threw c' v -> v = old) /\ (uread (UVar ts) old c = Threw c' v -> v = old).
Proof.
  split; intros E; cbn [uread] in E; destruct (read_uint 1 c) as [[c1 n]| |]; try discriminate.
  - destruct (negb (err c1) && negb (n =? 0)%N)%bool; [|discriminate].
    destruct (read_fresh (uread t) (fresh_of t) c1); congruence.
  - destruct (err c1); [discriminate|]. rewrite visit_user in E.
    destruct (nth_error ts (N.to_nat n)) as [t0|]; [|discriminate].
    destruct (read_fresh (uread t0) (fresh_of t0) c1) as [c2 x|c2 x|]; try congruence. destruct (err c2); discriminate.
Qed.

Lemma pair_throw_lemma a b x y c c' v : err c = false -> uread (UPair a b) (VPair x y) c = Threw c' v ->
  (exists x', uread a x c = Threw c' x' /\ v = VPair x' y) \/
  (exists x' y' c1, uread a x c = Done c1 x' /\ err c1 = false /\ uread b y c1 = Threw c' y' /\ v = VPair x' y').
Proof.
  intros He E. cbn [uread] in E. rewrite He in E. destruct (uread a x c) as [c1 x1|c1 x1|]; try discriminate.
  - destruct (err c1) eqn:E1; [discriminate|]. destruct (uread b y c1) as [c2 y1|c2 y1|] eqn:E2; try discriminate.
    injection E as <- <-. right. exists x1, y1, c1. auto.
  - injection E as <- <-. left. eauto.
Qed.
