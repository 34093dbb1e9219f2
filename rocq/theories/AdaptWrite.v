(** User code that writes; adapters that fit together; agreement with the
    types without user code. *)
From Coq Require Import List NArith ZArith Arith Bool Lia ZifyBool ZifyNat ZifyN.
From Verif Require Import Base BinModel BinSpec BinOrder BinProofs BinSafety BinWrite BinGrammar AdaptModel AdaptSpec AdaptProofs.
Import ListNotations.
Local Open Scope outcome_scope.
Arguments N.add : simpl never.
Arguments N.mul : simpl never.

Section write_induction.
  Variable P : uty -> Prop.
  Variable Q : wprog -> Prop.
  Hypothesis HStd : forall t, P (UStd t).
  Hypothesis HVec : forall t, P t -> P (UVec t).
  Hypothesis HMap : forall k t, P k -> P t -> P (UMap k t).
  Hypothesis HSet : forall t, P t -> P (USet t).
  Hypothesis HPair : forall a b, P a -> P b -> P (UPair a b).
  Hypothesis HOpt : forall t, P t -> P (UOpt t).
  Hypothesis HVar : forall ts, Forall P ts -> P (UVar ts).
  Hypothesis HUser : forall v rd wr, (forall v, Q (wr v)) -> P (UUser v rd wr).
  Hypothesis HRet : Q WRet.
  Hypothesis HThrow : Q WThrow.
  Hypothesis HLook : forall k, (forall e l n, Q (k e l n)) -> Q (WLook k).
  Hypothesis HNotify : forall k, Q k -> Q (WNotify k).
  Hypothesis HSkip : forall off k, Q k -> Q (WSkip off k).
  Hypothesis HRaw : forall bs k, Q k -> Q (WRaw bs k).
  Hypothesis HInsert : forall t v k h, P t -> Q k -> Q h -> Q (WInsert t v k h).
  Fixpoint wty_induct (t : uty) : P t :=
    match t with
    | UStd t => HStd t
    | UVec t => HVec t (wty_induct t)
    | UMap k t => HMap k t (wty_induct k) (wty_induct t)
    | USet t => HSet t (wty_induct t)
    | UPair a b => HPair a b (wty_induct a) (wty_induct b)
    | UOpt t => HOpt t (wty_induct t)
    | UVar ts => HVar ts ((fix go ts : Forall P ts :=
        match ts with [] => Forall_nil _ | t :: ts' => Forall_cons t (wty_induct t) (go ts') end) ts)
    | UUser v rd wr => HUser v rd wr (fun v => wprog_induct (wr v))
    end
  with wprog_induct (p : wprog) : Q p :=
    match p with
    | WRet => HRet
    | WThrow => HThrow
    | WLook k => HLook k (fun e l n => wprog_induct (k e l n))
    | WNotify k => HNotify k (wprog_induct k)
    | WSkip off k => HSkip off k (wprog_induct k)
    | WRaw bs k => HRaw bs k (wprog_induct k)
    | WInsert t v k h => HInsert t v k h (wty_induct t) (wprog_induct k) (wprog_induct h)
    end.
End write_induction.

Definition stayed (c c' : cursor) : Prop :=
  inside c' /\ size_bytes c' = size_bytes c /\ (err c = true -> err c' = true /\ pos c' = pos c /\ buf c' = buf c).

Lemma stayed_refl c : inside c -> stayed c c.
Proof. intros H. split; [assumption|]. auto. Qed.

Lemma stayed_trans a b c : stayed a b -> stayed b c -> stayed a c.
Proof.
  intros (I1 & B1 & E1) (I2 & B2 & E2). split; [assumption|]. split; [congruence|].
  intros He. destruct (E1 He) as (He1 & Hp1 & Hb1). destruct (E2 He1) as (? & ? & ?). repeat split; congruence.
Qed.

Lemma kept_stayed c c' : kept c c' -> stayed c c'.
Proof. intros (I & B & E). split; [assumption|]. split; [unfold size_bytes; now rewrite B|]. intros He. destruct (E He). auto. Qed.

Lemma written_stayed c c' bs : inside c -> Forall is_octet bs -> written c c' bs -> stayed c c'.
Proof.
  intros Hi Ho W. split; [eapply written_inside; eauto|]. split; [eapply written_size; eauto|].
  intros He. destruct W as (n & _ & _ & Hb & Hp & _ & Hst & _). destruct (Hst He) as [-> He'].
  split; [assumption|]. split; [rewrite Hp; lia|]. rewrite Hb. cbn [firstn]. apply stored_nil.
Qed.

Lemma ends_stayed {A} c c1 (r : ending A) : stayed c c1 -> ends_with (stayed c1) r -> ends_with (stayed c) r.
Proof. intros H. destruct r; cbn; try contradiction; apply stayed_trans; assumption. Qed.

Lemma then_stayed c r f : ends_with (stayed c) r -> (forall c1, inside c1 -> ends_with (stayed c1) (f c1)) ->
  ends_with (stayed c) (then_write r f).
Proof. destruct r as [c1 []|c1 []|]; cbn; auto. intros H Hf. apply (ends_stayed c c1); [assumption|]. apply Hf, H. Qed.

Lemma each_stayed {A} (f : A -> cursor -> ending unit) l : Forall (fun x => forall c, inside c -> ends_with (stayed c) (f x c)) l ->
  forall c, inside c -> ends_with (stayed c) (write_each f l c).
Proof.
  induction 1 as [|x l Hx _ IH]; intros c Hi; cbn [write_each]; [now apply stayed_refl|].
  specialize (Hx c Hi). destruct (f x c) as [c1 []|c1 []|]; cbn in Hx; auto.
  apply (ends_stayed c c1); [assumption|]. apply IH, Hx.
Qed.

Lemma uint_stayed w n c : inside c -> ends_with (stayed c) (wrote (write_uint w n c)).
Proof.
  intros Hi. destruct (write_uint_spec w n c Hi) as (c1 & E & W). rewrite E. cbn.
  eapply written_stayed; [exact Hi| |exact W]. apply number_octets.
Qed.

Lemma pick_uty {A} (f : uty -> A) (d : A) : forall ts i,
  (fix pick (ts : list uty) (i : nat) : A :=
     match ts, i with
     | t0 :: _, O => f t0
     | _ :: ts', S i' => pick ts' i'
     | [], _ => d
     end) ts i = match nth_error ts i with Some t => f t | None => d end.
Proof. induction ts as [|t ts IH]; intros [|i]; cbn; auto. Qed.

Definition tame_out (t : uty) : Prop := forall v c, value_of t v -> inside c -> ends_with (stayed c) (uwrite t v c).
Definition tame_wprog (p : wprog) : Prop := careful_writer p -> forall c, inside c -> ends_with (stayed c) (wrun p c).

Lemma simple_vec_stayed t l c : is_simple t = true -> Forall (has_ty t) l -> inside c ->
  ends_with (stayed c) (wrote (write_binary (TVec t) (VSeq l) c)).
Proof.
  intros Es Hl Hi. cbn [write_binary]. rewrite Es.
  destruct (write_uint_spec 4 (N.of_nat (length l)) c Hi) as (c1 & E1 & W1). rewrite E1. cbn [obind].
  assert (S1 : stayed c c1) by (eapply written_stayed; [exact Hi| |exact W1]; apply number_octets).
  destruct (write_impl_spec c1 (concat (map (repr t) l)) (proj1 S1)) as (c2 & E2 & W2). rewrite E2. cbn.
  apply (stayed_trans c c1); [assumption|]. eapply written_stayed; [apply S1| |exact W2].
  apply concat_octets. intros x Hx. rewrite Forall_forall in Hl.
  destruct (encode_width t x (or_introl Es) (Hl x Hx)) as [_ ->]. apply encode_octets. auto.
Qed.

Lemma all_tame_out : (forall t, tame_out t) /\ (forall p, tame_wprog p).
Proof.
  assert (CStd : forall t, tame_out (UStd t)).
  { intros t v c Hv Hi. cbn [uwrite value_of] in *. destruct (write_spec t v c Hv Hi) as (c1 & E & W). rewrite E. cbn.
    eapply written_stayed; [exact Hi| |exact W]. now apply encode_octets. }
  assert (CVec : forall t, tame_out t -> tame_out (UVec t)).
  { intros t IH v c Hv Hi. destruct v; cbn [value_of] in Hv; try contradiction. cbn [uwrite].
    destruct (at_once t) as [t0|] eqn:Ea.
    - destruct t; cbn in Ea; try discriminate. destruct (is_simple t) eqn:Es; try discriminate. injection Ea as ->.
      now apply simple_vec_stayed.
    - apply then_stayed; [now apply uint_stayed|]. apply each_stayed. rewrite Forall_forall in *. intros x Hx. intros c0. apply IH; auto. }
  assert (CMap : forall k t, tame_out k -> tame_out t -> tame_out (UMap k t)).
  { intros k t IHk IH v c Hv Hi. destruct v; cbn [value_of] in Hv; try contradiction. cbn [uwrite].
    apply then_stayed; [now apply uint_stayed|]. apply each_stayed. rewrite Forall_forall in *. intros x Hx c0 Hi0.
    destruct (Hv x Hx). apply then_stayed; [now apply IHk|]. intros c1 Hi1. now apply IH. }
  assert (CSet : forall t, tame_out t -> tame_out (USet t)).
  { intros t IH v c Hv Hi. destruct v; cbn [value_of] in Hv; try contradiction. cbn [uwrite].
    apply then_stayed; [now apply uint_stayed|]. apply each_stayed. rewrite Forall_forall in *. intros x Hx. intros c0. apply IH; auto. }
  assert (CPair : forall a b, tame_out a -> tame_out b -> tame_out (UPair a b)).
  { intros a b IHa IHb v c Hv Hi. destruct v; cbn [value_of] in Hv; try contradiction. cbn [uwrite].
    destruct Hv. apply then_stayed; [now apply IHa|]. intros c1 Hi1. now apply IHb. }
  assert (COpt : forall t, tame_out t -> tame_out (UOpt t)).
  { intros t IH v c Hv Hi. destruct v; cbn [value_of] in Hv; try contradiction. cbn [uwrite]. destruct o.
    - apply then_stayed; [now apply uint_stayed|]. intros c1 Hi1. now apply IH.
    - now apply uint_stayed. }
  assert (CVar : forall ts, Forall tame_out ts -> tame_out (UVar ts)).
  { intros ts IH v c Hv Hi. destruct v; cbn [value_of] in Hv; try contradiction. cbn [uwrite].
    rewrite (pick_uty (fun t0 => value_of t0 v) False) in Hv. apply then_stayed; [now apply uint_stayed|]. intros c1 Hi1.
    rewrite (pick_uty (fun t0 => uwrite t0 v c1) Undef). destruct (nth_error ts i) as [t|] eqn:Et; [|contradiction].
    rewrite Forall_forall in IH. apply nth_error_In in Et. apply IH; auto. }
  assert (CUser : forall v rd wr, (forall v, tame_wprog (wr v)) -> tame_out (UUser v rd wr)).
  { intros v0 rd wr IH v c Hv Hi. cbn [uwrite]. now apply (IH v). }
  assert (PR : tame_wprog WRet) by (intros _ c Hi; now apply stayed_refl).
  assert (PT : tame_wprog WThrow) by (intros _ c Hi; now apply stayed_refl).
  assert (PL : forall k, (forall e l n, tame_wprog (k e l n)) -> tame_wprog (WLook k)).
  { intros k IH Hc c Hi. cbn [wrun]. apply IH; [apply Hc|assumption]. }
  assert (PN : forall k, tame_wprog k -> tame_wprog (WNotify k)).
  { intros k IH Hc c Hi. cbn [wrun]. apply (ends_stayed c (notify_error c)); [apply kept_stayed; now apply kept_notify|]. apply IH; auto. }
  assert (PS : forall off k, tame_wprog k -> tame_wprog (WSkip off k)).
  { intros off k IH [Ho Hc] c Hi. cbn [wrun]. destruct (skip_spec c off Hi Ho) as (c1 & E & I1 & B1 & H). rewrite E.
    apply (ends_stayed c c1); [|now apply IH]. apply kept_stayed. split; [assumption|]. split; [assumption|].
    intros He. rewrite He in H. exact H. }
  assert (PW : forall bs k, tame_wprog k -> tame_wprog (WRaw bs k)).
  { intros bs k IH [Ho Hc] c Hi. cbn [wrun]. destruct (write_impl_spec c bs Hi) as (c1 & E & W). rewrite E.
    pose proof (written_stayed _ _ _ Hi Ho W) as S1. apply (ends_stayed c c1); [exact S1|]. apply IH; [assumption|apply S1]. }
  assert (PI : forall t v k h, tame_out t -> tame_wprog k -> tame_wprog h -> tame_wprog (WInsert t v k h)).
  { intros t v k h IHt IHk IHh (Hv & Hk & Hh) c Hi. cbn [wrun]. pose proof (IHt v c Hv Hi) as H.
    destruct (uwrite t v c) as [c1 x|c1 x|]; auto; (apply (ends_stayed c c1); [exact H|]); [apply IHk|apply IHh]; auto; apply H. }
  split.
  - exact (wty_induct tame_out tame_wprog CStd CVec CMap CSet CPair COpt CVar CUser PR PT PL PN PS PW PI).
  - exact (wprog_induct tame_out tame_wprog CStd CVec CMap CSet CPair COpt CVar CUser PR PT PL PN PS PW PI).
Qed.

Lemma any_writer_lemma t v c : value_of t v -> inside c ->
  ends_with (fun c' => inside c' /\ size_bytes c' = size_bytes c /\
    (err c = true -> err c' = true /\ pos c' = pos c /\ buf c' = buf c)) (uwrite t v c).
Proof. intros Hv Hi. exact (proj1 all_tame_out t v c Hv Hi). Qed.

(* ---------- adapters that fit together ---------- *)

Lemma stored_inside c c' bs : inside c -> Forall is_octet bs -> (pos c + N.of_nat (length bs) <= size_bytes c)%N ->
  pos c' = (pos c + N.of_nat (length bs))%N -> buf c' = stored (buf c) (N.to_nat (pos c)) bs ->
  inside c' /\ size_bytes c' = size_bytes c.
Proof.
  intros (H1 & H2 & H3) Ho Hr Hp Hb.
  assert (Hs : size_bytes c' = size_bytes c).
  { unfold size_bytes in *. rewrite Hb, stored_length; [reflexivity|]. lia. }
  split; [|assumption]. unfold inside. rewrite Hs, Hp, Hb. split; [assumption|]. split; [assumption|]. now apply stored_octets.
Qed.

Definition wr_ok (f : cursor -> ending unit) (bs : list N) : Prop :=
  forall c, inside c -> err c = false -> (pos c + N.of_nat (length bs) <= size_bytes c)%N ->
  exists c', f c = Done c' tt /\ err c' = false /\ pos c' = (pos c + N.of_nat (length bs))%N /\
    buf c' = stored (buf c) (N.to_nat (pos c)) bs.

Lemma wr_seq f g a b : Forall is_octet a -> wr_ok f a -> wr_ok g b -> wr_ok (fun c => then_write (f c) g) (a ++ b).
Proof.
  intros Ho Hf Hg c Hi He Hr. rewrite app_length in Hr. destruct (Hf c Hi He ltac:(lia)) as (c1 & E1 & He1 & Hp1 & Hb1).
  rewrite E1. cbn [then_write]. destruct (stored_inside c c1 a Hi Ho ltac:(lia) Hp1 Hb1) as [Hi1 Hs1].
  destruct (Hg c1 Hi1 He1 ltac:(lia)) as (c2 & E2 & He2 & Hp2 & Hb2). exists c2. split; [assumption|]. split; [assumption|].
  rewrite app_length. split; [lia|]. rewrite Hb2, Hb1, Hp1.
  replace (N.to_nat (pos c + N.of_nat (length a))) with (N.to_nat (pos c) + length a) by lia.
  apply stored_stored. unfold size_bytes in *. lia.
Qed.

Lemma wr_written (f : cursor -> outcome cursor) bs : (forall c, inside c -> exists c', f c = Ok c' /\ written c c' bs) ->
  wr_ok (fun c => wrote (f c)) bs.
Proof.
  intros H c Hi He Hr. destruct (H c Hi) as (c1 & E & W). rewrite E. cbn. exists c1. split; [reflexivity|].
  destruct W as (n & Hn & _ & Hb & Hp & Hok & _ & Her).
  assert (He1 : err c1 = false). { destruct (err c1) eqn:E1; [|reflexivity]. specialize (Her He eq_refl). lia. }
  specialize (Hok He1). subst n. rewrite firstn_all in Hb. auto.
Qed.

Lemma wr_uint w n : wr_ok (fun c => wrote (write_uint w n c)) (number w n).
Proof. apply wr_written. intros c. apply write_uint_spec. Qed.

Lemma wr_each {A} (f : A -> cursor -> ending unit) l parts : Forall (Forall is_octet) parts ->
  Forall2 (fun x p => wr_ok (f x) p) l parts -> wr_ok (write_each f l) (concat parts).
Proof.
  intros Ho HF. induction HF as [|x p l parts Hx HF IH]; cbn [concat].
  - intros c Hi He Hr. cbn. exists c. split; [reflexivity|]. split; [assumption|]. split; [lia|]. now rewrite stored_nil.
  - inversion Ho; subst. intros c Hi He Hr.
    destruct (wr_seq (f x) (write_each f l) p (concat parts) ltac:(assumption) Hx (IH ltac:(assumption)) c Hi He Hr) as (c' & E & K).
    exists c'. split; [|exact K]. cbn [write_each]. destruct (f x c) as [c1 []|c1 []|]; cbn in E; congruence.
Qed.

Definition rd_ok {A} (f : cursor -> ending A) (v : A) (bs : list N) : Prop :=
  forall c pre post, inside c -> err c = false -> buf c = pre ++ bs ++ post -> pos c = N.of_nat (length pre) ->
  exists c', f c = Done c' v /\ moved c c' (N.of_nat (length (pre ++ bs))).

Lemma reads_rd t v bs : reads_as t v bs <-> rd_ok (uread t (fresh_of t)) v bs.
Proof.
  split; intros H c pre post Hi He Hb Hp; destruct (H c pre post Hi He Hb Hp) as (c' & E & K); exists c'.
  - destruct K as (? & ? & ?). repeat split; auto.
  - destruct K as (? & ? & ?). repeat split; auto.
Qed.

Lemma rd_fresh t v bs : reads_as t v bs -> rd_ok (read_fresh (uread t) (fresh_of t)) v bs.
Proof. intros H c pre post Hi He Hb Hp. unfold read_fresh. rewrite He. apply reads_rd in H. eauto. Qed.

Lemma rd_fill {R A} none (item : R -> cursor -> ending R) (add : R -> A -> R) (l : list A) parts :
  Forall2 (fun x p => forall r, rd_ok (item r) (add r x) p) l parts ->
  forall c pre post r, inside c -> err c = false -> buf c = pre ++ concat parts ++ post -> pos c = N.of_nat (length pre) ->
  exists c', nloop (length l) (fill none item) (c, r, false) = Ok (c', fold_left add l r, false, false) /\
    moved c c' (N.of_nat (length (pre ++ concat parts))).
Proof.
  intros HF. induction HF as [|x p l parts Hx HF IH]; intros c pre post r Hi He Hb Hp; cbn [nloop length concat fold_left].
  - exists c. split; [reflexivity|]. rewrite app_nil_r. repeat split; auto.
  - cbn [concat] in Hb. rewrite <- app_assoc in Hb.
    destruct (Hx r c pre (concat parts ++ post) Hi He Hb Hp) as (c1 & E & Hm).
    unfold fill at 1. cbn [fst snd]. rewrite E. rewrite (proj2 (proj2 Hm)). cbn [obind].
    destruct (IH c1 (pre ++ p) post (add r x)) as (c2 & E2 & Hm2).
    + eapply inside_moved_app; eauto.
    + apply Hm.
    + rewrite (proj1 Hm), Hb. now rewrite <- app_assoc.
    + apply Hm.
    + exists c2. split; [exact E2|]. rewrite app_assoc. eapply moved_trans; eauto.
Qed.

Lemma rd_counted {R A} none wrap (item : R -> cursor -> ending R) (add : R -> A -> R) (l : list A) parts (adj : cursor -> N -> cursor) :
  fits l -> (forall c n p, moved c c p -> moved c (adj c n) p) ->
  Forall2 (fun x p => forall r, rd_ok (item r) (add r x) p) l parts ->
  rd_ok (fun c => match read_uint 4 c with
                  | Ok (c1, size) => filled wrap (loop size (fill none item) (adj c1 size, none, false))
                  | _ => Undef end) (wrap (fold_left add l none)) (number 4 (N.of_nat (length l)) ++ concat parts).
Proof.
  intros Hf Hadj HF c pre post Hi He Hb Hp. rewrite <- app_assoc in Hb.
  destruct (read_uint_exact 4 _ c pre _ ltac:(lia) (fits_bound l Hf) Hi He Hb Hp) as (c1 & E1 & Hm1). rewrite E1.
  rewrite loop_nloop, Nat2N.id.
  assert (Hma : moved c (adj c1 (N.of_nat (length l))) (N.of_nat (length (pre ++ number 4 (N.of_nat (length l)))))).
  { assert (Hs : moved c1 c1 (pos c1)) by (repeat split; apply Hm1).
    apply Hadj with (n := N.of_nat (length l)) in Hs. destruct Hs as (B & P & E), Hm1 as (B1 & P1 & _). repeat split; congruence. }
  destruct (rd_fill none item add l parts HF (adj c1 (N.of_nat (length l))) (pre ++ number 4 (N.of_nat (length l))) post none)
    as (c2 & E2 & Hm2).
  - eapply (inside_moved_app c); eauto.
  - apply Hma.
  - rewrite (proj1 Hma), Hb. now rewrite <- app_assoc.
  - apply Hma.
  - rewrite E2. cbn [filled]. exists c2. split; [reflexivity|]. rewrite app_assoc. eapply moved_trans; eauto.
Qed.

Lemma rd_then {A B} (f : cursor -> ending A) (g : A -> cursor -> ending B) a b p q :
  rd_ok f a p -> rd_ok (g a) b q ->
  rd_ok (fun c => match f c with Done c1 x => if err c1 then Undef else g x c1 | Threw _ _ => Undef | Undef => Undef end) b (p ++ q).
Proof.
  intros Hf Hg c pre post Hi He Hb Hp. rewrite <- app_assoc in Hb.
  destruct (Hf c pre _ Hi He Hb Hp) as (c1 & E1 & Hm1). rewrite E1, (proj2 (proj2 Hm1)).
  destruct (Hg c1 (pre ++ p) post) as (c2 & E2 & Hm2).
  - eapply inside_moved_app; eauto.
  - apply Hm1.
  - rewrite (proj1 Hm1), Hb. now rewrite <- app_assoc.
  - apply Hm1.
  - exists c2. split; [assumption|]. rewrite app_assoc. eapply moved_trans; eauto.
Qed.

Lemma forall2_octets {A} (P : A -> list N -> Prop) l parts : Forall2 P l parts ->
  (forall x p, P x p -> Forall is_octet p) -> Forall (Forall is_octet) parts.
Proof. induction 1; intros Ho; constructor; eauto. Qed.

Lemma forall_concat (parts : list (list N)) : Forall (Forall is_octet) parts -> Forall is_octet (concat parts).
Proof. induction 1; cbn; [constructor|]. apply Forall_app. auto. Qed.

Lemma forall2_mono {A B} (P Q : A -> B -> Prop) l m : Forall2 P l m -> (forall x y, P x y -> Q x y) -> Forall2 Q l m.
Proof. induction 1; intros HPQ; constructor; auto. Qed.

Lemma number1 i : i < 256 -> number 1 (N.of_nat i) = [N.of_nat i].
Proof. intros H. unfold number. cbn [seq map]. unfold byte_of. change (256 ^ Z.of_nat 0)%Z with 1%Z. rewrite Z.div_1_r. f_equal. rewrite Z.mod_small; lia. Qed.

Lemma std_carried t v : wf_ty t -> has_ty t v -> carried (UStd t) v (encode t v).
Proof.
  intros Hw Hv. split; [now apply encode_octets|]. split.
  - apply (wr_written (write_binary t v)). intros c. now apply write_spec.
  - apply reads_rd. intros c pre post Hi He Hb Hp.
    destruct (round_trip t Hw v Hv c pre post (dflt t) Hi He Hb Hp (dflt_has_ty t Hw)) as (c' & E & K).
    exists c'. split; [|assumption]. cbn [uread fresh_of]. now rewrite E.
Qed.

Lemma ask_moved c n p : moved c c p -> moved c (ask c n) p.
Proof. unfold moved. cbn. auto. Qed.

Lemma agreed_carried t : forall v bs, agreed t v bs -> carried t v bs.
Proof.
  induction t as [t|t IH|k t IHk IH|t IH|a b IHa IHb|t IH|ts IH|fresh rd wr IH| | | | | | | | | |]
    using uty_induct with (Q := fun _ => True); try exact I; intros v bs H; cbn [agreed] in H.
  - destruct H as (Hw & Hv & ->). now apply std_carried.
  - destruct H as (l & parts & -> & Hf & HF & ->).
    destruct (at_once t) as [t0|] eqn:Ea.
    + destruct t; cbn in Ea; try discriminate. destruct (is_simple t) eqn:Es; try discriminate. injection Ea as ->.
      assert (K : Forall (has_ty t0) l /\ parts = map (encode t0) l /\ (l <> [] -> wf_ty t0)).
      { clear Hf. induction HF as [|x p l parts Hx HF (K1 & K2 & K3)]; [repeat split; auto; congruence|].
        destruct Hx as (Hw & Hv & ->). split; [now constructor|]. split; [cbn; now f_equal|auto]. }
      destruct K as (K1 & -> & K3).
      destruct l as [|x l].
      * split; [rewrite app_nil_r; apply number_octets|]. split.
        -- intros c Hi He Hr. cbn [uwrite at_once]. rewrite Es. cbn [write_binary]. rewrite Es. cbn [map concat].
           rewrite app_nil_r in *. destruct (wr_uint 4 (N.of_nat (length (@nil val))) c Hi He Hr) as (c1 & E1 & He1 & Hp1 & Hb1).
           destruct (write_uint 4 (N.of_nat (length (@nil val))) c) as [c1'| |]; cbn in E1; try discriminate. injection E1 as ->.
           cbn [obind]. destruct (stored_inside c c1 _ Hi (number_octets _ _) Hr Hp1 Hb1) as [Hi1 _].
           destruct (write_impl_spec c1 [] Hi1) as (c2 & E2 & W2). rewrite E2. cbn [wrote]. exists c2. split; [reflexivity|].
           destruct W2 as (n & Hn & _ & Hb2 & Hp2 & _ & _ & Her). cbn in Hn. assert (n = 0) by lia. subst n. cbn [firstn] in Hb2.
           rewrite stored_nil in Hb2. split.
           { destruct (err c2); [|reflexivity]. specialize (Her He1 eq_refl). cbn in Her. destruct Hi1. lia. }
           split; [lia|congruence].
        -- apply reads_rd. intros c pre post Hi He Hb Hp. cbn [map concat] in *. rewrite app_nil_r in *.
           destruct (read_uint_exact 4 (N.of_nat (length (@nil val))) c pre post ltac:(lia) ltac:(cbn; lia) Hi He Hb Hp) as (c1 & E1 & Hm1).
           exists c1. split; [|assumption]. cbn [uread at_once]. rewrite Es. cbn [read_binary]. rewrite E1. cbn [obind]. rewrite Es. reflexivity.
      * assert (Hw : wf_ty t0) by (apply K3; discriminate).
        pose proof (std_carried (TVec t0) (VSeq (x :: l)) Hw (conj K1 Hf)) as (O1 & W1 & R1).
        split; [exact O1|]. split.
        -- intros c Hi He Hr. cbn [uwrite at_once]. rewrite Es. exact (W1 c Hi He Hr).
        -- apply reads_rd. apply reads_rd in R1. intros c pre post Hi He Hb Hp. cbn [uread at_once]. rewrite Es. exact (R1 c pre post Hi He Hb Hp).
    + assert (HC : Forall2 (carried t) l parts) by (eapply forall2_mono; [exact HF|exact IH]).
      assert (HO : Forall (Forall is_octet) parts) by (eapply forall2_octets; [exact HC|]; intros x p K; apply K).
      split; [apply Forall_app; split; [apply number_octets|now apply forall_concat]|]. split.
      * intros c Hi He Hr. cbn [uwrite]. rewrite Ea.
        apply (wr_seq (fun c => wrote (write_uint 4 (N.of_nat (length l)) c)) (write_each (uwrite t) l)); auto; [apply number_octets|apply wr_uint|].
        apply wr_each; [assumption|]. eapply forall2_mono; [exact HC|]. intros x p K. apply K.
      * apply reads_rd. intros c pre post Hi He Hb Hp. cbn [uread]. rewrite Ea.
        pose proof (rd_counted [] VSeq (push_item (read_fresh (uread t) (fresh_of t))) (fun m x => m ++ [x]) l parts ask Hf ask_moved) as R.
        rewrite fold_push in R. cbn [app] in R. refine (R _ c pre post Hi He Hb Hp).
        eapply forall2_mono; [exact HC|]. intros x p (_ & _ & K) r c0 pre0 post0 Hi0 He0 Hb0 Hp0.
        destruct (rd_fresh t x p K c0 pre0 post0 Hi0 He0 Hb0 Hp0) as (c1 & E1 & M1). exists c1. unfold push_item. rewrite E1. auto.
  - destruct H as (l & parts & -> & Hf & Hinc & HF & ->).
    assert (HC : Forall2 (fun kv p => exists p1 p2, p = p1 ++ p2 /\ carried k (fst kv) p1 /\ carried t (snd kv) p2) l parts).
    { eapply forall2_mono; [exact HF|]. intros x p (p1 & p2 & -> & H1 & H2). exists p1, p2. auto. }
    assert (HO : Forall (Forall is_octet) parts).
    { eapply forall2_octets; [exact HC|]. intros x p (p1 & p2 & -> & H1 & H2). apply Forall_app. split; [apply H1|apply H2]. }
    split; [apply Forall_app; split; [apply number_octets|now apply forall_concat]|]. split.
    + intros c Hi He Hr. cbn [uwrite].
      apply (wr_seq (fun c => wrote (write_uint 4 (N.of_nat (length l)) c))); auto; [apply number_octets|apply wr_uint|].
      apply wr_each; [assumption|]. eapply forall2_mono; [exact HC|]. intros x p (p1 & p2 & -> & H1 & H2).
      apply wr_seq; [apply H1|apply H1|apply H2].
    + apply reads_rd. intros c pre post Hi He Hb Hp. cbn [uread].
      pose proof (rd_counted [] VMap (map_item (read_fresh (uread k) (fresh_of k)) (read_fresh (uread t) (fresh_of t)))
        (fun m kv => map_insert m (fst kv) (snd kv)) l parts (fun c _ => c) Hf (fun c n p K => K)) as R.
      rewrite (fold_map_insert l []) in R by exact Hinc. cbn [app] in R. refine (R _ c pre post Hi He Hb Hp).
      eapply forall2_mono; [exact HC|]. intros x p (p1 & p2 & -> & (_ & _ & K1) & (_ & _ & K2)) r c0 pre0 post0 Hi0 He0 Hb0 Hp0.
      destruct (rd_then _ (fun _ => read_fresh (uread t) (fresh_of t)) _ _ _ _ (rd_fresh k _ _ K1) (rd_fresh t _ _ K2) c0 pre0 post0 Hi0 He0 Hb0 Hp0)
        as (c1 & E1 & M1). exists c1. split; [|assumption]. unfold map_item.
      rewrite <- app_assoc in Hb0. destruct (rd_fresh k _ _ K1 c0 pre0 _ Hi0 He0 Hb0 Hp0) as (c2 & E2 & M2). rewrite E2 in *.
      rewrite (proj2 (proj2 M2)) in E1. rewrite E1. reflexivity.
  - destruct H as (l & parts & -> & Hf & Hinc & HF & ->).
    assert (HC : Forall2 (carried t) l parts) by (eapply forall2_mono; [exact HF|exact IH]).
    assert (HO : Forall (Forall is_octet) parts) by (eapply forall2_octets; [exact HC|]; intros x p K; apply K).
    split; [apply Forall_app; split; [apply number_octets|now apply forall_concat]|]. split.
    + intros c Hi He Hr. cbn [uwrite].
      apply (wr_seq (fun c => wrote (write_uint 4 (N.of_nat (length l)) c)) (write_each (uwrite t) l)); auto; [apply number_octets|apply wr_uint|].
      apply wr_each; [assumption|]. eapply forall2_mono; [exact HC|]. intros x p K. apply K.
    + apply reads_rd. intros c pre post Hi He Hb Hp. cbn [uread].
      pose proof (rd_counted [] VSet (set_item (read_fresh (uread t) (fresh_of t))) set_insert l parts (fun c _ => c) Hf (fun c n p K => K)) as R.
      rewrite (fold_set_insert l []) in R by exact Hinc. cbn [app] in R. refine (R _ c pre post Hi He Hb Hp).
      eapply forall2_mono; [exact HC|]. intros x p (_ & _ & K) r c0 pre0 post0 Hi0 He0 Hb0 Hp0.
      destruct (rd_fresh t x p K c0 pre0 post0 Hi0 He0 Hb0 Hp0) as (c1 & E1 & M1). exists c1. unfold set_item. rewrite E1. auto.
  - destruct H as (p1 & p2 & x & y & -> & -> & H1 & H2). apply IHa in H1. apply IHb in H2.
    split; [apply Forall_app; split; [apply H1|apply H2]|]. split.
    + intros c Hi He Hr. cbn [uwrite]. apply (wr_seq (uwrite a x) (uwrite b y)); auto; [apply H1|apply H1|apply H2].
    + apply reads_rd. destruct H1 as (_ & _ & K1), H2 as (_ & _ & K2). apply reads_rd in K1. apply reads_rd in K2.
      intros c pre post Hi He Hb Hp. cbn [uread fresh_of]. rewrite He. rewrite <- app_assoc in Hb.
      destruct (K1 c pre _ Hi He Hb Hp) as (c1 & E1 & M1). rewrite E1, (proj2 (proj2 M1)).
      destruct (K2 c1 (pre ++ p1) post) as (c2 & E2 & M2).
      * eapply inside_moved_app; eauto.
      * apply M1.
      * rewrite (proj1 M1), Hb. now rewrite <- app_assoc.
      * apply M1.
      * rewrite E2. exists c2. split; [reflexivity|]. rewrite app_assoc. eapply moved_trans; eauto.
  - destruct H as [[-> ->]|(v1 & bs1 & -> & -> & H)].
    + change [0%N] with (number 1 0). split; [apply number_octets|]. split.
      * intros c Hi He Hr. cbn [uwrite]. now apply wr_uint.
      * apply reads_rd. intros c pre post Hi He Hb Hp. cbn [uread].
        destruct (read_uint_exact 1 0 c pre post ltac:(lia) ltac:(cbn; lia) Hi He Hb Hp) as (c1 & E1 & M1). rewrite E1.
        cbn [N.eqb negb]. rewrite andb_false_r. exists c1. auto.
    + apply IH in H. change (1%N :: bs1) with (number 1 1 ++ bs1).
      split; [apply Forall_app; split; [apply number_octets|apply H]|]. split.
      * intros c Hi He Hr. cbn [uwrite]. apply (wr_seq (fun c => wrote (write_uint 1 1 c)) (uwrite t v1)); auto; [apply number_octets|apply wr_uint|apply H].
      * apply reads_rd. intros c pre post Hi He Hb Hp. cbn [uread]. rewrite <- app_assoc in Hb.
        destruct (read_uint_exact 1 1 c pre _ ltac:(lia) ltac:(cbn; lia) Hi He Hb Hp) as (c1 & E1 & M1). rewrite E1.
        rewrite (proj2 (proj2 M1)). cbn [N.eqb negb andb].
        destruct (rd_fresh t v1 bs1 (proj2 (proj2 H)) c1 (pre ++ number 1 1) post) as (c2 & E2 & M2).
        -- eapply inside_moved_app; eauto.
        -- apply M1.
        -- rewrite (proj1 M1), Hb. now rewrite <- app_assoc.
        -- apply M1.
        -- rewrite E2. exists c2. split; [reflexivity|]. rewrite app_assoc. eapply moved_trans; eauto.
  - destruct H as (i & v1 & bs1 & -> & -> & Hlt & H). rewrite (pick_uty (fun t0 => agreed t0 v1 bs1) False) in H.
    destruct (nth_error ts i) as [t|] eqn:Et; [|contradiction]. rewrite Forall_forall in IH.
    apply (IH t (nth_error_In _ _ Et)) in H.
    change (N.of_nat i :: bs1) with ([N.of_nat i] ++ bs1). rewrite <- (number1 i Hlt).
    split; [apply Forall_app; split; [apply number_octets|apply H]|]. split.
    + intros c Hi He Hr. cbn [uwrite]. refine (wr_seq (fun c => wrote (write_uint 1 (N.of_nat i) c)) _ _ _ _ (wr_uint _ _) _ c Hi He Hr); [apply number_octets|].
      intros c0 Hi0 He0 Hr0. rewrite (pick_uty (fun t0 => uwrite t0 v1 c0) Undef), Et. now apply H.
    + apply reads_rd. intros c pre post Hi He Hb Hp. cbn [uread]. rewrite <- app_assoc in Hb.
      destruct (read_uint_exact 1 (N.of_nat i) c pre _ ltac:(lia) ltac:(cbn; lia) Hi He Hb Hp) as (c1 & E1 & M1). rewrite E1.
      rewrite (proj2 (proj2 M1)), visit_user, Nat2N.id, Et.
      destruct (rd_fresh t v1 bs1 (proj2 (proj2 H)) c1 (pre ++ number 1 (N.of_nat i)) post) as (c2 & E2 & M2).
      -- eapply inside_moved_app; eauto.
      -- apply M1.
      -- rewrite (proj1 M1), Hb. now rewrite <- app_assoc.
      -- apply M1.
      -- rewrite E2, (proj2 (proj2 M2)). exists c2. split; [reflexivity|]. rewrite app_assoc. eapply moved_trans; eauto.
  - exact H.
Qed.

Lemma fit_lemma t v bs w r : agreed t v bs -> inside w -> err w = false ->
  (pos w + N.of_nat (length bs) <= size_bytes w)%N ->
  exists w', uwrite t v w = Done w' tt /\ err w' = false /\ pos w' = (pos w + N.of_nat (length bs))%N /\
    (buf r = buf w' -> pos r = pos w -> err r = false ->
     exists r', uread t (fresh_of t) r = Done r' v /\ err r' = false /\ pos r' = pos w' /\ buf r' = buf r).
Proof.
  intros Ha Hi He Hr. apply agreed_carried in Ha. destruct Ha as (Ho & W & R).
  destruct (W w Hi He Hr) as (w' & E & He' & Hp & Hb). exists w'. split; [assumption|]. split; [assumption|]. split; [assumption|].
  intros Br Pr Er. destruct (stored_inside w w' bs Hi Ho Hr Hp Hb) as [Hi' Hs'].
  assert (Hir : inside r). { destruct Hi as (Hi1 & _), Hi' as (_ & Hi2 & Hi3). unfold inside, size_bytes in *. rewrite Br, Pr. repeat split; auto. lia. }
  destruct (R r (firstn (N.to_nat (pos w)) (buf w)) (skipn (N.to_nat (pos w) + length bs) (buf w)) Hir Er) as (r' & E1 & E2 & E3 & E4).
  - now rewrite Br, Hb.
  - rewrite firstn_length, Pr. destruct Hi as (Hi1 & _). unfold size_bytes in *. lia.
  - exists r'. split; [exact E1|]. split; [assumption|]. split; [|assumption].
    rewrite E4, app_length, firstn_length, Hp. destruct Hi as (Hi1 & _). unfold size_bytes in *. lia.
Qed.

(* ---------- agreement with the types without user code ---------- *)

Definition same_loop {R} (o1 : outcome (cursor * R * bool)) (o2 : outcome (cursor * R * bool * bool)) : Prop :=
  match o1, o2 with
  | Ok ((c, r), st), Ok ((c', r', th), st') => c = c' /\ r = r' /\ th = false /\ st = st'
  | Ok _, _ | _, Ok _ => False
  | _, _ => True
  end.

Lemma nloop_same {R} (b1 : cursor * R -> outcome (cursor * R * bool)) b2 :
  (forall c r, same_loop (b1 (c, r)) (b2 (c, r, false))) ->
  forall n c r, same_loop (nloop n b1 (c, r)) (nloop n b2 (c, r, false)).
Proof.
  intros H n. induction n as [|n IH]; intros c r; cbn [nloop]; [cbn; auto|].
  specialize (H c r). destruct (b1 (c, r)) as [[[c1 r1] st]| |], (b2 (c, r, false)) as [[[[c2 r2] th] st']| |];
    cbn [same_loop] in H; try contradiction; cbn [obind]; try exact I.
  destruct H as (<- & <- & -> & <-). destruct st; [cbn; auto|apply IH].
Qed.

Definition same_read (f : cursor -> outcome (cursor * val)) (g : cursor -> ending val) : Prop :=
  forall c, g c = ended (f c).

Lemma same_filled {R} wrap (b1 : cursor * R -> outcome (cursor * R * bool)) b2 n c r :
  (forall c r, same_loop (b1 (c, r)) (b2 (c, r, false))) ->
  filled wrap (loop n b2 (c, r, false)) = ended (' (st, _) <- loop n b1 (c, r) ;; Ok (fst st, wrap (snd st))).
Proof.
  intros H. rewrite !loop_nloop. pose proof (nloop_same b1 b2 H (N.to_nat n) c r) as K.
  destruct (nloop (N.to_nat n) b1 (c, r)) as [[[c1 r1] st]| |], (nloop (N.to_nat n) b2 (c, r, false)) as [[[[c2 r2] th] st']| |];
    cbn [same_loop] in K; try contradiction; try reflexivity.
  destruct K as (<- & <- & -> & _). reflexivity.
Qed.

Lemma as_user_fresh t : wf_ty t -> fresh_of (as_user t) = dflt t.
Proof.
  induction t as [o s w|s w| |t IH|k t IHk IH|t IH|a b IHa IHb|t IH|ts IH|ts IH] using ty_induct; intros Hw; try reflexivity.
  - cbn in *. rewrite IHa, IHb by apply Hw. reflexivity.
  - apply wf_var in Hw. destruct Hw as [Hl Hw]. destruct ts as [|t ts]; [cbn in Hl; lia|]. cbn.
    inversion IH; inversion Hw; subst. now rewrite H1.
Qed.

Lemma once_as_user t : at_once (as_user t) = if is_simple t then Some t else None.
Proof. destruct t; try reflexivity. Qed.

Lemma read_same_members ts : Forall (fun t => wf_ty t -> forall old c, has_ty t old -> uread (as_user t) old c = ended (read_binary t old c)) ts ->
  Forall wf_ty ts -> forall olds done c, members_ty ts olds ->
  run ((fix members (ts : list ty) (olds done : list val) : prog :=
            match ts, olds with
            | t0 :: ts', o :: olds' =>
                PExtract (as_user t0) o (fun v => members ts' olds' (done ++ [v])) (fun v => PThrow (VSeq (done ++ v :: olds')))
            | _, _ => PRet (VSeq done)
            end) ts olds done) c =
  ended (' (c1, vs) <- read_members ts olds c ;; Ok (c1, VSeq (done ++ vs))).
Proof.
  induction 1 as [|t ts Ht _ IH]; intros Hw [|o olds] done c Ho; cbn [members_ty] in Ho; try contradiction; cbn [read_members].
  - cbn. now rewrite app_nil_r.
  - inversion Hw; subst. destruct Ho as [Ho1 Ho2]. cbn [run]. rewrite Ht by assumption.
    destruct (read_binary t o c) as [[c1 v]| |]; cbn [ended obind]; try reflexivity.
    rewrite IH by assumption. destruct (read_members ts olds c1) as [[c2 vs]| |]; cbn [obind]; try reflexivity.
    now rewrite <- app_assoc.
Qed.

Lemma visit_plain (old : val) (c1 : cursor) : forall ts index k,
  (fix visit (ts : list ty) (index k : nat) : outcome (cursor * val) :=
     match ts with
     | [] => Ok (notify_error c1, old)
     | head :: tail =>
         match index with
         | O =>
             ' (c2, v) <- (if err c1 then Ok (c1, dflt head) else read_binary head (dflt head) c1) ;;
             if err c2 then Ok (c2, old) else Ok (c2, VVar k v)
         | S index' => visit tail index' (S k)
         end
     end) ts index k =
  match nth_error ts index with
  | None => Ok (notify_error c1, old)
  | Some head =>
     ' (c2, v) <- (if err c1 then Ok (c1, dflt head) else read_binary head (dflt head) c1) ;;
     if err c2 then Ok (c2, old) else Ok (c2, VVar (k + index) v)
  end.
Proof.
  induction ts as [|t ts IH]; intros [|i] k; cbn -[obind]; auto.
  - now rewrite Nat.add_0_r.
  - rewrite IH. now replace (S k + i) with (k + S i) by lia.
Qed.

Lemma same_read_lemma t : wf_ty t -> forall old c, has_ty t old -> uread (as_user t) old c = ended (read_binary t old c).
Proof.
  assert (Fresh : forall t, wf_ty t -> (forall old c, has_ty t old -> uread (as_user t) old c = ended (read_binary t old c)) ->
     forall c, read_fresh (uread (as_user t)) (fresh_of (as_user t)) c =
               ended (if err c then Ok (c, dflt t) else read_binary t (dflt t) c)).
  { intros t0 Hw IH c. unfold read_fresh. rewrite as_user_fresh by assumption. destruct (err c); [reflexivity|].
    apply IH. now apply dflt_has_ty. }
  induction t as [o s w|s w| |t IH|k t IHk IH|t IH|a b IHa IHb|t IH|ts IH|ts IH] using ty_induct; intros Hw old c Ho; try reflexivity.
  - cbn [as_user uread]. rewrite once_as_user. destruct (is_simple t) eqn:Es; [reflexivity|].
    cbn [read_binary]. destruct (read_uint 4 c) as [[c1 n]| |]; cbn [obind]; try reflexivity. rewrite Es.
    apply same_filled. intros c0 r. unfold fill. cbn [fst snd]. unfold push_item. rewrite (Fresh t Hw (IH Hw)).
    destruct (if err c0 then Ok (c0, dflt t) else read_binary t (dflt t) c0) as [[c2 v]| |]; cbn [ended obind]; try exact I.
    destruct (err c2); cbn; auto.
  - destruct Hw as [Hwk Hw]. cbn [as_user uread read_binary]. destruct (read_uint 4 c) as [[c1 n]| |]; cbn [obind]; try reflexivity.
    apply same_filled. intros c0 r. unfold fill. cbn [fst snd]. unfold map_item. rewrite (Fresh k Hwk (IHk Hwk)).
    destruct (if err c0 then Ok (c0, dflt k) else read_binary k (dflt k) c0) as [[c2 x]| |]; cbn [ended obind]; try exact I.
    rewrite (Fresh t Hw (IH Hw)).
    destruct (if err c2 then Ok (c2, dflt t) else read_binary t (dflt t) c2) as [[c3 v]| |]; cbn [ended obind]; try exact I.
    destruct (err c3); cbn; auto.
  - cbn [as_user uread read_binary]. destruct (read_uint 4 c) as [[c1 n]| |]; cbn [obind]; try reflexivity.
    apply same_filled. intros c0 r. unfold fill. cbn [fst snd]. unfold set_item. rewrite (Fresh t Hw (IH Hw)).
    destruct (if err c0 then Ok (c0, dflt t) else read_binary t (dflt t) c0) as [[c2 v]| |]; cbn [ended obind]; try exact I.
    destruct (err c2); cbn; auto.
  - destruct Hw as [Hwa Hwb]. destruct old; cbn [has_ty] in Ho; try contradiction. destruct Ho as [Hoa Hob].
    cbn [as_user uread read_binary]. destruct (err c); [reflexivity|]. rewrite (IHa Hwa) by assumption.
    match goal with |- context [ended (read_binary a ?x c)] => destruct (read_binary a x c) as [[c1 x1]| |] end; cbn [ended obind]; try reflexivity.
    destruct (err c1); [reflexivity|]. rewrite (IHb Hwb) by assumption.
    match goal with |- context [ended (read_binary b ?x c1)] => destruct (read_binary b x c1) as [[c2 x2]| |] end; reflexivity.
  - cbn [as_user uread read_binary]. destruct (read_uint 1 c) as [[c1 n]| |]; cbn [obind]; try reflexivity.
    destruct (negb (err c1) && negb (n =? 0)%N)%bool; [|reflexivity]. rewrite (Fresh t Hw (IH Hw)).
    destruct (if err c1 then Ok (c1, dflt t) else read_binary t (dflt t) c1) as [[c2 v]| |]; reflexivity.
  - apply wf_var in Hw. destruct Hw as [_ Hw]. cbn [as_user uread read_binary].
    destruct (read_uint 1 c) as [[c1 n]| |]; cbn [obind]; try reflexivity.
    destruct (err c1) eqn:Ec1; [reflexivity|]. rewrite visit_user.
    pose proof (visit_plain old c1 ts (N.to_nat n) 0) as V. rewrite Ec1 in V. rewrite V. clear V.
    rewrite nth_error_map. destruct (nth_error ts (N.to_nat n)) as [t|] eqn:Et; [|reflexivity]. cbn [option_map].
    apply nth_error_In in Et. rewrite Forall_forall in IH, Hw.
    rewrite (Fresh t (Hw t Et) (IH t Et (Hw t Et))). rewrite Ec1.
    destruct (read_binary t (dflt t) c1) as [[c2 v]| |]; cbn [ended obind]; try reflexivity. destruct (err c2); reflexivity.
  - apply wf_rec in Hw. apply has_ty_rec in Ho. destruct Ho as (olds & -> & Ho). rewrite read_rec. cbn [as_user uread].
    exact (read_same_members ts IH Hw olds [] c Ho).
Qed.

Lemma each_same {A} (f : A -> cursor -> ending unit) g l c :
  Forall (fun x => forall c, f x c = wrote (g x c)) l -> write_each f l c = wrote (for_each g l c).
Proof.
  intros H. revert c. induction H as [|x l Hx _ IH]; intros c; cbn [write_each for_each]; [reflexivity|].
  rewrite Hx. destruct (g x c) as [c1| |]; cbn [wrote obind]; auto.
Qed.

Lemma write_same_members ts : Forall (fun t => forall v c, has_ty t v -> uwrite (as_user t) v c = wrote (write_binary t v c)) ts ->
  forall vs c, members_ty ts vs ->
  wrun ((fix members (ts : list ty) (vs : list val) : wprog :=
            match ts, vs with
            | t0 :: ts', v0 :: vs' => WInsert (as_user t0) v0 (members ts' vs') WThrow
            | _, _ => WRet
            end) ts vs) c = wrote (write_members ts vs c).
Proof.
  induction 1 as [|t ts Ht _ IH]; intros [|v vs] c Hv; cbn [members_ty] in Hv; try contradiction; cbn [write_members]; [reflexivity|].
  destruct Hv as [H1 H2]. cbn [wrun]. rewrite Ht by assumption. destruct (write_binary t v c) as [c1| |]; cbn [wrote obind]; auto.
Qed.

Lemma same_write_lemma t : forall v c, has_ty t v -> uwrite (as_user t) v c = wrote (write_binary t v c).
Proof.
  induction t as [o s w|s w| |t IH|k t IHk IH|t IH|a b IHa IHb|t IH|ts IH|ts IH] using ty_induct; intros v c Hv; try reflexivity.
  - destruct v; cbn [has_ty] in Hv; try contradiction. cbn [as_user uwrite]. rewrite once_as_user.
    destruct (is_simple t) eqn:Es; [reflexivity|]. cbn [write_binary].
    destruct (write_uint 4 (N.of_nat (length l)) c) as [c1| |]; cbn [wrote then_write obind]; try reflexivity. rewrite Es.
    apply each_same. destruct Hv as [Hv _]. rewrite Forall_forall in *. auto.
  - destruct v; cbn [has_ty] in Hv; try contradiction. cbn [as_user uwrite write_binary].
    destruct (write_uint 4 (N.of_nat (length l)) c) as [c1| |]; cbn [wrote then_write obind]; try reflexivity.
    apply each_same. destruct Hv as [Hv _]. rewrite Forall_forall in *. intros x Hx c0. destruct (Hv x Hx).
    rewrite IHk by assumption. destruct (write_binary k (fst x) c0) as [c2| |]; cbn [wrote then_write obind]; auto.
  - destruct v; cbn [has_ty] in Hv; try contradiction. cbn [as_user uwrite write_binary].
    destruct (write_uint 4 (N.of_nat (length l)) c) as [c1| |]; cbn [wrote then_write obind]; try reflexivity.
    apply each_same. destruct Hv as [Hv _]. rewrite Forall_forall in *. auto.
  - destruct v; cbn [has_ty] in Hv; try contradiction. destruct Hv. cbn [as_user uwrite write_binary].
    rewrite IHa by assumption. match goal with |- context [write_binary a ?x c] => destruct (write_binary a x c) as [c1| |] end; cbn [wrote then_write obind]; auto.
  - destruct v; cbn [has_ty] in Hv; try contradiction. cbn [as_user uwrite write_binary]. destruct o as [v1|]; [|reflexivity].
    destruct (write_uint 1 1 c) as [c1| |]; cbn [wrote then_write obind]; auto.
  - destruct v; cbn [has_ty] in Hv; try contradiction. cbn [as_user uwrite write_binary].
    destruct (write_uint 1 (N.of_nat i) c) as [c1| |]; cbn [wrote then_write obind]; try reflexivity.
    rewrite (pick_ty (fun t0 => has_ty t0 v) False) in Hv.
    rewrite (pick_uty (fun t0 => uwrite t0 v c1) Undef), (pick_ty (fun t0 => write_binary t0 v c1) UB), nth_error_map.
    destruct (nth_error ts i) as [t|] eqn:Et; [|contradiction]. cbn [option_map]. rewrite Forall_forall in IH.
    apply IH; [eapply nth_error_In; eauto|assumption].
  - apply has_ty_rec in Hv. destruct Hv as (vs & -> & Hv). rewrite write_rec. cbn [as_user uwrite]. now apply write_same_members.
Qed.

(* ---------- streams that have failed ---------- *)

Lemma extraction_lemma t old c : wf_ty t -> has_ty t old -> inside c -> err c = true ->
  exists c', read_binary t old c = Ok (c', blanked t old) /\ err c' = true /\ pos c' = pos c /\ buf c' = buf c.
Proof.
  intros Hw Ho Hi He. destruct (read_blanked t Hw old c Hi He Ho) as (c' & E). exists c'. split; [assumption|].
  destruct (read_safe t Hw old c Hi Ho) as (c2 & v & E2 & ((_ & B & _ & S) & _)).
  rewrite E in E2. injection E2 as <- <-. destruct (S He). auto.
Qed.

Lemma user_failed_lemma ts old c : wf_ty (TRec ts) -> has_ty (TRec ts) old -> inside c -> err c = true ->
  exists c', uread (as_user (TRec ts)) old c = Done c' (blanked (TRec ts) old) /\ err c' = true /\ pos c' = pos c.
Proof.
  intros Hw Ho Hi He. destruct (extraction_lemma (TRec ts) old c Hw Ho Hi He) as (c' & E & E1 & E2 & _).
  exists c'. rewrite same_read_lemma by assumption. rewrite E. auto.
Qed.

Lemma read_is_extract t old k h c :
  run (PRead t old k h) c =
  run (PLook (fun failed _ _ => if failed then k old false else PExtract t old (fun v => PLook (fun failed _ _ => k v (if failed then false else true))) h)) c.
Proof. cbn [run]. destruct (err c); [reflexivity|]. cbn [run]. destruct (uread t old c); reflexivity. Qed.

Lemma read_is_read_into t old k h c : wf_ty t -> has_ty t old ->
  run (PRead (as_user t) old k h) c = match read_into t old c with Ok (c', v, ok) => run (k v ok) c' | _ => Undef end.
Proof.
  intros W H. cbn [run]. unfold read_into. destruct (err c); [reflexivity|]. rewrite same_read_lemma by assumption.
  destruct (read_binary t old c) as [[c1 v]| |]; reflexivity.
Qed.
