(** Objects and their bytes. *)
From Coq Require Import List NArith ZArith Arith Bool Lia.
From Verif Require Import Base BinModel BinSpec BinProofs BinGrammar CastModel CastSpec.
Import ListNotations.

Section Ind.
  Context (P : lay -> Prop).
  Context (Pn : forall s n k, P (LNum s n k)) (Pb : P LBool) (Pa : forall n t, P t -> P (LArr n t)) (Ps : forall ts, Forall P ts -> P (LStruct ts)).
  Fixpoint lay_ind0 (t : lay) : P t :=
    match t with
    | LNum s n k => Pn s n k
    | LBool => Pb
    | LArr n t => Pa n t (lay_ind0 t)
    | LStruct ts => Ps ts ((fix all (ts : list lay) : Forall P ts :=
                              match ts with [] => Forall_nil P | t :: ts' => Forall_cons t (lay_ind0 t) (all ts') end) ts)
    end.
End Ind.

(** ** The nested fixpoints by name *)
Fixpoint ends (off : nat) (ts : list lay) : nat :=
  match ts with
  | [] => off
  | t :: ts' => ends (off + gap off (alignof t) + sizeof t) ts'
  end.

Definition widest (ts : list lay) : nat := fold_right Nat.max 1 (map alignof ts).

Lemma sizeof_struct ts : sizeof (LStruct ts) = Nat.max 1 (ends 0 ts + gap (ends 0 ts) (widest ts)).
Proof. reflexivity. Qed.

Fixpoint smembers (off : nat) (ts : list lay) (vs : list cv) : list (option N) :=
  match ts, vs with
  | t :: ts', v :: vs' =>
      let g := gap off (alignof t) in
      repeat None g ++ store t v ++ smembers (off + g + sizeof t) ts' vs'
  | _, _ => []
  end.

Lemma store_struct ts vs : store (LStruct ts) (CSeq vs) = smembers 0 ts vs ++ repeat None (sizeof (LStruct ts) - length (smembers 0 ts vs)).
Proof. reflexivity. Qed.

Definition lelements (t : lay) : nat -> list N -> outcome (list cv) :=
  fix elements (n : nat) (bs : list N) : outcome (list cv) :=
    match n with
    | O => Ok []
    | S n' => obind (load t bs) (fun v => obind (elements n' (skipn (sizeof t) bs)) (fun vs => Ok (v :: vs)))
    end.

Lemma lelements_S t n bs :
  lelements t (S n) bs = obind (load t bs) (fun v => obind (lelements t n (skipn (sizeof t) bs)) (fun vs => Ok (v :: vs))).
Proof. reflexivity. Qed.

Lemma load_arr n t bs : load (LArr n t) bs = obind (lelements t n bs) (fun vs => Ok (CSeq vs)).
Proof. reflexivity. Qed.

Fixpoint lmembers (off : nat) (ts : list lay) (bs : list N) : outcome (list cv) :=
  match ts with
  | [] => Ok []
  | t :: ts' =>
      let g := gap off (alignof t) in
      obind (load t (skipn g bs)) (fun v => obind (lmembers (off + g + sizeof t) ts' (skipn (g + sizeof t) bs)) (fun vs => Ok (v :: vs)))
  end.

Lemma load_struct ts bs : load (LStruct ts) bs = obind (lmembers 0 ts bs) (fun vs => Ok (CSeq vs)).
Proof. reflexivity. Qed.

(** What each byte is. *)
Fixpoint kinds (t : lay) : list (option part) :=
  match t with
  | LNum _ n k => repeat (Some Digit) n ++ repeat None (2 ^ k - n)
  | LBool => [Some Flag]
  | LArr n t => concat (repeat (kinds t) n)
  | LStruct ts =>
      let body := (fix members (off : nat) (ts : list lay) : list (option part) :=
                     match ts with
                     | [] => []
                     | t :: ts' =>
                         let g := gap off (alignof t) in
                         repeat None g ++ kinds t ++ members (off + g + sizeof t) ts'
                     end) 0 ts in
      body ++ repeat None (sizeof (LStruct ts) - length body)
  end.

Fixpoint kmembers (off : nat) (ts : list lay) : list (option part) :=
  match ts with
  | [] => []
  | t :: ts' =>
      let g := gap off (alignof t) in
      repeat None g ++ kinds t ++ kmembers (off + g + sizeof t) ts'
  end.

Lemma kinds_struct ts : kinds (LStruct ts) = kmembers 0 ts ++ repeat None (sizeof (LStruct ts) - length (kmembers 0 ts)).
Proof. reflexivity. Qed.

Lemma real_struct ts : real (LStruct ts) <-> Forall real ts.
Proof.
  cbn [real]. induction ts as [|t ts' IH]; [split; auto|]. split.
  - intros [A B]. constructor; [exact A | now apply IH].
  - intros A. inversion A; subst. split; [assumption | now apply IH].
Qed.

Lemma length_concat_repeat {A} (l : list A) n : length (concat (repeat l n)) = n * length l.
Proof. induction n as [|n IH]; [reflexivity|]. cbn [repeat concat]. rewrite app_length, IH. reflexivity. Qed.

Lemma ends_from ts : Forall (fun t => length (kinds t) = sizeof t) ts -> forall off, ends off ts = off + length (kmembers off ts).
Proof.
  induction ts as [|t ts' IH]; intros F off; [cbn; lia|]. inversion F; subst. cbn [ends kmembers]. rewrite !app_length, repeat_length.
  rewrite IH by assumption. lia.
Qed.

Lemma length_kinds t : real t -> length (kinds t) = sizeof t.
Proof.
  induction t as [s n k| |n t IH|ts IH] using lay_ind0; intros R.
  - cbn [kinds sizeof]. cbn [real] in R. rewrite app_length, !repeat_length. lia.
  - reflexivity.
  - cbn [kinds sizeof]. destruct R as [_ R]. now rewrite length_concat_repeat, IH.
  - apply real_struct in R. rewrite kinds_struct, app_length, repeat_length.
    assert (F : Forall (fun t => length (kinds t) = sizeof t) ts).
    { clear - IH R. induction IH; inversion R; subst; constructor; auto. }
    pose proof (ends_from ts F 0) as E. rewrite sizeof_struct, E. cbn [plus]. lia.
Qed.

(** ** Cells *)
Definition shape1 (p : option part) (c : option N) : Prop :=
  match p, c with
  | Some Digit, Some b => is_octet b
  | Some Flag, Some b => (b < 2)%N
  | None, None => True
  | _, _ => False
  end.
Definition ok1 (p : option part) (b : N) : Prop := is_octet b /\ (p = Some Flag -> (b < 2)%N).
Definition agrees (c : option N) (b : N) : Prop := match c with Some x => x = b | None => True end.

Lemma Forall2_length {A B} (R : A -> B -> Prop) l l' : Forall2 R l l' -> length l = length l'.
Proof. induction 1; cbn; congruence. Qed.

Lemma Forall2_repeat {A B} (R : A -> B -> Prop) a b n : R a b -> Forall2 R (repeat a n) (repeat b n).
Proof. intros H. induction n; cbn; constructor; auto. Qed.

Lemma nones_agree bs : Forall2 agrees (repeat None (length bs)) bs.
Proof. induction bs; cbn; constructor; [exact I | assumption]. Qed.

Lemma nones_ok bs : Forall is_octet bs -> Forall2 ok1 (repeat None (length bs)) bs.
Proof. induction 1; cbn; constructor; [split; [assumption | discriminate] | assumption]. Qed.

Lemma digits_shape bs : Forall is_octet bs -> Forall2 shape1 (repeat (Some Digit) (length bs)) (map Some bs).
Proof. induction 1; cbn; constructor; assumption. Qed.

Lemma digits_agree bs l : Forall2 agrees (map Some bs) l -> l = bs.
Proof.
  revert l. induction bs as [|b bs IH]; intros l F; inversion F as [|x y xs ys H T]; subst; [reflexivity|].
  cbn in H. subst. f_equal. now apply IH.
Qed.

Lemma agree_digits bs : Forall2 agrees (map Some bs) bs.
Proof. induction bs; cbn; constructor; [reflexivity | assumption]. Qed.

Lemma digits_ok bs : Forall is_octet bs -> Forall2 ok1 (repeat (Some Digit) (length bs)) bs.
Proof. induction 1; cbn; constructor; [split; [assumption | discriminate] | assumption]. Qed.

Lemma nones_length n bs : Forall2 agrees (repeat None n) bs -> length bs = n.
Proof. intros F. apply Forall2_length in F. now rewrite repeat_length in F. Qed.

Lemma skipn_len {A} (a b : list A) n : length a = n -> skipn n (a ++ b) = b.
Proof. intros <-. rewrite skipn_app, skipn_all, Nat.sub_diag. reflexivity. Qed.

Lemma skipn_len2 {A} (a b c : list A) n m : length a = n -> length b = m -> skipn (n + m) (a ++ b ++ c) = c.
Proof. intros <- <-. rewrite app_assoc. apply skipn_len. now rewrite app_length. Qed.

Lemma firstn_len {A} (a b : list A) n : length a = n -> firstn n (a ++ b) = a.
Proof. intros <-. rewrite firstn_app, firstn_all, Nat.sub_diag. cbn. apply app_nil_r. Qed.

(** ** What is stored *)
Definition stores (t : lay) : Prop := real t -> forall v, value t v -> Forall2 shape1 (kinds t) (store t v).

Lemma smembers_shape ts : Forall stores ts -> Forall real ts -> forall vs off, Forall2 value ts vs ->
  Forall2 shape1 (kmembers off ts) (smembers off ts vs).
Proof.
  induction ts as [|t ts' IH]; intros S R vs off F; inversion F as [|? v ? vs' V F']; subst; [constructor|].
  inversion S as [|? ? S1 S2]; inversion R as [|? ? R1 R2]; subst. cbn [kmembers smembers].
  apply Forall2_app; [now apply Forall2_repeat|]. apply Forall2_app; [now apply S1 | now apply IH].
Qed.

Lemma store_shape t : stores t.
Proof.
  induction t as [s n k| |n t IH|ts IH] using lay_ind0; intros R v V; inversion V as [? ? ? z B|b|? ? vs L F|? vs F]; subst.
  - cbn [kinds store]. apply Forall2_app; [|now apply Forall2_repeat].
    replace n with (length (int_bytes Native n z)) at 1 by apply length_int_bytes. apply digits_shape. apply octet_arrange, octet_le_bytes.
  - destruct b; repeat constructor.
  - destruct R as [_ R]. cbn [kinds store]. clear V. induction F; cbn [length repeat concat map]; [constructor|].
    apply Forall2_app; [now apply IH | assumption].
  - apply real_struct in R. rewrite kinds_struct, store_struct. pose proof (smembers_shape ts IH R vs 0 F) as M.
    apply Forall2_app; [exact M|]. rewrite (Forall2_length _ _ _ M). now apply Forall2_repeat.
Qed.

Lemma length_store t v : real t -> value t v -> length (store t v) = sizeof t.
Proof. intros R V. rewrite <- (Forall2_length _ _ _ (store_shape t R v V)). now apply length_kinds. Qed.

(** ** What is loaded from what was stored *)
Definition loads (t : lay) : Prop := real t -> forall v bs rest, value t v -> Forall2 agrees (store t v) bs -> load t (bs ++ rest) = Ok v.

Lemma lmembers_back ts : Forall loads ts -> Forall real ts -> forall vs off bs rest, Forall2 value ts vs ->
  Forall2 agrees (smembers off ts vs) bs -> lmembers off ts (bs ++ rest) = Ok vs.
Proof.
  induction ts as [|t ts' IH]; intros S R vs off bs rest F A; inversion F as [|? v ? vs' V F']; subst; [reflexivity|].
  inversion S as [|? ? S1 S2]; inversion R as [|? ? R1 R2]; subst. cbn [lmembers smembers] in *.
  apply Forall2_app_inv_l in A as (g & bs1 & A1 & A & ->). apply Forall2_app_inv_l in A as (b & bs2 & A2 & A3 & ->).
  apply nones_length in A1. pose proof (Forall2_length _ _ _ A2) as L2. rewrite length_store in L2 by assumption.
  rewrite <- !app_assoc. rewrite skipn_len by assumption. rewrite (S1 R1 v b _ V A2). cbn [obind].
  rewrite skipn_len2 by (auto; congruence). rewrite (IH S2 R2 vs' _ bs2 rest F' A3). reflexivity.
Qed.

Lemma load_store t : loads t.
Proof.
  induction t as [s n k| |n t IH|ts IH] using lay_ind0; intros R v bs rest V A; inversion V as [? ? ? z B|b|? ? vs L F|? vs F]; subst.
  - cbn [store] in A. apply Forall2_app_inv_l in A as (d & p & A1 & A2 & ->). apply digits_agree in A1. subst d. cbn [load real] in *.
    rewrite <- app_assoc. rewrite firstn_len by apply length_int_bytes. rewrite bytes_int_of by (lia || assumption).
    rewrite !app_length, length_int_bytes. destruct (Nat.ltb_spec (n + (length p + length rest)) n); [lia | reflexivity].
  - cbn [store] in A. inversion A as [|? y ? ? H T]; subst. inversion T; subst. cbn in H. subst y. destruct b; reflexivity.
  - destruct R as [_ R]. rewrite load_arr. cbn [store] in A.
    assert (G : lelements t (length vs) (bs ++ rest) = Ok vs); [|now rewrite G].
    clear V. revert bs A. induction F as [|v vs V F IHF]; intros bs A; cbn [length]; [reflexivity|]. rewrite lelements_S.
    cbn [map concat] in A. apply Forall2_app_inv_l in A as (b & bs2 & A2 & A3 & ->).
    pose proof (Forall2_length _ _ _ A2) as L2. rewrite length_store in L2 by assumption.
    rewrite <- app_assoc. rewrite (IH R v b _ V A2). cbn [obind]. rewrite skipn_len by auto. rewrite (IHF bs2 A3). reflexivity.
  - apply real_struct in R. rewrite store_struct in A. apply Forall2_app_inv_l in A as (b & bs2 & A2 & A3 & ->).
    rewrite load_struct, <- app_assoc. rewrite (lmembers_back ts IH R vs 0 b _ F A2). reflexivity.
Qed.

(** ** What is loaded from any bytes *)
Definition sound (t : lay) : Prop := real t -> forall bs rest, Forall is_octet bs -> length bs = sizeof t ->
  (exists v, load t (bs ++ rest) = Ok v /\ value t v /\ Forall2 agrees (store t v) bs /\ Forall2 ok1 (kinds t) bs) \/
  (load t (bs ++ rest) = UB /\ ~ Forall2 ok1 (kinds t) bs).

Lemma split_at {A} (bs : list A) n m : length bs = n + m -> exists a b, bs = a ++ b /\ length a = n /\ length b = m.
Proof.
  intros L. exists (firstn n bs), (skipn n bs). split; [now rewrite firstn_skipn|]. rewrite firstn_length, skipn_length. lia.
Qed.

Lemma Forall2_app_len {A B} (R : A -> B -> Prop) a b c d : length a = length c -> Forall2 R (a ++ b) (c ++ d) -> Forall2 R a c /\ Forall2 R b d.
Proof.
  revert c. induction a as [|x a IH]; intros [|y c] L F; try discriminate; [split; [constructor | exact F]|].
  inversion F as [|? ? ? ? H T]; subst. injection L as L. destruct (IH c L T) as [P Q]. split; [now constructor | exact Q].
Qed.

Lemma lmembers_sound ts : Forall sound ts -> Forall real ts -> forall off bs rest, Forall is_octet bs -> length bs = length (kmembers off ts) ->
  (exists vs, lmembers off ts (bs ++ rest) = Ok vs /\ Forall2 value ts vs /\ Forall2 agrees (smembers off ts vs) bs /\ Forall2 ok1 (kmembers off ts) bs) \/
  (lmembers off ts (bs ++ rest) = UB /\ ~ Forall2 ok1 (kmembers off ts) bs).
Proof.
  induction ts as [|t ts' IH]; intros S R off bs rest O L.
  - left. exists []. destruct bs; [|discriminate]. split; [reflexivity|]. split; [constructor|]. split; constructor.
  - inversion S as [|? ? S1 S2]; inversion R as [|? ? R1 R2]; subst. cbn [kmembers lmembers] in *. set (g := gap off (alignof t)) in *.
    rewrite !app_length, repeat_length in L. rewrite length_kinds in L by assumption.
    apply split_at in L as (a & b & -> & La & L). apply split_at in L as (b1 & b2 & -> & L1 & L2).
    apply Forall_app in O as [Oa O]. apply Forall_app in O as [O1 O2].
    rewrite <- !app_assoc. rewrite skipn_len by assumption. rewrite skipn_len2 by assumption.
    destruct (S1 R1 b1 (b2 ++ rest) O1 L1) as [(v & E & V & A & K)|[E K]]; rewrite E; cbn [obind].
    + destruct (IH S2 R2 (off + g + sizeof t) b2 rest O2 L2) as [(vs & E' & V' & A' & K')|[E' K']]; rewrite E'; cbn [obind].
      * left. exists (v :: vs). split; [reflexivity|]. split; [now constructor|]. cbn [smembers]. fold g. split.
        -- apply Forall2_app; [rewrite <- La; apply nones_agree|]. now apply Forall2_app.
        -- apply Forall2_app; [rewrite <- La; now apply nones_ok|]. now apply Forall2_app.
      * right. split; [reflexivity|]. intros F. apply K'. apply Forall2_app_len in F as [_ F]; [|now rewrite repeat_length].
        apply Forall2_app_len in F as [_ F]; [exact F|]. now rewrite length_kinds.
    + right. split; [reflexivity|]. intros F. apply K. apply Forall2_app_len in F as [_ F]; [|now rewrite repeat_length].
      apply Forall2_app_len in F as [F _]; [exact F|]. now rewrite length_kinds.
Qed.

Lemma load_sound t : sound t.
Proof.
  induction t as [s n k| |n t IH|ts IH] using lay_ind0; intros R bs rest O L.
  - left. cbn [load real sizeof] in *. assert (E : length bs = n + (2 ^ k - n)) by lia.
    apply split_at in E as (a & b & -> & La & Lb). apply Forall_app in O as [Oa Ob]. rewrite <- app_assoc.
    rewrite firstn_len by assumption. rewrite !app_length. destruct (Nat.ltb_spec (length a + (length b + length rest)) n); [lia|].
    eexists. split; [reflexivity|]. split; [constructor; rewrite <- La; apply bytes_int_range; [lia | assumption]|].
    cbn [store kinds]. split.
    + rewrite <- La at 1. rewrite int_bytes_back by assumption. apply Forall2_app; [apply agree_digits|]. rewrite <- Lb. apply nones_agree.
    + rewrite <- La at 1. apply Forall2_app; [now apply digits_ok|]. rewrite <- Lb. now apply nones_ok.
  - destruct bs as [|b [|]]; try discriminate. inversion O as [|? ? Ob _]; subst. cbn [app load].
    destruct (N.eqb_spec b 0) as [->|H0]; [left; exists (CBool false); repeat constructor|].
    destruct (N.eqb_spec b 1) as [->|H1]; [left; exists (CBool true); repeat constructor|].
    right. split; [reflexivity|]. intros F. inversion F as [|? ? ? ? [_ H] _]; subst. specialize (H eq_refl). lia.
  - destruct R as [Hn R]. clear Hn. rewrite load_arr. cbn [kinds sizeof] in *.
    assert (G : (exists vs, lelements t n (bs ++ rest) = Ok vs /\ length vs = n /\ Forall (value t) vs /\
                   Forall2 agrees (concat (map (store t) vs)) bs /\ Forall2 ok1 (concat (repeat (kinds t) n)) bs) \/
                (lelements t n (bs ++ rest) = UB /\ ~ Forall2 ok1 (concat (repeat (kinds t) n)) bs)).
    { revert bs O L. induction n as [|n IHn]; intros bs O L.
      - left. exists []. destruct bs; [|discriminate]. repeat split; constructor.
      - cbn [Nat.mul] in L. apply split_at in L as (b1 & b2 & -> & L1 & L2). apply Forall_app in O as [O1 O2].
        cbn [repeat concat]. rewrite lelements_S. rewrite <- app_assoc. rewrite skipn_len by assumption.
        destruct (IH R b1 (b2 ++ rest) O1 L1) as [(v & E & V & A & K)|[E K]]; rewrite E; cbn [obind].
        + destruct (IHn b2 O2 L2) as [(vs & E' & Ln & V' & A' & K')|[E' K']]; rewrite E'; cbn [obind].
          * left. exists (v :: vs). split; [reflexivity|]. split; [cbn; congruence|]. split; [now constructor|]. cbn [map concat].
            split; now apply Forall2_app.
          * right. split; [reflexivity|]. intros F. apply K'. apply Forall2_app_len in F as [_ F]; [exact F|]. now rewrite length_kinds.
        + right. split; [reflexivity|]. intros F. apply K. apply Forall2_app_len in F as [F _]; [exact F|]. now rewrite length_kinds. }
    destruct G as [(vs & E & Ln & V & A & K)|[E K]]; rewrite E; cbn [obind].
    + left. exists (CSeq vs). split; [reflexivity|]. split; [now constructor|]. split; assumption.
    + right. split; [reflexivity | exact K].
  - pose proof (length_kinds _ R) as LK. apply real_struct in R. rewrite <- LK in L. rewrite kinds_struct in L |- *.
    rewrite app_length, repeat_length in L. apply split_at in L as (b1 & b2 & -> & L1 & L2). apply Forall_app in O as [O1 O2].
    rewrite load_struct, <- app_assoc.
    destruct (lmembers_sound ts IH R 0 b1 (b2 ++ rest) O1 L1) as [(vs & E & V & A & K)|[E K]]; rewrite E; cbn [obind].
    + left. exists (CSeq vs). split; [reflexivity|]. split; [now constructor|]. rewrite store_struct. split.
      * apply Forall2_app; [exact A|]. rewrite (Forall2_length _ _ _ A), L1, <- L2. apply nones_agree.
      * apply Forall2_app; [exact K|]. rewrite <- L2. now apply nones_ok.
    + right. split; [reflexivity|]. intros F. apply K. now apply Forall2_app_len in F.
Qed.
