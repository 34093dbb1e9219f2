(** Where members are. *)
From Coq Require Import List NArith ZArith Arith Bool Lia.
From Verif Require Import Base BinModel BinSpec CastModel CastSpec CastProofs.
Import ListNotations.

Lemma gap_spec a e : 1 <= a -> first_multiple a e (e + gap e a).
Proof.
  intros H. unfold first_multiple, gap. pose proof (Nat.div_mod e a ltac:(lia)) as D. pose proof (Nat.mod_upper_bound e a ltac:(lia)) as B.
  set (q := e / a) in *. set (r := e mod a) in *. destruct (Nat.eq_dec r 0) as [R|R].
  - rewrite R, Nat.sub_0_r, Nat.mod_same by lia. split; [lia|]. split; [exists q; lia|]. intros o' L _. lia.
  - rewrite (Nat.mod_small (a - r)) by lia. split; [lia|]. split; [exists (S q); nia|]. intros o' L [m ->].
    assert (q < m) by nia. nia.
Qed.

Lemma first_multiple_unique a e o o' : first_multiple a e o -> first_multiple a e o' -> o = o'.
Proof. intros (A & B & C) (A' & B' & C'). apply Nat.le_antisymm; [apply C | apply C']; assumption. Qed.

Lemma alignof_power t : exists k, alignof t = 2 ^ k.
Proof.
  induction t as [s n k| |n t IH|ts IH] using lay_ind0.
  - now exists k.
  - now exists 0.
  - exact IH.
  - cbn [alignof]. induction IH as [|t ts' [k E] F IHf]; cbn [map fold_right]; [now exists 0|]. destruct IHf as [m E']. rewrite E, E'.
    destruct (Nat.max_dec (2 ^ k) (2 ^ m)) as [->| ->]; eauto.
Qed.

Lemma alignof_pos t : 1 <= alignof t.
Proof. destruct (alignof_power t) as [k ->]. pose proof (Nat.pow_nonzero 2 k). lia. Qed.

Lemma power_divides a b : 2 ^ a <= 2 ^ b -> Nat.divide (2 ^ a) (2 ^ b).
Proof.
  intros H. assert (a <= b).
  { destruct (Nat.le_gt_cases a b); [assumption|]. pose proof (Nat.pow_lt_mono_r 2 b a ltac:(lia) ltac:(lia)). lia. }
  exists (2 ^ (b - a)). rewrite <- Nat.pow_add_r. f_equal. lia.
Qed.

Lemma align_divides t u : alignof t <= alignof u -> Nat.divide (alignof t) (alignof u).
Proof. destruct (alignof_power t) as [a ->], (alignof_power u) as [b ->]. apply power_divides. Qed.

Lemma widest_members ts : (forall t, In t ts -> Nat.divide (alignof t) (widest ts)) /\
  forall a, (forall t, In t ts -> Nat.divide (alignof t) a) -> Nat.divide (widest ts) a.
Proof.
  split.
  - intros t I. change (widest ts) with (alignof (LStruct ts)). apply align_divides. cbn [alignof].
    induction ts as [|x ts' IH]; [destruct I|]. cbn [map fold_right]. destruct I as [->|I]; [lia|]. specialize (IH I). lia.
  - intros a H. unfold widest. induction ts as [|x ts' IH]; cbn [map fold_right]; [apply Nat.divide_1_l|].
    destruct (Nat.max_dec (alignof x) (fold_right Nat.max 1 (map alignof ts'))) as [->| ->].
    + apply H. now left.
    + apply IH. intros t I. apply H. now right.
Qed.

Lemma ends_spec ts : forall off, members_end off ts (ends off ts).
Proof.
  induction ts as [|t ts' IH]; intros off; cbn [ends]; [constructor|]. econstructor; [apply gap_spec, alignof_pos | apply IH].
Qed.

Lemma ends_grow ts : forall off, off <= ends off ts.
Proof. induction ts as [|t ts' IH]; intros off; cbn [ends]; [lia|]. specialize (IH (off + gap off (alignof t) + sizeof t)). lia. Qed.

Lemma size_pos t : real t -> 1 <= sizeof t.
Proof.
  induction t as [s n k| |n t IH|ts IH] using lay_ind0; intros R.
  - cbn [real sizeof] in *. lia.
  - cbn. lia.
  - destruct R as [Hn R]. specialize (IH R). cbn [sizeof]. nia.
  - rewrite sizeof_struct. lia.
Qed.

Lemma struct_size ts : real (LStruct ts) ->
  exists e, members_end 0 ts e /\ first_multiple (alignof (LStruct ts)) (Nat.max 1 e) (sizeof (LStruct ts)).
Proof.
  intros R. exists (ends 0 ts). split; [apply ends_spec|]. rewrite sizeof_struct. change (alignof (LStruct ts)) with (widest ts).
  destruct ts as [|t ts'].
  - cbn. split; [lia|]. split; [apply Nat.divide_1_l|]. intros; lia.
  - assert (1 <= ends 0 (t :: ts')).
    { cbn [ends]. apply real_struct in R. inversion R; subst. pose proof (size_pos t ltac:(assumption)).
      pose proof (ends_grow ts' (0 + gap 0 (alignof t) + sizeof t)). lia. }
    set (e := ends 0 (t :: ts')) in *. rewrite !Nat.max_r by lia. apply gap_spec.
    change (widest (t :: ts')) with (alignof (LStruct (t :: ts'))). apply alignof_pos.
Qed.

Lemma size_multiple t : real t -> Nat.divide (alignof t) (sizeof t).
Proof.
  induction t as [s n k| |n t IH|ts IH] using lay_ind0; intros R.
  - apply Nat.divide_refl.
  - apply Nat.divide_refl.
  - destruct R as [_ R]. cbn [alignof sizeof]. apply Nat.divide_mul_r. now apply IH.
  - destruct (struct_size ts R) as (e & _ & (_ & D & _)). exact D.
Qed.

Lemma layout_laws : forall t, real t -> 1 <= sizeof t /\ Nat.divide (alignof t) (sizeof t) /\
  match t with
  | LNum _ _ k => sizeof t = 2 ^ k /\ alignof t = 2 ^ k
  | LBool => sizeof t = 1 /\ alignof t = 1
  | LArr n u => sizeof t = n * sizeof u /\ alignof t = alignof u
  | LStruct ts =>
      (exists e, members_end 0 ts e /\ first_multiple (alignof t) (Nat.max 1 e) (sizeof t)) /\
      (forall u, In u ts -> Nat.divide (alignof u) (alignof t)) /\
      (forall a, (forall u, In u ts -> Nat.divide (alignof u) a) -> Nat.divide (alignof t) a)
  end.
Proof.
  intros t R. split; [now apply size_pos|]. split; [now apply size_multiple|]. destruct t as [s n k| |n u|ts]; try (split; reflexivity).
  split; [now apply struct_size|]. exact (widest_members ts).
Qed.

(** ** Bytes *)
Lemma nth_repeat_some {A} (a x : A) n i : nth_error (repeat a n) i = Some x <-> i < n /\ x = a.
Proof.
  revert i. induction n as [|n IH]; intros i; cbn [repeat].
  - destruct i; cbn; split; intros H; try discriminate; destruct H; lia.
  - destruct i as [|i]; cbn [nth_error].
    + split; [intros [= ->]; split; [lia | reflexivity] | intros [_ ->]; reflexivity].
    + rewrite IH. split; intros [H E]; split; (lia || assumption).
Qed.

Lemma nth_app_some {A} (a b : list A) i x :
  nth_error (a ++ b) i = Some x <-> (i < length a /\ nth_error a i = Some x) \/ (length a <= i /\ nth_error b (i - length a) = Some x).
Proof.
  destruct (Nat.lt_ge_cases i (length a)) as [L|L].
  - rewrite nth_error_app1 by assumption. split; [auto | intros [[_ H]|[H _]]; [exact H | lia]].
  - rewrite nth_error_app2 by assumption. split; [auto | intros [[H _]|[_ H]]; [lia | exact H]].
Qed.

Lemma member_after e ts o t : member_at e ts o t -> e <= o.
Proof. induction 1 as [e t ts o (A & _)|e t ts o o' t' (A & _) M IH]; lia. Qed.

Definition located (t : lay) : Prop := real t -> forall i p, holds t i p <-> nth_error (kinds t) i = Some (Some p).

Lemma members_located ts : Forall located ts -> Forall real ts -> forall off i p,
  (exists o t j, member_at off ts o t /\ holds t j p /\ o + j = off + i) <-> nth_error (kmembers off ts) i = Some (Some p).
Proof.
  induction ts as [|t ts' IH]; intros S R off i p.
  - cbn. split; [intros (o & t & j & M & _); inversion M | destruct i; discriminate].
  - inversion S as [|? ? S1 S2]; inversion R as [|? ? R1 R2]; subst. cbn [kmembers]. set (g := gap off (alignof t)).
    assert (G : first_multiple (alignof t) off (off + g)) by (apply gap_spec, alignof_pos).
    rewrite nth_app_some, nth_app_some, !repeat_length. rewrite (length_kinds t R1). split.
    + intros (o & u & j & M & H & E). right. inversion M as [? ? ? ? F|? ? ? o1 ? ? F M']; subst.
      * rewrite (first_multiple_unique _ _ _ _ F G) in E. assert (i = g + j) as -> by lia. split; [lia|]. left.
        replace (g + j - g) with j by lia. apply (S1 R1) in H. split; [|exact H].
        rewrite <- (length_kinds u R1). apply nth_error_Some. now rewrite H.
      * rewrite (first_multiple_unique _ _ _ _ F G) in M'. pose proof (member_after _ _ _ _ M') as L.
        split; [lia|]. right. split; [lia|]. apply (IH S2 R2). exists o, u, j. split; [exact M'|]. split; [exact H | lia].
    + intros [[_ H]|[L [[L1 H]|[L1 H]]]].
      * apply nth_repeat_some in H as [_ H]. discriminate.
      * exists (off + g), t, (i - g). split; [now constructor|]. split; [now apply (S1 R1) | lia].
      * apply (IH S2 R2) in H as (o & u & j & M & H & E). exists o, u, j. split; [econstructor; eassumption|]. split; [exact H | lia].
Qed.

Lemma nth_concat_repeat {A} (l : list A) n j i : j < n -> i < length l -> nth_error (concat (repeat l n)) (j * length l + i) = nth_error l i.
Proof.
  revert j. induction n as [|n IH]; intros j Hj Hi; [lia|]. cbn [repeat concat]. destruct j as [|j].
  - rewrite nth_error_app1 by lia. reflexivity.
  - rewrite nth_error_app2 by (cbn; lia). rewrite <- (IH j) by lia. f_equal. cbn. lia.
Qed.

Lemma kinds_holds t : located t.
Proof.
  induction t as [s n k| |n t IH|ts IH] using lay_ind0; intros R i p.
  - cbn [kinds]. rewrite nth_app_some, repeat_length. split.
    + intros H. inversion H; subst. left. split; [assumption|]. now apply nth_repeat_some.
    + intros [[L H]|[_ H]]; apply nth_repeat_some in H as [_ H]; [|discriminate]. injection H as ->. now constructor.
  - cbn [kinds]. split; [intros H; inversion H; reflexivity|]. destruct i as [|[|]]; cbn; try discriminate. intros [= <-]. constructor.
  - destruct R as [_ R]. specialize (IH R). cbn [kinds]. split.
    + intros H. inversion H as [| |? ? j i' ? L H'|]; subst. apply IH in H'. rewrite <- (length_kinds t R).
      rewrite nth_concat_repeat; [exact H' | exact L|]. apply nth_error_Some. now rewrite H'.
    + intros H. assert (B : i < n * length (kinds t)). { rewrite <- length_concat_repeat. apply nth_error_Some. now rewrite H. }
      set (w := length (kinds t)) in *. assert (Hw : w <> 0) by (intros E; rewrite E in B; lia).
      pose proof (Nat.mod_upper_bound i w Hw) as U. assert (L : i / w < n) by (apply Nat.div_lt_upper_bound; lia).
      assert (E : i = i / w * w + i mod w) by (rewrite (Nat.mul_comm (i / w)); now apply Nat.div_mod).
      rewrite E in H. unfold w in H at 2. rewrite nth_concat_repeat in H; [|exact L | exact U].
      rewrite E. replace (i / w * w) with (i / w * sizeof t) by (unfold w; now rewrite length_kinds). constructor; [exact L|]. now apply IH.
  - apply real_struct in R. rewrite kinds_struct, nth_app_some. rewrite <- (members_located ts IH R 0 i p). split.
    + intros H. inversion H as [| | |? o t j ? M H']; subst. left.
      assert (X : exists o0 t0 j0, member_at 0 ts o0 t0 /\ holds t0 j0 p /\ o0 + j0 = 0 + (o + j)) by (exists o, t, j; auto).
      split; [|exact X]. apply nth_error_Some. apply (members_located ts IH R) in X. now rewrite X.
    + intros [[_ (o & t & j & M & H & E)]|[_ H]].
      * cbn in E. rewrite <- E. econstructor; eassumption.
      * apply nth_repeat_some in H as [_ H]. discriminate.
Qed.
