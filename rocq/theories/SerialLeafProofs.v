(** Booleans and numbers in both backends: what is written and what is read. *)
From Coq Require Import List NArith ZArith Arith Bool Lia.
From Verif Require Import Base PathModel EnumModel EnumSpec EnumProofs ScalarModel ScalarSpec ScalarProofs.
From Verif Require Import SerialModel SerialSpec SerialDocSpec.
Import ListNotations.
Local Open Scope Z_scope.

Lemma fits_true t z : fits t z = true <-> of_type t z.
Proof. unfold fits, of_type. rewrite andb_true_iff, !Z.leb_le. tauto. Qed.

Lemma fits_false t z : fits t z = false <-> ~ of_type t z.
Proof. rewrite <- fits_true. destruct (fits t z); intuition discriminate. Qed.

Lemma narrow_spec t s z : (1 <= ibits t)%nat -> (1 <= ibits s)%nat ->
  (forall x, of_type t x -> of_type s x) ->
  narrow t s z = if fits t z then Some z else None.
Proof.
  intros Ht Hs Hsub. unfold narrow. destruct (fits t z) eqn:E.
  - apply fits_true in E. rewrite (wrap_id t z Ht E), (wrap_id s z Hs (Hsub _ E)), Z.eqb_refl. reflexivity.
  - apply fits_false in E. pose proof (wrap_range t z Ht) as Hr.
    rewrite (wrap_id s (wrap t z) Hs (Hsub _ Hr)).
    destruct (Z.eqb_spec (wrap t z) z) as [Ez|_]; [|reflexivity]. rewrite Ez in Hr. contradiction.
Qed.

Lemma sub32 t x : int_type t -> (ibits t < 64)%nat -> of_type t x -> of_type (mkity (isigned t) 32) x.
Proof.
  destruct t as [s b]. unfold int_type, of_type, ity_min, ity_max. cbn. intros H Hb.
  destruct H as [<-|[<-|[<-|[<-|[]]]]], s; cbn; lia.
Qed.

Lemma json_int_spec t j : int_type t ->
  json_int t j = match j with JInt z => if fits t z then Some z else None | _ => None end.
Proof.
  intros Ht. unfold json_int, integral. destruct j; try reflexivity.
  assert (Hin : fits t z = true -> fits i32 z || fits i64 z || fits u32 z || fits u64 z = true).
  { rewrite !orb_true_iff, !fits_true. destruct t as [s b]. revert Ht.
    unfold int_type, of_type, ity_min, ity_max, i32, i64, u32, u64. cbn.
    intros [<-|[<-|[<-|[<-|[]]]]]; destruct s; cbn; lia. }
  destruct (fits i32 z || fits i64 z || fits u32 z || fits u64 z) eqn:Eany.
  2: { destruct (fits t z); [|reflexivity]. specialize (Hin eq_refl). discriminate. }
  clear Hin Eany. pose proof (bits_pos t Ht) as Hb.
  destruct (Nat.ltb_spec (ibits t) 64) as [Hlt|Hge].
  - pose proof (sub32 t) as Hsub. destruct (isigned t).
    + rewrite (narrow_spec t i32 z Hb); [|cbn; lia|intros x; now apply Hsub].
      destruct (fits i32 z) eqn:E32; [destruct (fits t z); reflexivity|].
      destruct (fits t z) eqn:Et; [|reflexivity]. apply fits_true in Et. apply fits_false in E32.
      destruct E32. now apply Hsub.
    + rewrite (narrow_spec t u32 z Hb); [|cbn; lia|intros x; now apply Hsub].
      destruct (fits u32 z) eqn:E32; [destruct (fits t z); reflexivity|].
      destruct (fits t z) eqn:Et; [|reflexivity]. apply fits_true in Et. apply fits_false in E32.
      destruct E32. now apply Hsub.
  - destruct t as [s b]. cbn in *. assert (b = 64%nat) by (unfold int_type in Ht; cbn in Ht; lia). subst b.
    destruct s; fold i64 u64; [destruct (fits i64 z)|destruct (fits u64 z)]; reflexivity.
Qed.

Section WithBackend.
Context (be : backend).

(** ** Written *)

Lemma enc_bool_spec b j : enc_bool be b = j <-> bool_doc be b j.
Proof. unfold enc_bool, bool_doc. destruct be, b; cbn; split; congruence. Qed.

Lemma enc_int_spec z j : enc_int be z = j <-> int_doc be z j.
Proof.
  unfold enc_int, int_doc. destruct be; [split; congruence|]. split.
  - intros <-. eexists. split; [reflexivity|]. now apply int_text_decimal.
  - intros (s & -> & Hs). apply int_text_decimal in Hs. congruence.
Qed.

Lemma enc_dbl_spec b j : enc_dbl be b = j <-> dbl_doc be b j.
Proof. unfold enc_dbl, dbl_doc. destruct be; split; congruence. Qed.

Lemma enc_flt_spec b j : enc_flt be b = j <-> flt_doc be b j.
Proof. unfold enc_flt, flt_doc. destruct be; split; congruence. Qed.

Lemma enc_bool_null b : is_null (enc_bool be b) = false.
Proof. now destruct be. Qed.

Lemma enc_int_null z : is_null (enc_int be z) = false.
Proof. now destruct be. Qed.

Lemma enc_dbl_null b : is_null (enc_dbl be b) = false.
Proof. now destruct be. Qed.

Lemma enc_flt_null b : is_null (enc_flt be b) = false.
Proof. now destruct be. Qed.

(** ** Read *)

Lemma scalar_some j s : scalar j = Some s <-> j = JStr s.
Proof. destruct j; cbn; split; congruence. Qed.

Lemma through_spec {A} (f : list N -> option A) j x :
  through f (scalar j) = Some x <-> exists s, j = JStr s /\ f s = Some x.
Proof.
  destruct (scalar j) as [s|] eqn:E; cbn [through].
  - apply scalar_some in E. subst j. split; [eauto|]. intros (s' & [= <-] & H). exact H.
  - split; [discriminate|]. intros (s & -> & _). discriminate.
Qed.

Lemma dec_bool_spec j b : dec_bool be j = Some b <-> bool_read be j b.
Proof.
  unfold dec_bool, bool_read. destruct be.
  - destruct j; split; congruence.
  - rewrite through_spec. setoid_rewrite text_bool_spec. reflexivity.
Qed.

Lemma dec_int_spec it j z : int_type it -> dec_int be it j = Some z <-> int_read be it j z.
Proof.
  intros Hi. unfold dec_int, int_read. destruct be.
  - rewrite json_int_spec by exact Hi. destruct j; try (split; [discriminate|intros [_ H]; discriminate]).
    destruct (fits it z0) eqn:E.
    + apply fits_true in E. split; [intros [= ->]; auto|]. intros [_ H]. congruence.
    + apply fits_false in E. split; [discriminate|]. intros [H [= ->]]. contradiction.
  - rewrite through_spec. setoid_rewrite text_int_spec. split.
    + intros (s & -> & Hm & Ht). eauto.
    + intros (Ht & s & -> & Hm). eauto.
Qed.

Lemma dec_dbl_spec j x : dec_dbl be j = Some x <-> dbl_read be j x.
Proof.
  unfold dec_dbl, dbl_read. destruct be.
  - destruct j; cbn; split; try discriminate; try (intros [H|(z' & H & _)]; discriminate).
    + intros [= <-]. eauto.
    + intros [H|(z' & [= <-] & ->)]; [discriminate|reflexivity].
    + intros [= <-]. auto.
    + intros [[= ->]|(z' & H & _)]; [reflexivity|discriminate].
  - apply through_spec.
Qed.

Lemma dec_flt_spec j x : dec_flt be j = Some x <-> flt_read be j x.
Proof.
  unfold dec_flt, flt_read. destruct be.
  - destruct j; cbn; split; try discriminate; try (intros [(y & H & _)|(z' & H & _)]; discriminate).
    + intros [= <-]. eauto.
    + intros [(y & H & _)|(z' & [= <-] & ->)]; [discriminate|reflexivity].
    + intros [= <-]. eauto.
    + intros [(y & [= <-] & ->)|(z' & H & _)]; [reflexivity|discriminate].
  - apply through_spec.
Qed.

Lemma dec_int_typed it j z : int_type it -> dec_int be it j = Some z -> of_type it z.
Proof. intros Hi H. apply dec_int_spec in H; [|exact Hi]. exact (proj1 H). Qed.

(** ** Written and read *)

Lemma dec_enc_bool b : dec_bool be (enc_bool be b) = Some b.
Proof. destruct be; [reflexivity|]. cbn. apply text_bool_text. Qed.

Lemma dec_enc_int it z : int_type it -> of_type it z -> dec_int be it (enc_int be z) = Some z.
Proof.
  intros Hi Hz. unfold dec_int, enc_int. destruct be.
  - rewrite json_int_spec by exact Hi. now rewrite (proj2 (fits_true it z) Hz).
  - cbn. now apply text_int_text.
Qed.

Lemma dec_enc_dbl b : dbl_survives be b -> dec_dbl be (enc_dbl be b) = Some b.
Proof. unfold dbl_survives, dec_dbl, enc_dbl. destruct be; cbn; auto. Qed.

Lemma dec_enc_flt b : flt_survives be b -> dec_flt be (enc_flt be b) = Some b.
Proof. unfold flt_survives, dec_flt, enc_flt. destruct be; cbn; [now intros ->|auto]. Qed.

(** ** Assigned *)

Lemma take_spec {A} (mk : A -> val) (r : option A) (P : A -> Prop) w v e :
  (forall x, r = Some x <-> P x) -> take mk r w = (v, e) <-> leaf P mk w v e.
Proof.
  intros HP. unfold take, leaf, refused. destruct r as [x|].
  - split.
    + intros [= <- <-]. left. exists x. repeat split. now apply HP.
    + intros [(y & Hy & -> & ->)|(Hn & _)]; [|destruct (Hn x); now apply HP].
      apply HP in Hy. congruence.
  - split.
    + intros [= <- <-]. right. repeat split. intros x Hx. apply HP in Hx. discriminate.
    + intros [(y & Hy & _)|(_ & -> & ->)]; [apply HP in Hy; discriminate|reflexivity].
Qed.

Lemma take_done {A} (mk : A -> val) (r : option A) w v : take mk r w = (v, None) -> exists x, r = Some x /\ v = mk x.
Proof. destruct r as [x|]; [|discriminate]. intros [= <-]. eauto. Qed.

End WithBackend.
