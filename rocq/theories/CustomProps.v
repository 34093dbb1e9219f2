(** C113: types customized by the user. *)
From Coq Require Import String List NArith ZArith Arith Bool.
From Verif Require Import Base PathModel ScalarModel SerialModel SerialSpec SerialSamples SerialBaseProofs SerialRoundProofs SerialMsgModel.
From Verif Require Import CustomModel CustomSpec CustomProofs CustomPairProofs CustomSamples.
Import ListNotations.

(** Types without customizations always compile, and mean what SerialModel says. *)
Theorem library_writes_unchanged : forall be skip table t, plain_type t ->
  exists s d, r_ser be skip table t = Some s /\ r_dump be skip table t = Some d /\
    forall v, s v = serialize be skip (described t) v /\ d v = dump be skip (described t) v.
Proof.
  exact (fun be skip table t H =>
    match ser_plain be skip table t H, dump_plain be skip table t H with
    | ex_intro _ s (conj Es Hs), ex_intro _ d (conj Ed Hd) =>
        ex_intro _ s (ex_intro _ d (conj Es (conj Ed (fun v => conj (Hs v) (Hd v)))))
    end).
Qed.
Print Assumptions library_writes_unchanged.

Theorem library_reads_unchanged : forall be table t, plain_type t ->
  exists d p, r_deser be table t = Some d /\ r_patch be table t = Some p /\
    forall j w, d j w = deser be (described t) j w /\ p j w = patch be (described t) j w.
Proof.
  exact (fun be table t H =>
    match deser_plain be table t H, patch_plain be table t H with
    | ex_intro _ d (conj Ed Hd), ex_intro _ p (conj Ep Hp) =>
        ex_intro _ d (ex_intro _ p (conj Ed (conj Ep (fun j w => conj (Hd j w) (Hp j w)))))
    end).
Qed.
Print Assumptions library_reads_unchanged.

(** Customizations that are inverse to each other are, wherever the type occurs. *)
Theorem custom_round_trip : forall be skip table t v w s d, kept be skip table t v w ->
  r_ser be skip table t = Some s -> r_deser be table t = Some d -> forall j, s v = Ok j -> d j w = (v, None).
Proof. exact (fun be skip table t v w s d H Es Ed => kept_lemma be skip table t v w H s d Es Ed). Qed.
Print Assumptions custom_round_trip.

(** Writing to a stream and to a tree agree when the customizations come in pairs that do. *)
Theorem custom_dump_agrees : forall be skip table t s, dumps_in_pairs table t -> r_ser be skip table t = Some s ->
  exists d, r_dump be skip table t = Some d /\
    forall v, match s v with
              | Ok j => d v = (accept j, Ok tt)
              | Throws => snd (d v) = Throws
              | UB => snd (d v) = UB
              end.
Proof. exact (fun be skip table t s H => dump_pairs_lemma be skip table t H s). Qed.
Print Assumptions custom_dump_agrees.

(** A type whose [serializer] reads but does not patch is never patched, however deep. *)
Theorem no_guessed_patch : forall be table t k p, patched_in table t k -> r_patch be table t = Some p ->
  z_deser (table k) <> None -> z_patch (table k) <> None.
Proof. exact (fun be table t k p H => patched_lemma be table t k H p). Qed.
Print Assumptions no_guessed_patch.

(** With overloads nothing checks that: the document the type writes is accepted as a patch, and changes nothing. *)
Theorem patched_by_document_refuted : forall be skip, exists table t s d p v w j,
  r_ser be skip table t = Some s /\ r_deser be table t = Some d /\ r_patch be table t = Some p /\
  s v = Ok j /\ d j w = (v, None) /\ p j w = (w, None) /\ v <> w.
Proof.
  intros be skip. exists (overloads_no_patch be skip), point. eexists _, _, _. exists p12, origin, (JObj [(bytes "a", enc_int be 1); (bytes "b", enc_int be 2)]).
  split; [reflexivity|]. split; [reflexivity|]. split; [reflexivity|]. destruct be, skip; (split; [vm_compute; reflexivity|]); repeat split; discriminate.
Qed.
Print Assumptions patched_by_document_refuted.

(** An overload of [patch_adl] for every tag, as the comment recommends, is not called for a reflected type. *)
Theorem patch_overload_called_refuted : forall be, exists table t k own o p j w,
  t = CUser k own /\ z_patch (table k) = None /\ adl_patch (table k) = Some o /\ r_patch be table t = Some p /\ p j w <> code o j w.
Proof.
  intros be. exists (patch_of_any_tag be), point, 0, (Some point_own). eexists _, _. exists (JObj [(bytes "a", enc_int be 1)]), origin.
  split; [reflexivity|]. split; [reflexivity|]. split; [reflexivity|]. split; [reflexivity|]. destruct be; vm_compute; discriminate.
Qed.
Print Assumptions patch_overload_called_refuted.

(** Overloads of the others for every tag make a reflected type one that does not compile. *)
Theorem any_tag_compiles_refuted : forall be skip, exists table k own,
  adl_ser (table k) <> None /\ adl_deser (table k) <> None /\
  r_ser be skip table own <> None /\ r_deser be table own <> None /\
  r_ser be skip table (CUser k None) <> None /\ r_deser be table (CUser k None) <> None /\
  r_ser be skip table (CUser k (Some own)) = None /\ r_deser be table (CUser k (Some own)) = None.
Proof. intros be skip. exists (by_overloads be skip true), 0, point_own. repeat split; discriminate. Qed.
Print Assumptions any_tag_compiles_refuted.

(** Half a customization is used, and the other half is the library: the stream and the tree differ. *)
Theorem half_customized_refuted : forall be skip, exists table t s d v j,
  r_ser be skip table t = Some s /\ r_dump be skip table t = Some d /\ s v = Ok j /\ snd (d v) = Ok tt /\ fst (d v) <> accept j.
Proof.
  intros be skip. exists (serialize_only be skip), point. eexists _, _. exists p12, (JObj [(bytes "a", enc_int be 1); (bytes "b", enc_int be 2)]).
  split; [reflexivity|]. split; [reflexivity|]. destruct be, skip; (split; [vm_compute; reflexivity|]); (split; [vm_compute; reflexivity|]); vm_compute; discriminate.
Qed.
Print Assumptions half_customized_refuted.

Example shape_kept : forall be,
  kept be true (by_serializer be true) shape a_shape (c_default (by_serializer be true) shape) /\
  dumps_in_pairs (by_serializer be true) shape /\
  option_map (fun s => s a_shape) (r_ser be true (by_serializer be true) shape) = Some (Ok (shape_doc be)) /\
  r_deser be (by_serializer be true) shape <> None.
Proof.
  intros be.
  assert (K : forall p, p = p12 \/ p = p34 -> kept be true (by_serializer be true) point p origin).
  { intros p [->| ->] j Ej; destruct be; vm_compute in Ej; injection Ej as <-; vm_compute; reflexivity. }
  assert (D : dumps_in_pairs (by_serializer be true) point) by exact (fun v => SerialDumpProofs.dump_lemma be true wire v).
  split; [|split; [|split]].
  - cbn [kept shape a_shape c_default map snd].
    split; [repeat constructor; cbn; intuition discriminate|].
    assert (K1 := K p12 (or_introl eq_refl)). assert (K3 := K p34 (or_intror eq_refl)).
    split; [|split; [|split; [|exact I]]]; (split; [|try discriminate]).
    + exact I.
    + intros _. exact I.
    + exact (conj K1 (conj K3 I)).
    + split; [split; [intros ? []|exact I]|]. exact (conj (conj eq_refl K3) I).
  - cbn [dumps_in_pairs shape all1 snd]. repeat split; exact D.
  - destruct be; vm_compute; reflexivity.
  - discriminate.
Qed.

Example shape_patched : forall be,
  patched_in (by_serializer be true) shape 0 /\ z_deser (by_serializer be true 0) <> None /\
  option_map (fun p => p (JObj [(bytes "at", JObj [(bytes "b", enc_int be 9)])]) (VRec [VSome p12; VSeq []; VMap []]))
    (r_patch be (by_serializer be true) shape) = Some (VRec [VSome (VRec [VInt 1; VInt 9]); VSeq []; VMap []], None) /\
  r_patch be (no_patch be true) shape = None.
Proof.
  intros be. split; [|split; [discriminate|split; [|reflexivity]]].
  - eapply patched_field; [now left|]. apply patched_opt, patched_here.
  - destruct be; vm_compute; reflexivity.
Qed.

Example overloads_kept : forall be,
  kept be true (by_overloads be true false) bare_point p12 origin /\ kept be true (by_overloads be true false) point p34 origin /\
  dumps_in_pairs (by_overloads be true false) point /\ r_ser be true (by_overloads be true false) point <> None.
Proof.
  intros be. split; [|split; [|split]].
  - intros j Ej; destruct be; vm_compute in Ej; injection Ej as <-; vm_compute; reflexivity.
  - intros j Ej; destruct be; vm_compute in Ej; injection Ej as <-; vm_compute; reflexivity.
  - split; [reflexivity|]. exact (fun v => SerialDumpProofs.dump_lemma be true wire v).
  - discriminate.
Qed.

Example plain_shape : forall be table,
  plain_type (CRec [(bytes "p", point_own)]) /\
  option_map (fun s => s (VRec [p12])) (r_ser be true table (CRec [(bytes "p", point_own)])) =
    Some (Ok (JObj [(bytes "p", JObj [(bytes "x", enc_int be 1); (bytes "y", enc_int be 2)])])).
Proof. intros be table. split; [cbn; tauto|]. destruct be; vm_compute; reflexivity. Qed.
