(** [json::deserialize<T>], [yaml::deserialize<T>] and the objects that they make (C168). *)
From Coq Require Import List ZArith NArith Arith Bool.
From Verif Require Import Base PathModel EnumModel SerialModel SerialSpec SerialSamples InitModel InitSpec InitProofs InitSamples.
Import ListNotations.

(** C168: if all of the object has a value from the start or is read from every document, the result is that of reading
    into a value-initialized object, whatever was in the storage. *)
Theorem new_as_value_initialized : forall be mi g t j w v,
  settled mi t -> initialized mi t -> value_initialized mi t w ->
  (deserialize_new be mi g t j = Ok v <-> deser be t j w = (v, None)) /\
  (deserialize_new be mi g t j = Throws <-> exists v e, deser be t j w = (v, Some e)).
Proof. intros be mi g t j w v S I V. split; [exact (new_settled be mi g t j w v S I V) | exact (new_settled_throws be mi g t j w S I V)]. Qed.
Print Assumptions new_as_value_initialized.

Example mixed_settled : settled inits_five mixed_ty /\ initialized inits_five mixed_ty /\
  value_initialized inits_five mixed_ty (VRec [VInt 0; VInt 5; VStr []]).
Proof.
  cbn. repeat split; auto; try discriminate.
  - right. right. split; [|exact I]. intros [|(_ & _ & H & _)]; discriminate.
  - eexists. split; [reflexivity|]. cbn. repeat split; auto; discriminate.
Qed.
Example mixed_read : forall g, deserialize_new (Json fp0) inits_five g mixed_ty (JObj [([97%N], JInt 3)]) =
  Ok (VRec [VInt 3; VInt 5; VStr []]).
Proof. intros g. vm_compute. reflexivity. Qed.

(** A scalar member without an initializer that the document does not say is returned as the storage was. *)
Theorem unread_scalars_returned : forall be mi g fs ms v,
  deserialize_new be mi g (TRec fs) (JObj ms) = Ok v ->
  exists vs, v = VRec vs /\
  forall i a t, nth_error fs i = Some (a, t) -> scalar_type t ->
  a_skip_deser a = true \/ (ordinary a /\ Forall (absent ms) (lookup_names a) /\ a_allow_missing a = true /\ a_default a = None) ->
  (mi a = true -> nth_error vs i = Some (a_init a)) /\ (mi a = false -> nth_error vs i = Some (g [i] t)).
Proof. exact new_scalar_stays. Qed.
Print Assumptions unread_scalars_returned.

(** Objects that are read into are of their type from the start, and so are the results. *)
Theorem new_objects_typed : forall be mi g t j v,
  storage g -> wf t -> deserialize_new be mi g t j = Ok v -> typed t v.
Proof. exact new_typed. Qed.
Print Assumptions new_objects_typed.
Example ones_storage : storage (all_storage 1).
Proof.
  intros p t W Sc. destruct t as [ |[sg n]| | | | | | | | |[[sg n] tab u]| | ]; try contradiction; cbn in *; auto.
  - cbn in W. decompose [or] W; subst; try contradiction; destruct sg; split; cbn; discriminate.
  - destruct W as [W _]. cbn in W. decompose [or] W; subst; try contradiction; destruct sg; split; cbn; discriminate.
Qed.

(** That the result is given by the document fails: [struct { int a; }] with [allow_missing], read from an empty object, is
    what the storage held; in a [std::optional], from the same object, it is 0. *)
Theorem new_given_by_document_refuted : exists t j,
  (forall g, deserialize_new (Json fp0) nowhere g t j = Ok (VRec [g [0%nat] int32])) /\
  (forall g, deserialize_new (Json fp0) nowhere g (TOpt t) j = Ok (VSome (VRec [VInt 0]))) /\
  deserialize_new (Json fp0) nowhere (all_storage 1) t j <> deserialize_new (Json fp0) nowhere (all_storage 2) t j.
Proof. exists bare_ty, (JObj []). split; [reflexivity|]. split; [reflexivity|]. discriminate. Qed.
Print Assumptions new_given_by_document_refuted.
