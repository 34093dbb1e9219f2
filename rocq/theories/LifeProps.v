(** Lifetimes of JSON trees: properties C141 and C142. *)
From Coq Require Import List Arith Bool.
From Verif Require Import Base LifeModel LifeSpec LifeSamples LifeProofs LifeBackProofs LifeGiveProofs.
Import ListNotations.

(** ** C141 *)

(** What ordinary objects are serialized to is read right as long as its own arena lives, whatever becomes of the object. *)
Theorem documents_outlive_objects : forall live limit skip a o, ordinary o = true -> lives live (sources skip o) ->
  exists v, serialize live limit skip a o = Ok v /\ forall live', live' a = true -> live' statics = true -> read live' v = Ok (meaning skip o).
Proof. exact document_outlives. Qed.
Print Assumptions documents_outlive_objects.

(** Any object: as long as what it keeps lives as well, *)
Theorem trees_read_while_kept : forall live limit skip a o v live', serialize live limit skip a o = Ok v ->
  lives live' (kept skip o) -> (spacious limit skip o = true -> live' a = true) -> read live' v = Ok (meaning skip o).
Proof. exact serialize_reads. Qed.
Print Assumptions trees_read_while_kept.

(** and no longer. *)
Theorem trees_dangle_after : forall live limit skip a o v live' r, serialize live limit skip a o = Ok v ->
  In r (kept skip o) \/ (r = a /\ spacious limit skip o = true) -> live' r = false -> read live' v = UB.
Proof. exact serialize_dangles. Qed.
Print Assumptions trees_dangle_after.

(** Serialization itself is undefined exactly if a source is gone or a view shows nothing. *)
Theorem serialization_defined_exactly : forall live limit skip a o,
  (engaged skip o = true -> lives live (sources skip o) -> exists v, serialize live limit skip a o = Ok v) /\
  ((engaged skip o = false \/ ~ lives live (sources skip o)) -> serialize live limit skip a o = UB).
Proof. exact serialize_total. Qed.
Print Assumptions serialization_defined_exactly.

(** Maps with [const char*] keys, names given to [add], and views of such trees keep pointers into buffers that are not theirs. *)
Theorem documents_outlive_objects_refuted :
  later pointer_map [3] = UB /\ later added [3] = UB /\ later shown [3; 5] = UB /\ later (O_ref 3 [97]) [3] = UB.
Proof. repeat split; vm_compute; reflexivity. Qed.
Print Assumptions documents_outlive_objects_refuted.

(** Trees do not outlive the [owning_serialize_context] that made them. *)
Theorem trees_outlive_contexts_refuted : exists o, ordinary o = true /\ later o [arena] = UB.
Proof. exists (O_seq [O_scalar 1]). split; vm_compute; reflexivity. Qed.
Print Assumptions trees_outlive_contexts_refuted.

(** A [json::view] that shows nothing cannot be serialized, not even as null. *)
Theorem empty_views_serialize_refuted : serialize all 13 true arena (O_object [(Name, (statics, [97]), O_view None)]) = UB.
Proof. reflexivity. Qed.
Print Assumptions empty_views_serialize_refuted.

Example record_outlived : ordinary record = true /\ sources true record = [3; 4; 4] /\
  later record [2; 3; 4] = Ok (T_obj [([97], T_str long); ([99], T_obj [(long, T_scalar 1); ([100], T_scalar 2)])]) /\ later record [arena] = UB.
Proof. repeat split; vm_compute; reflexivity. Qed.
Example names_copied : later added_dynamic [3] = Ok (T_obj [([97], T_scalar 1)]) /\ later added [] = Ok (T_obj [([97], T_scalar 1)]) /\
  later shown [5] = Ok (T_obj [([97], T_scalar 1)]) /\ ordinary added = false /\ ordinary added_dynamic = true.
Proof. repeat split; vm_compute; reflexivity. Qed.
Example short_texts_need_no_arena : later (O_text 3 [97]) [arena; 3] = Ok (T_str [97]) /\ later (O_text 3 long) [arena] = UB.
Proof. split; vm_compute; reflexivity. Qed.

(** ** C142 *)

(** [parse] copies the text. *)
Theorem parsed_documents_own_their_text : forall limit a t live, live a = true -> read live (parsed limit a t) = Ok t.
Proof. exact parse_reads. Qed.
Print Assumptions parsed_documents_own_their_text.

(** No part of a live document is read outside of it. *)
Theorem deserialization_defined : forall live ty c v, lives live (c :: statics :: refs v) -> deserialize live ty c v <> UB.
Proof. exact deserialize_defined. Qed.
Print Assumptions deserialization_defined.

(** What is made of it is what it says, first members first; or it says nothing for that type, and there is an exception. *)
Theorem deserialized_is_what_documents_say : forall live ty c v, lives live (c :: statics :: refs v) ->
  (exists res, deserialize live ty c v = Ok res /\ gives ty (contents v) res) \/
  (deserialize live ty c v = Throws /\ forall res, ~ gives ty (contents v) res).
Proof. exact deserialize_exactly. Qed.
Print Assumptions deserialized_is_what_documents_say.

(** Objects without string views and views can be used when the document is gone, *)
Theorem owning_objects_outlive_documents : forall live ty c v res live', owning ty = true -> deserialize live ty c v = Ok res -> use live' res = Ok tt.
Proof. exact owned_outlives. Qed.
Print Assumptions owning_objects_outlive_documents.

(** others while it lives; *)
Theorem borrowing_objects_need_documents : forall live ty c v res live', deserialize live ty c v = Ok res ->
  lives live' (statics :: refs v) -> (borrows_root ty = true -> live' c = true) -> use live' res = Ok tt.
Proof. exact borrowed_while. Qed.
Print Assumptions borrowing_objects_need_documents.

(** and they survive moves of the document, if they do not show its root. *)
Theorem borrowing_objects_survive_moves : forall live limit a ty c t res live', deserialize live ty c (parsed limit a t) = Ok res ->
  borrows_root ty = false -> live' a = true -> live' statics = true -> use live' res = Ok tt.
Proof. exact moved_document. Qed.
Print Assumptions borrowing_objects_survive_moves.

Theorem borrowing_objects_outlive_documents_refuted :
  used_later (D_seq D_string_view) (T_arr [T_str [97]]) [variable; arena] = UB /\ used_later (D_seq D_view) (T_arr [T_null]) [variable; arena] = UB.
Proof. split; vm_compute; reflexivity. Qed.
Print Assumptions borrowing_objects_outlive_documents_refuted.

(** A short string or a view of the root is gone when the document is moved; a long string is not. *)
Theorem borrowing_roots_survive_moves_refuted :
  used_later D_string_view (T_str [97]) [variable] = UB /\ used_later D_view T_null [variable] = UB /\ used_later D_string_view (T_str long) [variable] = Ok tt.
Proof. repeat split; vm_compute; reflexivity. Qed.
Print Assumptions borrowing_roots_survive_moves_refuted.

Example views_of_a_document : deserialize all views variable (parsed 13 arena document) =
    Ok (R_struct [R_string_view arena [120]; R_seq [R_string_view arena long]; R_view statics Null; R_none]) /\
  used_later views document [variable] = Ok tt /\ used_later views document [arena] = UB /\ borrows_root views = false.
Proof. repeat split; vm_compute; reflexivity. Qed.
Example strings_of_a_document : owning (D_map (D_optional D_string)) = true /\
  used_later (D_map (D_optional D_string)) (T_obj [([97], T_str long); ([98], T_null)]) [variable; arena; statics] = Ok tt.
Proof. split; vm_compute; reflexivity. Qed.
Example dead_documents_are_noticed : deserialize (without [arena]) (D_seq D_string) variable (parsed 13 arena (T_arr [T_str [97]])) = UB.
Proof. vm_compute. reflexivity. Qed.
