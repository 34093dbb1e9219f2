(** C30-C38, C75-C77: serialization. *)
From Coq Require Import List NArith ZArith Arith Bool Lia.
From Verif Require Import Base EnumModel EnumSpec SerialModel SerialSpec SerialFlatSpec SerialFlatProofs SerialTypeProofs SerialDumpProofs SerialIntProofs
  SerialKeyProofs SerialRoundProofs SerialFieldProofs SerialPatchProofs SerialTextProofs SerialMoreProofs SerialSamples.
Import ListNotations.

(* ------------------------------------------------------------------ *)
(** ** C30 *)

(** What was written reads back as the same value, into an object holding [w];
    [rt] has the conditions. *)
Theorem serialize_round_trip : forall be skip t v w j, wf t -> typed t v -> rt be skip t v w ->
  serialize be skip t v = Ok j -> deser be t j w = (v, None).
Proof. exact round_trip_lemma. Qed.
Print Assumptions serialize_round_trip.

(** Serialization fails exactly on clashing names. *)
Theorem serialize_succeeds_iff : forall be skip t v, wf t -> typed t v ->
  ((exists j, serialize be skip t v = Ok j) <-> writable skip t None v) /\
  (serialize be skip t v = Throws <-> ~ writable skip t None v).
Proof. exact serialize_succeeds. Qed.
Print Assumptions serialize_succeeds_iff.

(** Outside the conditions values are lost: an empty optional inside an optional,
    a null entry of a map. *)
Theorem round_trip_nested_null_refuted : forall be,
  (exists v j, typed opt_opt_ty v /\ serialize be true opt_opt_ty v = Ok j /\ deser be opt_opt_ty j VNone <> (v, None)) /\
  (exists v j, typed map_opt_ty v /\ serialize be true map_opt_ty v = Ok j /\ deser be map_opt_ty j (VMap []) <> (v, None)) /\
  (exists v j e, typed skipped_ty v /\ serialize be true skipped_ty v = Ok j /\
     snd (deser be skipped_ty j (default_of skipped_ty)) = Some e).
Proof.
  intros be. split; [|split].
  - exists (VSome VNone), JNull. split; [exact I|]. split; [reflexivity|]. discriminate.
  - exists (VMap [([97%N], VNone)]), (JObj []). split; [split; [split; [intros k []|exact I]|split; exact I]|].
    split; [reflexivity|]. discriminate.
  - exists (VRec [VSeq []]), (JObj []), EDeser. split; [split; exact I|]. split; reflexivity.
Qed.
Print Assumptions round_trip_nested_null_refuted.

(* ------------------------------------------------------------------ *)
(** ** C31 *)

Theorem dump_writes_serialized : forall be skip t v,
  match serialize be skip t v with
  | Ok j => dump be skip t v = (accept j, Ok tt)
  | Throws => snd (dump be skip t v) = Throws
  | UB => snd (dump be skip t v) = UB
  end.
Proof. exact dump_lemma. Qed.
Print Assumptions dump_writes_serialized.

(** The calls determine the document. *)
Theorem written_calls_determine_document : forall j j', accept j = accept j' -> j = j'.
Proof. exact accept_injective. Qed.
Print Assumptions written_calls_determine_document.

(* ------------------------------------------------------------------ *)
(** ** C32 *)

Theorem integer_exact_or_refused : forall fp t out, int_type t ->
  (forall z, of_type t z -> deser (Json fp) (TInt t) (JInt z) out = (VInt z, None)) /\
  (forall z, ~ of_type t z -> deser (Json fp) (TInt t) (JInt z) out = (out, Some EDeser)) /\
  (forall j, (forall z, j <> JInt z) -> deser (Json fp) (TInt t) j out = (out, Some EDeser)).
Proof. exact int_exact_lemma. Qed.
Print Assumptions integer_exact_or_refused.

(* ------------------------------------------------------------------ *)
(** ** C33 *)

Theorem missing_and_null_policy : forall be fs ms vs vs', wf (TRec fs) -> typed (TRec fs) (VRec vs) ->
  deser be (TRec fs) (JObj ms) (VRec vs) = (VRec vs', None) ->
  forall i a t v v', nth_error fs i = Some (a, t) -> nth_error vs i = Some v -> nth_error vs' i = Some v' ->
  ordinary a ->
  (Forall (absent ms) (lookup_names a) ->
     match a_default a with
     | Some d => v' = d
     | None => if a_allow_missing a then v' = v else deser be t JNull v = (v', None)
     end) /\
  (first_named ms (lookup_names a) JNull ->
     match a_default a with Some d => v' = d | None => deser be t JNull v = (v', None) end) /\
  (forall j, j <> JNull -> first_named ms (lookup_names a) j -> deser be t j v = (v', None)).
Proof. exact policy_lemma. Qed.
Print Assumptions missing_and_null_policy.

(** The whole reading of an object, successful or not: fields one after the
    other, the first failure stops and leaves the rest. *)
Theorem object_read_field_by_field : forall be fs ms vs, wf (TRec fs) -> typed (TRec fs) (VRec vs) ->
  (any_extra_or_flatten fs = true -> distinct_names (TRec fs)) ->
  exists vs' e, deser be (TRec fs) (JObj ms) (VRec vs) = (VRec vs', e) /\
    in_order (field_reads (deser be) (all_names (TRec fs)) ms) fs vs vs' e.
Proof. exact deser_object_lemma. Qed.
Print Assumptions object_read_field_by_field.

(** Clashing names are refused before anything is read. *)
Theorem clashing_names_refused : forall be fs ms vs, any_extra_or_flatten fs = true -> ~ distinct_names (TRec fs) ->
  deser be (TRec fs) (JObj ms) (VRec vs) = (VRec vs, Some ELogic) /\
  patch be (TRec fs) (JObj ms) (VRec vs) = (VRec vs, Some ELogic) /\
  forall skip, serialize be skip (TRec fs) (VRec vs) = Throws.
Proof. exact deser_clash_lemma. Qed.
Print Assumptions clashing_names_refused.

(* ------------------------------------------------------------------ *)
(** ** C34 *)

(** The canonical name if the document has it, else the first alias it has. *)
Theorem aliases_in_declared_order : forall be fs ms vs vs', wf (TRec fs) -> typed (TRec fs) (VRec vs) ->
  forall i a t v v', nth_error fs i = Some (a, t) -> nth_error vs i = Some v -> nth_error vs' i = Some v' -> ordinary a ->
  (deser be (TRec fs) (JObj ms) (VRec vs) = (VRec vs', None) ->
   forall j, first_named ms (lookup_names a) j -> present_policy a (deser be t) j v (v', None)) /\
  (patch be (TRec fs) (JObj ms) (VRec vs) = (VRec vs', None) ->
   forall j, first_named ms (lookup_names a) j -> present_policy a (patch be t) j v (v', None)).
Proof. exact lookup_lemma. Qed.
Print Assumptions aliases_in_declared_order.

(** Every document has a first name of the list, or none of them. *)
Theorem first_name_exists_and_is_unique : forall ms l,
  ((exists j, first_named ms l j) \/ Forall (absent ms) l) /\
  (forall j, first_named ms l j -> ~ Forall (absent ms) l) /\
  (forall j j', first_named ms l j -> first_named ms l j' -> j = j').
Proof.
  exact (fun ms l => conj (first_named_or_absent ms l) (conj (first_named_absent ms l) (first_named_fun ms l))).
Qed.
Print Assumptions first_name_exists_and_is_unique.

(* ------------------------------------------------------------------ *)
(** ** C35 *)

Theorem validators_pass_after_reading : forall be fs ms vs vs', wf (TRec fs) -> typed (TRec fs) (VRec vs) ->
  deser be (TRec fs) (JObj ms) (VRec vs) = (VRec vs', None) ->
  forall i a t v v', nth_error fs i = Some (a, t) -> nth_error vs i = Some v -> nth_error vs' i = Some v' ->
  ordinary a ->
  (exists j, first_named ms (lookup_names a) j /\ (j <> JNull \/ a_default a = None)) \/
  (Forall (absent ms) (lookup_names a) /\ a_default a = None /\ a_allow_missing a = false) ->
  accepted a v'.
Proof. exact validators_lemma. Qed.
Print Assumptions validators_pass_after_reading.

(** A struct read from an array: every field that is read. *)
Theorem validators_pass_after_reading_array : forall be fs js vs vs',
  deser be (TRec fs) (JArr js) (VRec vs) = (VRec vs', None) ->
  forall i a t v', nth_error fs i = Some (a, t) -> nth_error vs' i = Some v' -> a_skip_deser a = false -> accepted a v'.
Proof. exact array_validators_lemma. Qed.
Print Assumptions validators_pass_after_reading_array.

(** All the structs inside a value at once, when the defaults are valid. *)
Theorem validity_is_kept : forall be t, wf t -> defaults_validated t ->
  validated t (default_of t) /\
  (forall j w v, validated t w -> deser be t j w = (v, None) -> validated t v) /\
  (forall j w v, validated t w -> patch be t j w = (v, None) -> validated t v).
Proof. exact (fun be t Hw Hd => conj (default_validated t Hd) (conj (deser_valid be t Hw Hd) (patch_valid be t Hw Hd))). Qed.
Print Assumptions validity_is_kept.

(** Validators declared on flattened and extra fields never run, defaults are
    not validated. *)
Theorem validators_not_run_refuted : forall be,
  (exists j v, deser be guarded_ty j (default_of guarded_ty) = (VRec v, None) /\ j <> JObj [] /\
     Forall (fun f => forall x, ~ accepted (fst f) x) (match guarded_ty with TRec fs => fs | _ => [] end)) /\
  (exists v a, deser be bad_default_ty (JObj []) (default_of bad_default_ty) = (VRec [v], None) /\
     (match bad_default_ty with TRec [(b, _)] => a = b | _ => False end) /\ ~ accepted a v).
Proof.
  intros be. split.
  - exists (JObj [([97%N], enc_int be 3); ([98%N], enc_int be 4)]), [VRec [VInt 3]; VMap [([98%N], VInt 4)]].
    split; [destruct be; vm_compute; reflexivity|]. split; [discriminate|].
    repeat constructor; intros x H; specialize (H _ (or_introl eq_refl)); discriminate.
  - eexists. eexists. split; [vm_compute; reflexivity|]. split; [reflexivity|].
    intros H. specialize (H _ (or_introl eq_refl)). discriminate.
Qed.
Print Assumptions validators_not_run_refuted.

(* ------------------------------------------------------------------ *)
(** ** C36 *)

(** Whatever happens, what the document does not name is as before. *)
Theorem patch_keeps_unnamed : forall be ms t, wf t -> is_rec t -> forall v, typed t v ->
  kept ms t v (fst (patch be t (JObj ms) v)).
Proof. exact patch_kept. Qed.
Print Assumptions patch_keeps_unnamed.

(** What it does name is patched. *)
Theorem patch_field_by_field : forall be fs ms vs, wf (TRec fs) -> typed (TRec fs) (VRec vs) ->
  (any_extra_or_flatten fs = true -> distinct_names (TRec fs)) ->
  exists vs' e, patch be (TRec fs) (JObj ms) (VRec vs) = (VRec vs', e) /\
    in_order (field_patches (patch be) ms) fs vs vs' e.
Proof. exact patch_object_lemma. Qed.
Print Assumptions patch_field_by_field.

Theorem patch_extra_fields : forall be fs ms vs vs', wf (TRec fs) -> typed (TRec fs) (VRec vs) -> NoDup (map fst ms) ->
  patch be (TRec fs) (JObj ms) (VRec vs) = (VRec vs', None) ->
  forall i a te m, nth_error fs i = Some (a, TMap te) -> a_extra a = true -> a_skip_deser a = false ->
  nth_error vs i = Some (VMap m) ->
  exists m', nth_error vs' i = Some (VMap m') /\
    (forall k, absent ms k \/ In k (all_names (TRec fs)) -> map_find k m' = map_find k m) /\
    (forall k j, In (k, j) ms -> ~ In k (all_names (TRec fs)) -> exists v, map_find k m' = Some v /\
       patch be te j (match map_find k m with Some w => w | None => default_of te end) = (v, None)).
Proof. exact patch_extras_lemma. Qed.
Print Assumptions patch_extra_fields.

Theorem patch_empty_object : forall be fs v, wf (TRec fs) -> typed (TRec fs) v ->
  (any_extra_or_flatten fs = true -> distinct_names (TRec fs)) ->
  patch be (TRec fs) (JObj []) v = (v, None).
Proof. exact patch_empty_lemma. Qed.
Print Assumptions patch_empty_object.

Theorem patch_own_document : forall be skip t v j, wf t -> typed t v -> prt be skip t v ->
  serialize be skip t v = Ok j -> patch be t j v = (v, None).
Proof. exact patch_own_lemma. Qed.
Print Assumptions patch_own_document.

Theorem patch_idempotent : forall be t j, keys_unique j -> forall w v,
  patch be t j w = (v, None) -> patch be t j v = (v, None).
Proof. exact patch_idem. Qed.
Print Assumptions patch_idempotent.

Theorem deserialize_idempotent : forall be t j w v, deser be t j w = (v, None) -> deser be t j v = (v, None).
Proof. exact deser_idem. Qed.
Print Assumptions deserialize_idempotent.

(* ------------------------------------------------------------------ *)
(** ** C37 *)

(** The extra fields are the unknown members, and are written back. *)
Theorem extra_fields_collected_and_written : forall be fs ms vs vs', wf (TRec fs) -> typed (TRec fs) (VRec vs) ->
  deser be (TRec fs) (JObj ms) (VRec vs) = (VRec vs', None) ->
  forall i a te, nth_error fs i = Some (a, TMap te) -> a_extra a = true -> a_skip_deser a = false ->
  exists m, nth_error vs' i = Some (VMap m) /\ sorted_keys m /\
    (forall k v, map_find k m = Some v <->
       ~ In k (all_names (TRec fs)) /\ exists j, first_member ms k j /\ deser be te j (default_of te) = (v, None)) /\
    (forall skip ms', a_skip_ser a = false -> serialize be skip (TRec fs) (VRec vs') = Ok (JObj ms') ->
       forall k v, map_find k m = Some v -> skip_null_value skip v = false ->
       exists j', serialize be skip te v = Ok j' /\ first_member ms' k j').
Proof. exact extras_lemma. Qed.
Print Assumptions extra_fields_collected_and_written.

Theorem colliding_extra_key_refused : forall be skip fs vs i a te m k, wf (TRec fs) -> typed (TRec fs) (VRec vs) ->
  nth_error fs i = Some (a, TMap te) -> nth_error vs i = Some (VMap m) -> a_extra a = true -> a_skip_ser a = false ->
  In k (map fst m) -> In k (all_names (TRec fs)) -> serialize be skip (TRec fs) (VRec vs) = Throws.
Proof. exact collision_lemma. Qed.
Print Assumptions colliding_extra_key_refused.

Theorem no_duplicate_keys : forall be skip t v j, wf t -> typed t v -> serialize be skip t v = Ok j -> keys_unique j.
Proof. exact (fun be skip t v j Hw Hv H => ser_unique be skip t Hw None v j Hv H). Qed.
Print Assumptions no_duplicate_keys.

(* ------------------------------------------------------------------ *)
(** ** C38 *)

(** The inner extra fields take the members of the outer struct; what was read
    is another value and cannot be written again. *)
Theorem flattened_extra_fields_refuted : forall be, exists t v j v',
  wf t /\ typed t v /\ distinct_names t /\ serialize be true t v = Ok j /\
  deser be t j (default_of t) = (v', None) /\ v' <> v /\ serialize be true t v' = Throws.
Proof.
  intros be. exists outer_extra_ty, outer_extra, (JObj [([97%N], enc_int be 1); ([98%N], enc_int be 2)]),
    (VRec [VRec [VInt 1; VMap [([98%N], VInt 2)]]; VInt 2]).
  split.
  { assert (Hn : forall (a b : list N), a <> b -> NoDup [a; b]).
    { intros a b H. constructor; [intros [E|[]]; now apply H|]. constructor; [intros []|constructor]. }
    cbn. unfold field_ok, int_type, of_type. cbn. repeat split; try lia; try discriminate; auto; try (apply Hn; discriminate);
      constructor; auto; constructor. }
  split; [cbn; unfold of_type; cbn; repeat split; try lia; auto|].
  split; [split; [cbn; constructor; [intros [E|[]]; discriminate|constructor; [intros []|constructor]]|cbn; lia]|].
  split; [destruct be; vm_compute; reflexivity|]. split; [destruct be; vm_compute; reflexivity|]. split; [discriminate|].
  destruct be; vm_compute; reflexivity.
Qed.
Print Assumptions flattened_extra_fields_refuted.

(** No value comes back: when a field of the outer struct is written, the extra fields below a flattened field take it, and
    the ones that were written cannot have had it. *)
Theorem flattened_extra_fields_never_preserved : forall be skip fs i p l ap tp vs vl j w v,
  p <> [] -> extra_path (TRec fs) (i :: p) ->
  nth_error fs l = Some (ap, tp) -> a_extra ap = false -> a_flatten ap = false ->
  nth_error vs l = Some vl -> omitted skip ap vl = false ->
  serialize be skip (TRec fs) (VRec vs) = Ok j -> deser be (TRec fs) j w = (v, None) ->
  exists m, at_path v (i :: p) = Some (VMap m) /\ In (serialized_name ap) (map fst m) /\
    (forall m0, at_path (VRec vs) (i :: p) = Some (VMap m0) -> ~ In (serialized_name ap) (map fst m0)) /\ v <> VRec vs.
Proof. exact flattened_never. Qed.
Print Assumptions flattened_extra_fields_never_preserved.
Example ex_flattened_extra : extra_path outer_extra_ty [0; 1].
Proof. cbn. eexists _, _. do 5 (split; [reflexivity|]). eexists _, _. split; [reflexivity|]. repeat split. Qed.

(* ------------------------------------------------------------------ *)
(** ** C75-C76 *)

(** Reading keeps the object a value of its type, also when it fails; writing
    is defined on every value. *)
Theorem reading_stays_in_type : forall be t, wf t ->
  typed t (default_of t) /\
  (forall j v, typed t v -> typed t (fst (deser be t j v)) /\ snd (deser be t j v) <> Some EStuck) /\
  (forall j v, typed t v -> typed t (fst (patch be t j v)) /\ snd (patch be t j v) <> Some EStuck) /\
  (forall skip v, typed t v -> serialize be skip t v <> UB).
Proof.
  exact (fun be t Hw => conj (default_typed t Hw) (conj (deser_typed be t Hw) (conj (patch_typed be t Hw)
           (fun skip v Hv => proj1 (ser_defined be skip t Hw None v Hv))))).
Qed.
Print Assumptions reading_stays_in_type.

(** When no field may be left as it was, what is read does not depend on the
    object read into. *)
Theorem reading_overwrites : forall be t, wf t -> overwrites t -> forall j w w' v, typed t w -> typed t w' ->
  deser be t j w = (v, None) -> deser be t j w' = (v, None).
Proof. exact deser_indep. Qed.
Print Assumptions reading_overwrites.

(* ------------------------------------------------------------------ *)
(** ** Examples *)

Example ex_sample_wf : wf sample_ty.
Proof.
  cbn. unfold field_ok, int_type, of_type. cbn.
  assert (N1 : NoDup [[97%N]]) by (constructor; [intros []|constructor]).
  repeat split; try lia; try discriminate; auto; try (intros d [= <-]; exact I);
    repeat (constructor; [cbn; intuition discriminate|]); constructor.
Qed.
Example ex_sample_typed : typed sample_ty sample.
Proof. cbn. unfold of_type. cbn. repeat split; try lia; auto; intros k [<-|[]]; reflexivity. Qed.
Example ex_sample_serialize : serialize js0 true sample_ty sample = Ok sample_doc. Proof. vm_compute. reflexivity. Qed.
Example ex_sample_rt : rt js0 true sample_ty sample (default_of sample_ty).
Proof.
  cbn. repeat split; try lia; auto; try (intuition discriminate);
    try (repeat (constructor; [cbn; intuition discriminate|]); constructor).
  all: intros f Hf; cbn in Hf; destruct Hf; subst; try reflexivity; contradiction.
Qed.
Example ex_sample_prt : prt js0 true sample_ty sample.
Proof.
  cbn. repeat split; try lia; auto;
    try (repeat (constructor; [cbn; intuition discriminate|]); constructor).
  all: intros f Hf; cbn in Hf; destruct Hf; subst; try reflexivity; contradiction.
Qed.
Example ex_sample_read : deser js0 sample_ty sample_doc (default_of sample_ty) = (sample, None).
Proof. vm_compute. reflexivity. Qed.
Example ex_sample_dump : dump js0 true sample_ty sample = (accept sample_doc, Ok tt). Proof. vm_compute. reflexivity. Qed.
(** The second alias is used when the first name and alias are absent. *)
Example ex_alias : deser js0 sample_ty (JObj [([97%N], JInt 1); ([98%N; 98%N], JInt 7)]) (default_of sample_ty) =
  (VRec [VRec [VInt 1]; VInt 7; VNone; VSeq []; VMap []], None).
Proof. vm_compute. reflexivity. Qed.
Example ex_rejected : deser js0 sample_ty (JObj [([97%N], JInt 1); ([98%N], JInt 101)]) (default_of sample_ty) =
  (VRec [VRec [VInt 1]; VInt 101; VNone; VSeq []; VMap []], Some EDeser).
Proof. vm_compute. reflexivity. Qed.
Example ex_patch : patch js0 sample_ty (JObj [([66%N], JInt 9); ([122%N], JInt 8)]) sample =
  (VRec [VRec [VInt 1]; VInt 9; VNone; VSeq []; VMap [([121%N], VInt 5); ([122%N], VInt 8)]], None).
Proof. vm_compute. reflexivity. Qed.
Example ex_collision : serialize js0 true sample_ty (VRec [VRec [VInt 1]; VInt 2; VNone; VSeq []; VMap [([66%N], VInt 5)]]) = Throws.
Proof. vm_compute. reflexivity. Qed.
Example ex_int8 : deser js0 (TInt (mkity true 8)) (JInt 200) (VInt 3) = (VInt 3, Some EDeser). Proof. vm_compute. reflexivity. Qed.
Example ex_overwrites : overwrites sample_ty.
Proof. cbn. repeat split; auto. Qed.
Example ex_validated : validated sample_ty sample /\ defaults_validated sample_ty.
Proof.
  cbn. repeat split; auto; try discriminate; intros; try discriminate; try (match goal with H : Some _ = Some _ |- _ => injection H as <- end);
    try exact I; try (split; [|exact I]; intros);
    unfold accepted; cbn; intros f Hf; intuition; subst; try reflexivity.
Qed.
