(** Properties C106-C107: attributes of fields, and the checks of field names. *)
From Coq Require Import String List NArith ZArith Bool.
From Verif Require Import Base PathModel ScalarSpec SerialModel SerialSpec SerialSamples ReflectModel ReflectSpec AttrModel AttrSpec AttrProofs
  AttrNameProofs AttrSamples AttrRefuted.
Import ListNotations.
Local Open Scope string_scope.
Local Open Scope list_scope.

(** C106: what the serialization and resource code does with a field depends on its list of attributes
    exactly as SerialModel says: the first [rename], [aliases] and [default_value], all validators and
    child keys in order, flags if any attribute answers. *)
Theorem attributes_refine : forall f a, well_formed f -> described f a ->
  f_serialized_name f = Ok (serialized_name a) /\
  (forall skip v, f_skip_serialized_field skip f v = skip_serialized_field skip a v) /\
  (forall ms, f_resolve_field_name ms f = Ok (resolve_field_name ms a)) /\
  (forall rd ms v, f_read_field f rd ms v = Ok (read_field a rd ms v)) /\
  (forall pt ms v, f_patch_field f pt ms v = Ok (patch_field a pt ms v)) /\
  (forall r, f_then_validate f r = then_validate a r) /\
  f_reserved_names f = Ok (serialized_name a :: a_aliases a) /\
  f_child_keys f = a_child_keys a.
Proof. exact attributes_refine_lemma. Qed.
Print Assumptions attributes_refine.

(** Every list of attributes is described by a record. *)
Theorem attributes_describable : forall f init, well_formed f -> exists a, described f a /\ a_init a = init.
Proof. exact attributes_describable_lemma. Qed.
Print Assumptions attributes_describable.

Example width_is_described : well_formed width /\ described width width_attrs.
Proof. exact (conj width_holds width_described). Qed.

(** The second alias list and the second default are not used. *)
Example width_read :
  f_resolve_field_name [(codes "wd", JInt 5)] width = Ok (Some (codes "wd")) /\
  f_resolve_field_name [(codes "breadth", JInt 5)] width = Ok None /\
  apply_missing_field_policy width (VInt 0) = (VInt 1, true) /\
  f_read_field width (fun j v => match j with JInt z => (VInt z, None) | _ => (v, Some EDeser) end)
    [(codes "wd", JInt 500)] (VInt 0) = Ok (VInt 500, Some EDeser).
Proof. vm_compute. repeat split. Qed.

(** Names of a second [aliases] attribute are not found in the document. *)
Theorem all_aliases_read_refuted :
  ~ forall f ms x l n, well_formed f -> In x (s_attrs f) -> answers CAliases (at_class x) ->
      at_data x CAliases = PNames l -> In n l -> In n (map fst ms) -> f_resolve_field_name ms f <> Ok None.
Proof. exact all_aliases_read_lemma. Qed.
Print Assumptions all_aliases_read_refuted.

(** An attribute of a class derived from [default_value_t] answers queries for it, but is not applied. *)
Theorem derived_default_refuted :
  ~ forall f x n d v, well_formed f -> In x (s_attrs f) -> answers (CDefault n) (at_class x) ->
      at_data x (CDefault n) = PValue d -> snd (apply_missing_field_policy f v) = true.
Proof. exact derived_default_lemma. Qed.
Print Assumptions derived_default_refuted.

(** C107: the checks of the names at compile time never run out of space, and pass exactly if the names
    written, or read, are different up to their first zero. *)
Theorem name_checks_exact : forall t,
  (exists b, serialize_names_ok t = Ok b /\ (b = true <-> NoDup (map c_text (ser_names t)))) /\
  (few_aliases t -> exists b, deserialize_names_ok t = Ok b /\ (b = true <-> NoDup (map c_text (deser_names t)))).
Proof. exact name_checks_lemma. Qed.
Print Assumptions name_checks_exact.

(** For names without zeros that is the condition the other theorems assume. *)
Theorem name_checks_distinct : forall t,
  few_aliases t -> Forall plain_name (ser_names t) -> Forall plain_name (deser_names t) ->
  (serialize_names_ok t = Ok true <-> NoDup (ser_names t)) /\ (deserialize_names_ok t = Ok true <-> NoDup (deser_names t)) /\
  serialize_names_ok t <> Throws /\ deserialize_names_ok t <> Throws.
Proof. exact name_checks_wf_lemma. Qed.
Print Assumptions name_checks_distinct.

(** An alias clashes with the field of a flattened struct; it is not written. *)
Example names_checked :
  serialize_names_ok clashing_ty = Ok true /\ deserialize_names_ok clashing_ty = Ok false /\
  serialize_names_ok fine_ty = Ok true /\ deserialize_names_ok fine_ty = Ok true /\ few_aliases fine_ty /\
  serialize_names_ok zero_ty = Ok false.
Proof. vm_compute. repeat split; repeat constructor. Qed.

(** A struct that passes both checks can still not be written: the check at run time compares the
    names of all fields, also of those that are only read or only written. *)
Theorem checked_names_refuted :
  ~ forall be skip t v, wf t -> typed t v -> serialize_names_ok t = Ok true -> deserialize_names_ok t = Ok true ->
      extras t = 0 -> exists j, serialize be skip t v = Ok j.
Proof. exact checked_names_lemma. Qed.
Print Assumptions checked_names_refuted.
