(** The overload that writes or reads a type: what is claimed. *)
From Coq Require Import List Arith Bool.
From Verif Require Import PickModel PickSpec PickProofs PickAgreeProofs PickMoreProofs PickSamples.
Import ListNotations.

(** Types are written and read as what they stand for, whatever their classes convert to or derive from. *)
Theorem types_written_as_meant : forall llp b m t s, meant false llp b m t s -> pick llp b m t = Some s.
Proof. exact (meant_picked_odd false). Qed.
Print Assumptions types_written_as_meant.

(** For types without conversions and bases: exactly those, and a list of others. *)
Theorem types_written_exactly : forall llp b m t s, plain t -> (pick llp b m t = Some s <-> meant true llp b m t s).
Proof. intros llp b m t s P. split; [exact (picked_meant llp b m t s P) | exact (meant_picked_odd true llp b m t s)]. Qed.
Print Assumptions types_written_exactly.

(** Streams, trees and readers agree about the kind of a type, also across backends. *)
Theorem kinds_agree : forall llp b m llp' b' m' t s s', plain t -> comparable b m b' m' t ->
  pick llp b m t = Some s -> pick llp' b' m' t = Some s' -> s = s'.
Proof. exact picks_agree. Qed.
Print Assumptions kinds_agree.

(** Pointers and arrays that are not strings are written to streams as [true]. *)
Theorem pointers_written_as_true : forall llp b t n, t <> Arith Char ->
  pick llp b Dump (Ptr t) = Some SBool /\ pick llp b Dump (Arr t n) = Some SBool /\
  pick llp b Tree (Ptr t) = None /\ pick llp b Tree (Arr t n) = None.
Proof. exact pointers_true. Qed.
Print Assumptions pointers_written_as_true.

(** A container that is reflected is not written. *)
Theorem reflected_container_not_written : forall llp b m k l, m <> Read -> iterable k ->
  pick llp b m (Class (Some k) (Some l) [] None) = None.
Proof. exact reflected_containers. Qed.
Print Assumptions reflected_container_not_written.

(** A reflected struct that converts to an integer goes to JSON streams, not to trees. *)
Theorem converting_struct_not_serialized : forall llp l a, is_floating_point (Arith a) = false -> a <> Boolean ->
  pick llp Json Dump (Class None (Some l) [Arith a] None) = option_map_ SObject (all (map (pick llp Json Dump) l)) /\
  (is_json_constructible llp (Arith a) = true -> pick llp Json Tree (Class None (Some l) [Arith a] None) = None).
Proof. exact struct_to_number. Qed.
Print Assumptions converting_struct_not_serialized.

(** A class derived from [std::string] is a sequence of characters. *)
Theorem derived_string_is_sequence : forall llp b m,
  pick llp b m (Class None None [] (Some (Str Char))) = option_map_ SSeq (pick llp b m (Arith Char)) /\ pick llp b m (Str Char) = Some SString.
Proof. exact derived_string. Qed.
Print Assumptions derived_string_is_sequence.

(** A class that converts to a simple type goes to streams as that type does. *)
Theorem converting_class_dumped : forall llp b x, simple b x -> pick llp b Dump (Class None None [x] None) = pick llp b Dump x.
Proof. exact converting_dumped. Qed.
Print Assumptions converting_class_dumped.

(** Next to a conversion to a number, one to a pointer is not noticed. *)
Theorem number_rather_than_pointer : forall llp t a, t <> Arith Char ->
  pick llp Json Dump (Class None None [Ptr t; Arith a] None) = pick llp Json Dump (Arith a).
Proof. exact pointer_and_number. Qed.
Print Assumptions number_rather_than_pointer.

(** A class with nothing but conversions is not read. *)
Theorem converting_class_not_read : forall llp b conv, pick llp b Read (Class None None conv None) = None.
Proof. exact converting_not_read. Qed.
Print Assumptions converting_class_not_read.

(** Containers, sets, tuples, optionals and documents pass what they are written as to the classes that derive from them. *)
Theorem derived_class_written_as_base : forall llp b m t d, derives t d -> passed_on t -> pick llp b m d = pick llp b m t.
Proof. exact derived_same. Qed.
Print Assumptions derived_class_written_as_base.

(** A type is patched with documents of the kind that it is read from, and only then. *)
Theorem patched_with_what_is_read : forall llp b t, plain t -> pick_patch llp b t = pick llp b Read t.
Proof. exact patched_read. Qed.
Print Assumptions patched_with_what_is_read.

(** A container that derives from [std::optional] is read as a sequence and patched as an optional. *)
Theorem derived_patched_as_read_refuted : ~ forall llp b t s, pick llp b Read t = Some s -> pick_patch llp b t = Some s.
Proof. intros H. specialize (H false Json vector_and_optional _ eq_refl). vm_compute in H. discriminate H. Qed.
Print Assumptions derived_patched_as_read_refuted.

(** Not every number that JSON is read into can be written. *)
Theorem json_numbers_written_refuted : ~ forall llp a s, pick llp Json Read (Arith a) = Some s -> pick llp Json Dump (Arith a) = Some s.
Proof. intros H. specialize (H false LLong SNumber eq_refl). vm_compute in H. discriminate H. Qed.
Print Assumptions json_numbers_written_refuted.

(** What YAML writes is not always what it reads. *)
Theorem yaml_views_read_back_refuted : ~ forall llp t s s', plain t -> pick llp Yaml Dump t = Some s -> pick llp Yaml Read t = Some s' -> s = s'.
Proof. intros H. specialize (H false (SView Char) _ _ (plain_other (SView Char) I) eq_refl eq_refl). vm_compute in H. discriminate H. Qed.
Print Assumptions yaml_views_read_back_refuted.

(** What goes to a stream does not always go to a tree. *)
Theorem json_streams_and_trees_refuted : ~ forall llp t s, plain t -> pick llp Json Dump t = Some s -> pick llp Json Tree t = Some s.
Proof. intros H. specialize (H false (Str WChar) _ (plain_other (Str WChar) I) eq_refl). vm_compute in H. discriminate H. Qed.
Print Assumptions json_streams_and_trees_refuted.

(** A class that converts to [bool] is [true] or [false] in a stream and 1 or 0 in a tree. *)
Theorem converting_classes_agree_refuted : ~ forall llp t s s', pick llp Json Dump t = Some s -> pick llp Json Tree t = Some s' -> s = s'.
Proof. intros H. specialize (H false (class_to [Arith Boolean]) _ _ eq_refl eq_refl). vm_compute in H. discriminate H. Qed.
Print Assumptions converting_classes_agree_refuted.

(** A node is not written as the document it holds. *)
Theorem yaml_nodes_written_refuted : ~ forall llp m, m <> Read -> pick llp Yaml m YNode = pick llp Yaml m YView.
Proof. intros H. specialize (H false Dump ltac:(discriminate)). vm_compute in H. discriminate H. Qed.
Print Assumptions yaml_nodes_written_refuted.

Example a_person : pick false Json Dump person = Some (SObject [SString; SNumber; SOpt (SSeq (SMap (STuple [SNumber; SString]))); SSeq SString]) /\
  pick true Yaml Read person = pick false Json Tree person.
Proof. split; vm_compute; reflexivity. Qed.
Example a_person_is_plain : plain person.
Proof.
  unfold person, struct_of, vector_of, map_of.
  repeat match goal with
  | |- plain (Class _ _ _ _) => apply plain_class
  | |- plain (Pair _ _) => apply plain_pair
  | |- plain (Opt _) => apply plain_opt
  | |- plain _ => apply plain_other; exact I
  | |- Forall _ _ => constructor
  | |- forall _, _ => intro
  | H : None = Some _ |- _ => discriminate H
  | H : k_mapped ?k = Some _, E : Some ?c = Some ?k |- _ => injection E as <-; cbn [k_mapped] in H
  | H : Some _ = Some _ |- _ => injection H as <-; cbn [k_item k_mapped]
  end.
Qed.
Example a_set : pick false Json Dump (set_of (Str Char)) = Some (SSeq SString) /\ pick false Json Read (set_of (Str Char)) = None.
Proof. split; vm_compute; reflexivity. Qed.
Example an_array : pick false Yaml Read (array_of (Arith Int)) = Some (SSeq SNumber).
Proof. vm_compute. reflexivity. Qed.
Example numbered_map : pick false Json Tree (map_of KNumber (Arith Int)) = None /\ pick false Yaml Read (map_of KNumber (Arith Int)) = Some (SMap SNumber).
Proof. split; vm_compute; reflexivity. Qed.
Example class_to_string : pick false Json Dump (class_to [Str Char]) = Some SString /\ pick false Json Tree (class_to [Str Char]) = None /\
  pick false Yaml Tree (class_to [Str Char]) = Some SString.
Proof. repeat split; vm_compute; reflexivity. Qed.
Example class_of_two : pick false Json Dump (class_to [Ptr (Arith Int); Arith Int]) = Some SNumber /\ pick false Json Dump (class_to [Ptr (Arith Int)]) = Some SBool.
Proof. split; vm_compute; reflexivity. Qed.
Example grandchild_of_vector : pick false Yaml Read (derived_from (derived_from (vector_of (Opt (Arith Int))))) = Some (SSeq (SOpt SNumber)).
Proof. rewrite (derived_class_written_as_base _ _ _ (vector_of (Opt (Arith Int)))); [vm_compute; reflexivity | apply derives_further, derives_here | apply on_container]. Qed.
Example patched_person : pick_patch false Json person = pick false Json Read person /\ pick_patch false Json person <> None.
Proof. split; vm_compute; [reflexivity | discriminate]. Qed.
Example patched_set : pick_patch false Json (set_of (Str Char)) = None.
Proof. vm_compute. reflexivity. Qed.
Example two_conversions : pick false Json Dump (class_to [Arith Int; Arith Double]) = None.
Proof. vm_compute. reflexivity. Qed.
Example struct_with_everything : pick false Json Tree (Class None (Some [Arith Int]) [Str Char; Ptr (Arith Char)] (Some (Opt (Arith Int)))) = Some (SObject [SNumber]).
Proof.
  apply types_written_as_meant. apply m_struct.
  - intros k P. inversion P; subst. match goal with H : provides _ _ |- _ => inversion H end.
  - reflexivity.
  - intros _ _ c fs conv base x E J N. injection E as <- <- <- <-.
    destruct J as [<-|[<-|[]]]; destruct N as [[a N]|(u & r & N)]; discriminate N.
  - constructor; [apply m_number; cbn; tauto | constructor].
Qed.
