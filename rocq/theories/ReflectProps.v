(** Properties C102-C105: reflection of structs and attributes of fields. *)
From Coq Require Import String List NArith Arith Bool Sorted.
From Verif Require Import PathModel ScalarSpec ReflectModel ReflectSpec ReflectSamples ReflectProofs ReflectVisitProofs.
Import ListNotations.
Local Open Scope string_scope.
Local Open Scope list_scope.

(** C102: [has], [get] and [visit_attributes] find exactly the attributes whose class is
    the one asked for or has it as its only base of that class, publicly; [get] the first
    of them, [visit_attributes] all in order. *)
Theorem attribute_queries_exact : forall (P : Type) (q : cid) (l : list (attribute P)),
  (has q l = true <-> exists a, In a l /\ answers q (at_class a)) /\
  (forall a, get q l = Some a <-> first_such (fun a => answers q (at_class a)) l a) /\
  (get q l = None <-> ~ exists a, In a l /\ answers q (at_class a)) /\
  selected (fun a => answers q (at_class a)) l (visit_attributes_of q l) /\
  visit_attributes l = l.
Proof. intros P. exact queries_exact_lemma. Qed.
Print Assumptions attribute_queries_exact.

(** An attribute that inherits from the class asked for is not found if the base is
    ambiguous. *)
Theorem derived_attribute_found_refuted : ~ forall u t, public_base t u -> attribute_matches t u = true.
Proof. exact derived_attribute_found_lemma. Qed.
Print Assumptions derived_attribute_found_refuted.

(** The private base is not found, the derived class is found before the class itself. *)
Example rename_found :
  option_map (fun a => at_data a CRename) (get CRename some_attributes) = Some 3 /\
  map (fun a => at_data a CRename) (visit_attributes_of CRename some_attributes) = [3; 4] /\
  has CSkipDeser some_attributes = true /\ has CFlatten some_attributes = false.
Proof. vm_compute. repeat split. Qed.

(** C103: in a filtered view of a type every query of the filter has the answer it has
    without the filter, and fields, names and types are the same. *)
Theorem filtered_view_agrees : forall (P T : Type) const qs (r : record P T) fs,
  reflect_type const (AnyAttribute qs) r = Some fs ->
  Forall2 (fun t o => tf_name t = of_name o /\ tf_type t = of_type o /\
             forall q, In q qs ->
               has q (tf_attrs t) = has q (of_attrs o) /\ get q (tf_attrs t) = get q (of_attrs o) /\
               visit_attributes_of q (tf_attrs t) = visit_attributes_of q (of_attrs o)) fs (reflect_object r).
Proof. intros P T. exact filtered_view_agrees_lemma. Qed.
Print Assumptions filtered_view_agrees.

(** C103: [has_any_attribute] is true exactly if a field has an attribute that answers one of the
    queries; in a constant expression it compiles exactly if the attributes that answer are constants,
    whatever the other attributes are. *)
Theorem has_any_attribute_exact : forall (P T : Type) const (r : record P T) qs,
  (forall b, has_any_attribute const r qs = Some b ->
     (b = true <-> exists p m fa q, declared_at r p = Some m /\ In fa (m_attrs m) /\ In q qs /\
                                    answers q (at_class (fa_attr fa)))) /\
  ((exists b, has_any_attribute const r qs = Some b) <->
     (const = true -> forall p m fa q, declared_at r p = Some m -> In fa (m_attrs m) -> In q qs ->
                                       answers q (at_class (fa_attr fa)) -> fa_const fa = true)).
Proof. intros P T. exact has_any_attribute_exact_lemma. Qed.
Print Assumptions has_any_attribute_exact.

(** The validator of [x] is no constant: the query for [skip] does not touch it. *)
Example query_ignores_runtime_attributes :
  has_any_attribute true r_point [CSkipDeser; CFlatten] = Some true /\
  has_any_attribute true r_point [CExtra] = Some false /\
  has_any_attribute true r_point [CValidate 0] = None /\
  has_any_attribute false r_point [CValidate 0] = Some true /\
  reflect_type true AllAttributes r_point = None.
Proof. vm_compute. repeat split. Qed.

(** C104: reflection visits exactly the declared fields, those of the bases first, each once per
    way to it; [num_fields] is their number.  [reflect_type] keeps the attributes that pass the filter,
    [reflect_object] all, and [value()] is the member of the only subobject of the declaring class. *)
Theorem fields_in_order : forall (P T : Type) (r : record P T),
  exists ps, enumerates r ps /\ length ps = num_fields r /\
    (forall const F fs, reflect_type const F r = Some fs ->
       Forall2 (fun p f => exists m, declared_at r p = Some m /\ tf_name f = m_name m /\ tf_type f = m_type m /\
                  selected (fun a => keep F (at_class a) = true) (map (@fa_attr P) (m_attrs m)) (tf_attrs f)) ps fs) /\
    Forall2 (fun p f => exists m, declared_at r p = Some m /\ of_name f = m_name m /\ of_type f = m_type m /\
               of_attrs f = map (@fa_attr P) (m_attrs m) /\
               forall x, of_value f = Some x <->
                 snd x = m_name m /\ only_base (m_decl m) (r_class r) (fst x) /\ public_base (m_decl m) (r_class r))
            ps (reflect_object r).
Proof. intros P T. exact fields_in_order_lemma. Qed.
Print Assumptions fields_in_order.

Example point_fields :
  map (@of_name nat nat) (reflect_object r_point) = map codes ["id"; "name"; "l"; "o"; "x"; "y"] /\
  num_fields r_point = 6 /\
  declared_at r_point ([0; 0], 1) <> None /\ declared_at r_point ([1], 0) <> None /\
  map (@of_value nat nat) (reflect_object r_point) =
    [Some ((false, [CUser 13; CUser 11; CUser 10]), codes "id"); Some ((false, [CUser 13; CUser 11; CUser 10]), codes "name");
     Some ((false, [CUser 13; CUser 11]), codes "l"); Some ((false, [CUser 13; CUser 12]), codes "o");
     Some ((false, [CUser 13]), codes "x"); Some ((false, [CUser 13]), codes "y")].
Proof. vm_compute. repeat split; discriminate. Qed.

(** C105: without virtual bases no member of an object is visited twice. *)
Theorem no_member_twice : forall (P T : Type) (r : record P T),
  describes_class r -> no_virtual (r_class r) ->
  forall i j f g x, nth_error (reflect_object r) i = Some f -> nth_error (reflect_object r) j = Some g ->
    of_value f = Some x -> of_value g = Some x -> i = j.
Proof. intros P T. exact places_differ_lemma. Qed.
Print Assumptions no_member_twice.

Example point_is_described : describes_class r_point /\ no_virtual (r_class r_point).
Proof. exact (conj describes_point no_virtual_point). Qed.

(** The members of a virtual base are visited once per way to it. *)
Theorem member_visited_once_refuted :
  ~ forall (r : record nat nat), describes_class r -> forall i j f g x,
      nth_error (reflect_object r) i = Some f -> nth_error (reflect_object r) j = Some g ->
      of_value f = Some x -> of_value g = Some x -> i = j.
Proof. exact visited_once_lemma. Qed.
Print Assumptions member_visited_once_refuted.

(** The members of a base that is there twice are counted and visited, but have no value. *)
Theorem every_field_has_value_refuted :
  ~ forall (r : record nat nat), describes_class r -> forall f, In f (reflect_object r) -> of_value f <> None.
Proof. exact every_field_has_value_lemma. Qed.
Print Assumptions every_field_has_value_refuted.

(** C105: the visits are the places fields are declared at, in order.  The member [name] of the one public subobject of class
    [t] is visited exactly as often as there are places that declare [name] in [t]; a field has no value exactly if
    the class it is declared in is no public base or is there more than once. *)
Theorem member_visits_exactly : forall (P T : Type) (r : record P T),
  exists ps, enumerates r ps /\ length ps = length (reflect_object r) /\
    forall i p f, nth_error ps i = Some p -> nth_error (reflect_object r) i = Some f ->
      exists m, declared_at r p = Some m /\
        (of_value f = None <-> ~ (public_base (m_decl m) (r_class r) /\ exists s, only_base (m_decl m) (r_class r) s)) /\
        forall t s name, only_base t (r_class r) s -> public_base t (r_class r) ->
          (of_value f = Some (s, name) <-> m_decl m = t /\ m_name m = name).
Proof. intros P T. exact member_visits_lemma. Qed.
Print Assumptions member_visits_exactly.

Example diamond_visits :
  map (@of_value nat nat) (reflect_object r_vdiamond) =
    [Some ((true, [CUser 10]), codes "id"); Some ((true, [CUser 10]), codes "name");
     Some ((true, [CUser 10]), codes "id"); Some ((true, [CUser 10]), codes "name");
     Some ((false, [CUser 18]), codes "d")] /\
  map (@of_value nat nat) (reflect_object r_diamond) =
    [None; None; Some ((false, [CUser 15; CUser 11]), codes "l"); None; None;
     Some ((false, [CUser 15; CUser 14]), codes "r"); Some ((false, [CUser 15]), codes "d")].
Proof. vm_compute. repeat split. Qed.
