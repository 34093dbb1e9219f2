(** Compile-time reflection of structs: kl/ctti.hpp and kl/reflect_struct.hpp, and
    the attributes attached to fields.

    Templates are functions of class descriptions here.  A class is described by
    its name and its direct bases, so it is a tree; a class that is a base twice
    occurs twice in the tree.  Not modelled: accessor fields ([KL_ACCESSOR_FIELD] in a
    hand-written [reflect_struct_fields]; AccModel has their use), [ctti::name], and the limits of the
    preprocessor on the number of fields. *)
From Coq Require Import List NArith Arith Bool.
From Verif Require Import PathModel.
Import ListNotations.

Local Notation str := (list N) (only parsing).

(* ------------------------------------------------------------------ *)
(** ** Classes *)

(** Names of classes: those of serialization_attributes.hpp and
    resource_attributes.hpp, the specialisations of their templates, and the
    classes of the user. *)
Inductive cid :=
| CSkipSer | CSkipDeser | CSkip | CRename | CAliases
| CSkipIfNull | CEmitNull | CAllowMissing | CSkipIfEmpty | CFlatten | CExtra
| CDefault (n : N)                  (* default_value_t<T> *)
| CValidate (n : N)                 (* validate_t<Validator> *)
| CChildKeyBase
| CChildKey (n : N)                 (* child_key_t<Ptr> *)
| CReadOnly | CSubtreeReadOnly
| CUser (n : N).

Definition cid_code (c : cid) : N * N :=
  match c with
  | CSkipSer => (0, 0) | CSkipDeser => (1, 0) | CSkip => (2, 0) | CRename => (3, 0) | CAliases => (4, 0)
  | CSkipIfNull => (5, 0) | CEmitNull => (6, 0) | CAllowMissing => (7, 0) | CSkipIfEmpty => (8, 0)
  | CFlatten => (9, 0) | CExtra => (10, 0) | CDefault n => (11, n) | CValidate n => (12, n)
  | CChildKeyBase => (13, 0) | CChildKey n => (14, n) | CReadOnly => (15, 0) | CSubtreeReadOnly => (16, 0)
  | CUser n => (17, n)
  end%N.

(** [std::is_same_v] *)
Definition cid_eqb (a b : cid) : bool :=
  (fst (cid_code a) =? fst (cid_code b))%N && (snd (cid_code a) =? snd (cid_code b))%N.

(** A direct base: is it virtual, is it public, and the class. *)
Inductive cls := Cls (id : cid) (bases : list (bool * bool * cls)).

Definition cls_id (u : cls) : cid := let '(Cls i _) := u in i.

(** The subobjects of an object of class [u]: itself and those of its bases.  A
    subobject is named by the classes on the way to it; the way starts at the
    last virtual base on it, if any (then the flag is true), so that the subobject of a virtual
    base is the same on every way.  The list repeats it. *)
Definition sub := (bool * list cid)%type.

Definition via (virt : bool) (i : cid) (s : sub) : sub :=
  if virt || fst s then (true, snd s) else (false, i :: snd s).

Fixpoint subobjects (u : cls) : list sub :=
  match u with
  | Cls i bs =>
      (false, [i]) :: flat_map (fun b => map (via (fst (fst b)) i) (subobjects (snd b))) bs
  end.

Definition sub_class (s : sub) : cid := last (snd s) (CUser 0).

Fixpoint list_eqb {A} (eqb : A -> A -> bool) (a b : list A) : bool :=
  match a, b with
  | [], [] => true
  | x :: a', y :: b' => eqb x y && list_eqb eqb a' b'
  | _, _ => false
  end.

Definition sub_eqb (a b : sub) : bool := Bool.eqb (fst a) (fst b) && list_eqb cid_eqb (snd a) (snd b).

Fixpoint dedup (l : list sub) : list sub :=
  match l with
  | [] => []
  | s :: l' => if existsb (sub_eqb s) l' then dedup l' else s :: dedup l'
  end.

(** The different subobjects of class [t] in an object of class [u]. *)
Definition find_base (t : cid) (u : cls) : list sub :=
  dedup (filter (fun s => cid_eqb (sub_class s) t) (subobjects u)).

(** Is [t] an accessible base of [u], or [u] itself? *)
Fixpoint accessible (t : cid) (u : cls) : bool :=
  match u with
  | Cls i bs => cid_eqb i t || existsb (fun b => snd (fst b) && accessible t (snd b)) bs
  end.

(** The conversion from a pointer (or reference) to [u] to one to [t]: the subobject it
    yields, if the base is unambiguous and accessible; otherwise it is an error. *)
Definition upcast (t : cid) (u : cls) : option sub :=
  match find_base t u with
  | [s] => if accessible t u then Some s else None
  | _ => None
  end.

(** ctti.hpp:17-20 [attribute_matches_v<T, U>]: the same class, or [const U*] converts
    to [const T*]. *)
Definition attribute_matches (t : cid) (u : cls) : bool :=
  cid_eqb t (cls_id u) || match upcast t u with Some _ => true | None => false end.

(* ------------------------------------------------------------------ *)
(** ** Fields *)

Section Reflect.
(** [P]: what a subobject of an attribute holds.  [T]: types of members. *)
Context {P T : Type}.

(** An attribute object: its class and the contents of its subobjects. *)
Record attribute := mkattribute { at_class : cls; at_data : cid -> P }.

(** macros.hpp:84-101 [KL_TUPLE_ENUM_POP_FRONT_LAMBDA_COMMA]: a lambda that returns
    the attribute; [fa_const]: calling it is a constant expression. *)
Record factory := mkfactory { fa_attr : attribute; fa_const : bool }.

(** An entry [(member, attributes...)] of the list in [KL_REFLECT_STRUCT]; [m_decl] is the
    class that declares the member, the class of the pointer to member. *)
Record member := mkmember { m_name : str; m_decl : cid; m_type : T; m_attrs : list factory }.

(** reflect_struct.hpp:137-180: what a use of the macros describes: the class, the
    bases in parentheses and the fields. *)
Inductive record := Rec (c : cls) (bases : list record) (members : list member).

Definition r_class (r : record) : cls := let '(Rec c _ _) := r in c.

(** 144-150, 166-173, 182-203 [reflect_struct_fields]: the calls of [vis], in order; [f] is what the
    factory makes of a member. *)
Fixpoint reflect_struct_fields {B} (f : member -> B) (r : record) : list B :=
  match r with
  | Rec _ bs ms => flat_map (reflect_struct_fields f) bs ++ map f ms
  end.

(** 152-156, 175-180, 188-189, 205-206 [reflect_num_fields] *)
Fixpoint reflect_num_fields (r : record) : nat :=
  match r with
  | Rec _ bs ms => length ms + fold_right (fun b n => reflect_num_fields b + n) 0 bs
  end.

(** ctti.hpp:372-381 *)
Definition num_fields (r : record) : nat := reflect_num_fields r.

(** 26-102 [field_data]: the queries, over the attributes of a field. *)

(** 40-44 *)
Definition has (q : cid) (attrs : list attribute) : bool :=
  existsb (fun a => attribute_matches q (at_class a)) attrs.

(** 46-50, 77-97: [None] is the null pointer; otherwise the attribute pointed to (its
    subobject of class [q]). *)
Fixpoint get (q : cid) (attrs : list attribute) : option attribute :=
  match attrs with
  | [] => None
  | a :: rest => if attribute_matches q (at_class a) then Some a else get q rest
  end.

(** 52-56: the attributes the visitor is called with. *)
Definition visit_attributes (attrs : list attribute) : list attribute := attrs.

(** 58-74 *)
Definition visit_attributes_of (q : cid) (attrs : list attribute) : list attribute :=
  if has q attrs then
    flat_map (fun a => if attribute_matches q (at_class a) then [a] else []) attrs
  else [].

(** 336-357 [all_attributes_filter], [any_attribute_filter<Query...>]. *)
Inductive attribute_filter := AllAttributes | AnyAttribute (queries : list cid).

Definition keep (F : attribute_filter) (c : cls) : bool :=
  match F with
  | AllAttributes => true
  | AnyAttribute [] => false
  | AnyAttribute qs => existsb (fun q => attribute_matches q c) qs
  end.

(** 181-195 [field_descriptor] *)
Record tfield := mktfield { tf_name : str; tf_type : T; tf_attrs : list attribute }.

(** Calling a factory; [const]: during constant evaluation.  [None]: the program is ill-formed. *)
Definition call (const : bool) (fa : factory) : option attribute :=
  if const && negb (fa_const fa) then None else Some (fa_attr fa).

(** 252-274 [filter_one_attribute], [filter_attributes] *)
Definition filter_one_attribute (const : bool) (F : attribute_filter) (fa : factory) : option (list attribute) :=
  if keep F (at_class (fa_attr fa)) then option_map (fun a => [a]) (call const fa) else Some [].

Fixpoint sequence {A} (l : list (option A)) : option (list A) :=
  match l with
  | [] => Some []
  | x :: l' =>
      match x, sequence l' with
      | Some y, Some ys => Some (y :: ys)
      | _, _ => None
      end
  end.

Definition filter_attributes (const : bool) (F : attribute_filter) (fas : list factory) : option (list attribute) :=
  option_map (@concat attribute) (sequence (map (filter_one_attribute const F) fas)).

(** 225-233 *)
Definition type_field (const : bool) (F : attribute_filter) (m : member) : option tfield :=
  option_map (mktfield (m_name m) (m_type m)) (filter_attributes const F (m_attrs m)).

(** 359-370 [reflect_type]: the descriptors the visitor is called with. *)
Definition reflect_type (const : bool) (F : attribute_filter) (r : record) : option (list tfield) :=
  sequence (reflect_struct_fields (type_field const F) r).

(** 130-148 [field]: [of_value] is what [value()] refers to: the member [of_name] of a subobject of
    the object of class [u]; [None]: calling it is an error. *)
Record ofield := mkofield { of_name : str; of_type : T; of_attrs : list attribute; of_value : option (sub * str) }.

(** 279-303 [runtime_field_factory] *)
Definition object_field (u : cls) (m : member) : ofield :=
  mkofield (m_name m) (m_type m) (map fa_attr (m_attrs m))
           (option_map (fun s => (s, m_name m)) (upcast (m_decl m) u)).

(** 325-334 [reflect_object] *)
Definition reflect_object (r : record) : list ofield := reflect_struct_fields (object_field (r_class r)) r.

(** 383-401 [has_any_attribute<Reflectable, Attributes...>]; there is at least one query. *)
Definition has_any_attribute (const : bool) (r : record) (qs : list cid) : option bool :=
  match reflect_type const (AnyAttribute qs) r with
  | Some fs => Some (fold_left (fun result f => if existsb (fun q => has q (tf_attrs f)) qs then true else result) fs false)
  | None => None
  end.

End Reflect.
Arguments attribute : clear implicits.
Arguments factory : clear implicits.
Arguments member : clear implicits.
Arguments record : clear implicits.
Arguments tfield : clear implicits.
Arguments ofield : clear implicits.
