(** Vocabulary for the properties of attributes: when a record of SerialModel describes the
    attributes of a field, and names as C strings. *)
From Coq Require Import List NArith Arith Bool.
From Verif Require Import Base PathModel ScalarModel SerialModel ReflectModel ReflectSpec AttrModel.
Import ListNotations.

Local Notation str := (list N) (only parsing).

(** An attribute of the field answers the query. *)
Definition asked (q : cid) (f : srcfield) : Prop := exists x, In x (s_attrs f) /\ answers q (at_class x).

(** [x] is the first attribute of the field that answers the query. *)
Definition first_asked (q : cid) (f : srcfield) (x : attribute payload) : Prop :=
  first_such (fun x => answers q (at_class x)) (s_attrs f) x.

Definition default_attribute (x : attribute payload) : Prop := exists n, cls_id (at_class x) = CDefault n.
Definition validate_attribute (x : attribute payload) : Prop := exists n, cls_id (at_class x) = CValidate n.

(** The attribute objects hold what their class says. *)
Record holds (x : attribute payload) : Prop := {
  h_rename : answers CRename (at_class x) -> exists s, at_data x CRename = PName s;
  h_aliases : answers CAliases (at_class x) -> exists l, at_data x CAliases = PNames l /\ length l <= 8;
  h_default : forall n, cls_id (at_class x) = CDefault n -> exists v, at_data x (CDefault n) = PValue v;
  h_validate : forall n, cls_id (at_class x) = CValidate n -> exists g, at_data x (CValidate n) = PValidator g;
  h_key : answers CChildKeyBase (at_class x) -> exists k, at_data x CChildKeyBase = PKey k
}.

Definition well_formed (f : srcfield) : Prop := forall x, In x (s_attrs f) -> holds x.

(** The record [a] says what the attributes of [f] say. *)
Record described (f : srcfield) (a : attrs) : Prop := {
  d_name : a_name a = s_name f;
  d_rename : forall s, a_rename a = Some s <-> exists x, first_asked CRename f x /\ at_data x CRename = PName s;
  d_aliases : (forall x l, first_asked CAliases f x -> at_data x CAliases = PNames l -> a_aliases a = l) /\
              (~ asked CAliases f -> a_aliases a = []);
  d_skip_ser : a_skip_ser a = true <-> asked CSkipSer f;
  d_skip_deser : a_skip_deser a = true <-> asked CSkipDeser f;
  d_emit_null : a_emit_null a = true <-> asked CEmitNull f;
  d_skip_if_null : a_skip_if_null a = true <-> asked CSkipIfNull f;
  d_skip_if_empty : a_skip_if_empty a = true <-> asked CSkipIfEmpty f;
  d_allow_missing : a_allow_missing a = true <-> asked CAllowMissing f;
  d_default : forall v, a_default a = Some v <->
                exists x n, first_such default_attribute (s_attrs f) x /\ cls_id (at_class x) = CDefault n /\
                            at_data x (CDefault n) = PValue v;
  d_validators : exists xs, selected validate_attribute (s_attrs f) xs /\
                   Forall2 (fun x g => exists n, cls_id (at_class x) = CValidate n /\ at_data x (CValidate n) = PValidator g)
                           xs (a_validators a);
  d_flatten : a_flatten a = true <-> asked CFlatten f;
  d_extra : a_extra a = true <-> asked CExtra f;
  d_read_only : a_read_only a = true <-> asked CReadOnly f;
  d_subtree_read_only : a_subtree_read_only a = true <-> asked CSubtreeReadOnly f;
  d_child_keys : exists xs, selected (fun x => answers CChildKeyBase (at_class x)) (s_attrs f) xs /\
                   Forall2 (fun x k => at_data x CChildKeyBase = PKey k) xs (a_child_keys a)
}.

(** A name as a C string: up to the first zero. *)
Fixpoint c_text (s : str) : str :=
  match s with
  | [] => []
  | c :: s' => if (c =? 0)%N then [] else c :: c_text s'
  end.

(** Names without zeros. *)
Definition plain_name (s : str) : Prop := ~ In 0%N s.

(** At most 8 aliases per field, everywhere (serialization_attributes.hpp:67). *)
Fixpoint few_aliases (t : ty) : Prop :=
  match t with
  | TRec fs =>
      (fix go (fs : list (attrs * ty)) : Prop :=
         match fs with
         | [] => True
         | (a, t') :: fs' => length (a_aliases a) <= 8 /\ few_aliases t' /\ go fs'
         end) fs
  | _ => True
  end.
