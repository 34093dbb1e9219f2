(** Vocabulary for the properties of reflection: subobjects of C++ classes, which
    attributes answer a query, and where fields are declared. *)
From Coq Require Import List NArith Arith Bool Sorted.
From Verif Require Import PathModel ReflectModel.
Import ListNotations.

(** [s] is a subobject of every object of class [u]: the object itself, a subobject
    of a base that is not virtual, a virtual base, or a subobject below a virtual
    base. *)
Inductive subobject : cls -> sub -> Prop :=
| sub_whole i bs : subobject (Cls i bs) (false, [i])
| sub_nonvirtual i bs pub c p :
    In (false, pub, c) bs -> subobject c (false, p) -> subobject (Cls i bs) (false, i :: p)
| sub_virtual i bs pub c p :
    In (true, pub, c) bs -> subobject c (false, p) -> subobject (Cls i bs) (true, p)
| sub_shared i bs virt pub c p :
    In (virt, pub, c) bs -> subobject c (true, p) -> subobject (Cls i bs) (true, p).

Definition of_class (s : sub) (t : cid) : Prop := exists p, snd s = p ++ [t].

(** [t] is [u] or can be reached from it through public inheritance. *)
Inductive public_base (t : cid) : cls -> Prop :=
| pb_self bs : public_base t (Cls t bs)
| pb_base i bs virt c : In (virt, true, c) bs -> public_base t c -> public_base t (Cls i bs).

(** Every object of class [u] has exactly one subobject of class [t], namely [s]. *)
Definition only_base (t : cid) (u : cls) (s : sub) : Prop :=
  subobject u s /\ of_class s t /\ forall s', subobject u s' -> of_class s' t -> s' = s.

(** An attribute of class [u] answers a query for [t]. *)
Definition answers (t : cid) (u : cls) : Prop :=
  cls_id u = t \/ (public_base t u /\ exists s, only_base t u s).

(** [l'] is what is left of [l] when everything that does not satisfy [Q] is removed. *)
Inductive selected {A} (Q : A -> Prop) : list A -> list A -> Prop :=
| sel_nil : selected Q [] []
| sel_take x l l' : Q x -> selected Q l l' -> selected Q (x :: l) (x :: l')
| sel_drop x l l' : ~ Q x -> selected Q l l' -> selected Q (x :: l) l'.

(** [x] is the first element of [l] that satisfies [Q]. *)
Definition first_such {A} (Q : A -> Prop) (l : list A) (x : A) : Prop :=
  exists before after, l = before ++ x :: after /\ Q x /\ forall y, In y before -> ~ Q y.

(** Where a field is declared: the way from the record through the lists of bases,
    and the index in the list of fields. *)
Definition position := (list nat * nat)%type.

Section Positions.
Context {P T : Type}.

Fixpoint declared (r : record P T) (path : list nat) (i : nat) : option (member P T) :=
  match r, path with
  | Rec _ _ ms, [] => nth_error ms i
  | Rec _ bs _, k :: path' =>
      match nth_error bs k with
      | Some b => declared b path' i
      | None => None
      end
  end.

Definition declared_at (r : record P T) (p : position) : option (member P T) := declared r (fst p) (snd p).

(** The bases come first, in the order of the list; then the fields in their order. *)
Inductive earlier : position -> position -> Prop :=
| earlier_field i j : i < j -> earlier ([], i) ([], j)
| earlier_base k p i j : earlier (k :: p, i) ([], j)
| earlier_bases k k' p p' i j : k < k' -> earlier (k :: p, i) (k' :: p', j)
| earlier_inside k p p' i j : earlier (p, i) (p', j) -> earlier (k :: p, i) (k :: p', j).

(** Exactly the declared fields, in order, each once. *)
Definition enumerates (r : record P T) (ps : list position) : Prop :=
  StronglySorted earlier ps /\ forall p, In p ps <-> declared_at r p <> None.

(** The macros describe the class: the fields are declared in it and listed once,
    the bases are direct bases of it, each listed once. *)
Inductive describes_class : record P T -> Prop :=
| describes c bs ms :
    (forall m, In m ms -> m_decl m = cls_id c) ->
    NoDup (map (@m_name P T) ms) ->
    (forall b, In b bs -> exists virt pub bases i, c = Cls i bases /\ In (virt, pub, r_class b) bases) ->
    NoDup (map (fun b => cls_id (r_class b)) bs) ->
    (forall b, In b bs -> describes_class b) ->
    describes_class (Rec c bs ms).

(** No virtual inheritance anywhere. *)
Inductive no_virtual : cls -> Prop :=
| nv i bs : (forall virt pub c, In (virt, pub, c) bs -> virt = false /\ no_virtual c) -> no_virtual (Cls i bs).

End Positions.
