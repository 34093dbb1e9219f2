(** What throwing with information is for. *)
From Coq Require Import List Bool.
From Verif Require Import ThrowModel.
Import ListNotations.

(** [part c p pub d]: an object of class [c] has at [p] a subobject of class [d], on a way that is public or not. *)
Inductive part (c : cls) : place -> bool -> cls -> Prop :=
| part_self : part c whole true c
| part_base p pub d k b :
    part c p pub d -> In (k, b) (c_bases d) -> part c (base_place p k b) (pub && k_public k) b.

(** [t] is a base of [c], or [c] itself, however. *)
Definition has (t : name) (c : cls) : Prop := exists p pub d, part c p pub d /\ c_name d = t.
(** The only subobject of class [t] is at [p], and there is a public way to it. *)
Definition only_public (t : name) (c : cls) (p : place) : Prop :=
  (exists d, part c p true d /\ c_name d = t) /\ (forall q pub d, part c q pub d -> c_name d = t -> q = p).
(** A handler for [t] takes objects of class [c]. *)
Definition takes (t : name) (c : cls) : Prop := c_name c = t \/ exists p, only_public t c p.

(** The classes of the library are what they are: those that carry information derive from [exception_info]. *)
Definition library (c : cls) : Prop :=
  forall p pub d, part c p pub d -> (c_name d = Info_base \/ exists n, c_name d = With n) -> has Info d.
(** No class is among its own bases. *)
Definition proper (c : cls) : Prop := forall p pub d, part c p pub d -> c_name d = c_name c -> p = whole.
(** [std::exception] has virtual functions and no bases. *)
Definition standard (c : cls) : Prop :=
  forall p pub d, part c p pub d -> c_name d = Std -> c_bases d = [] /\ t_virtual_functions (c_traits d) = true.

(** A name of the library's own. *)
Definition carrier (e : cls) (t : name) : Prop := t = Info \/ t = Info_base \/ t = With (c_name e).

(** A place of [e], seen from [with_class e]. *)
Definition lifted (e : cls) (p : place) : place :=
  match p_root p with None => mkplace None (p_path p ++ [c_name e]) | Some _ => p end.
Definition at_base : place := mkplace None [Info_base].
Definition at_info : place := mkplace None [Info; Info_base].

(** A reference to a subobject that there is. *)
Definition sound {V I} (r : reference V I) : Prop := exists pub, part (o_class (r_obj r)) (r_place r) pub (r_type r).
(** There is a public way to it. *)
Definition open {V I} (r : reference V I) : Prop := exists d, part (o_class (r_obj r)) (r_place r) true d.

(** Handlers in order: the first one that takes it. *)
Definition first_taking (hs : list (option name)) (c : cls) (n : option nat) : Prop :=
  let ok h := match h with None => True | Some t => takes t c end in
  match n with
  | Some i => (exists h, nth_error hs i = Some h /\ ok h) /\ (forall j h, j < i -> nth_error hs j = Some h -> ~ ok h)
  | None => forall h, In h hs -> ~ ok h
  end.

(** No virtual bases. *)
Definition no_virtual (c : cls) : Prop := forall p pub d, part c p pub d -> p_root p = None.
