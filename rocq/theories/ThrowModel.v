(** Exceptions that carry information: [throw_with_info], [get_exception_info] and [exception_diagnostic_info]
    (exception_info.hpp 230-345), over a model of objects with several, virtual and private bases.

    Simplifications: copy constructors of user classes copy member by member; access is public or not; typeid and the
    text of [what] are left out (Diag has the texts); [exception_info] itself is one value (Xinfo has its list). *)
From Coq Require Import List Arith ZArith Bool.
Import ListNotations.

(** * Classes *)

Inductive name :=
| User (n : nat)
| Std                       (* [std::exception] *)
| Info                      (* [kl::exception_info], exception_info.hpp 113-224 *)
| Info_base                 (* [detail::exception_with_info_base], 230-239 *)
| With (e : name).          (* [detail::exception_with_info<e>], 241-255 *)

Fixpoint name_eqb (a b : name) : bool :=
  match a, b with
  | User m, User n => Nat.eqb m n
  | Std, Std | Info, Info | Info_base, Info_base => true
  | With x, With y => name_eqb x y
  | _, _ => false
  end.

Record kind := mkkind { k_public : bool; k_virtual : bool }.
(** What a class says of itself: [final], whether it declares virtual functions, a default constructor. *)
Record traits := mktraits { t_final : bool; t_virtual_functions : bool; t_default : bool }.
(** A class with its bases, in order. The language forbids the same direct base twice. *)
Inductive cls := Cls (n : name) (t : traits) (bs : list (kind * cls)).

Definition c_name (c : cls) : name := let 'Cls n _ _ := c in n.
Definition c_traits (c : cls) : traits := let 'Cls _ t _ := c in t.
Definition c_bases (c : cls) : list (kind * cls) := let 'Cls _ _ bs := c in bs.

(** * Subobjects *)

(** Where a subobject is: below the whole object, or below the one object of a virtual base; then the non-virtual
    bases on the way, the last one first. *)
Record place := mkplace { p_root : option name; p_path : list name }.
Definition whole : place := mkplace None [].

Fixpoint path_eqb (a b : list name) : bool :=
  match a, b with
  | [], [] => true
  | x :: a', y :: b' => name_eqb x y && path_eqb a' b'
  | _, _ => false
  end.
Definition place_eqb (a b : place) : bool :=
  match p_root a, p_root b with
  | None, None => true
  | Some x, Some y => name_eqb x y
  | _, _ => false
  end && path_eqb (p_path a) (p_path b).
Fixpoint distinct (l : list place) : list place :=
  match l with
  | [] => []
  | p :: l' => if existsb (place_eqb p) l' then distinct l' else p :: distinct l'
  end.

Definition base_place (p : place) (k : kind) (b : cls) : place :=
  if k_virtual k then mkplace (Some (c_name b)) [] else mkplace (p_root p) (c_name b :: p_path p).

(** A subobject as reached on one way: its place, whether every step was public, its class. *)
Record sub := mksub { s_place : place; s_public : bool; s_class : cls }.

Fixpoint subs (c : cls) (p : place) (pub : bool) {struct c} : list sub :=
  match c with
  | Cls _ _ bs =>
      mksub p pub c ::
      flat_map (fun kb : kind * cls => let (k, b) := kb in subs b (base_place p k b) (pub && k_public k)) bs
  end.

(** All the subobjects of an object of class [c], itself first. *)
Definition all (c : cls) : list sub := subs c whole true.

Definition named (t : name) (s : sub) : bool := name_eqb (c_name (s_class s)) t.
(** The places of the subobjects of class [t]: a virtual base reached on two ways is one subobject. *)
Definition places (t : name) (c : cls) : list place := distinct (map s_place (filter (named t) (all c))).
(** Reached on some way that is public. *)
Definition visible (c : cls) (p : place) : bool := existsb (fun s => place_eqb (s_place s) p && s_public s) (all c).
(** [class.member.lookup], [class.access.base]: the subobject of an unambiguous public base. *)
Definition upcast (c : cls) (t : name) : option place :=
  match places t c with [p] => if visible c p then Some p else None | _ => None end.

(** [std::is_base_of] looks neither at access nor at ambiguity. *)
Definition base_of (t : name) (c : cls) : bool := existsb (named t) (all c).
Definition polymorphic (c : cls) : bool := existsb (fun s => t_virtual_functions (c_traits (s_class s))) (all c).

(** * Handlers *)

(** [except.handle] 3: handlers for [t], [t&] and [const t&] *)
Definition catches (t : name) (c : cls) : bool :=
  name_eqb (c_name c) t || match upcast c t with Some _ => true | None => false end.
(** The handlers of a try block, [None] for [catch (...)]: the first one that matches. *)
Definition handler_for (hs : list (option name)) (c : cls) : option nat :=
  (fix go (hs : list (option name)) (i : nat) :=
     match hs with
     | [] => None
     | None :: _ => Some i
     | Some t :: hs' => if catches t c then Some i else go hs' (S i)
     end) hs 0.

(** * The classes of the library *)

Definition plain_public : kind := mkkind true false.
(** 113-224 *)
Definition info_class : cls := Cls Info (mktraits false true true) [].
(** 230-239 *)
Definition info_base_class : cls := Cls Info_base (mktraits false false false) [(plain_public, info_class)].
(** 241-255 *)
Definition with_class (e : cls) : cls :=
  Cls (With (c_name e)) (mktraits false false false) [(plain_public, e); (plain_public, info_base_class)].

(** The virtual bases of a class are initialized by the most derived class ([class.base.init] 7, 13.1). *)
Definition virtual_bases (c : cls) : list cls :=
  map s_class (filter (fun s => match p_root (s_place s), p_path (s_place s) with Some _, [] => true | _, _ => false end) (all c)).
(** What the function asserts (262-263), and what the constructors (245-254) need: they name only [E] and
    [exception_with_info_base], so that the virtual bases of [E] are default-initialized. *)
Definition throwable (e : cls) : bool :=
  negb (t_final (c_traits e)) && negb (base_of Info e) &&
  forallb (fun v => t_default (c_traits v)) (virtual_bases e).

(** * Objects *)

Section Objects.
Variables V I : Type.

(** The members that one class adds. *)
Inductive datum :=
| Nothing
| Own (v : V)               (* those of a user class *)
| Value (x : I)             (* an [exception_info] *)
| Of_type (n : name).       (* [exception_type] *)

Record obj := mkobj { o_class : cls; o_data : place -> datum }.
(** A reference to the subobject at [r_place] of an object, of the static type [r_type]. *)
Record reference := mkref { r_obj : obj; r_place : place; r_type : cls }.

(** What default constructors set. *)
Variable fresh : place -> datum.

(** A place below a subobject, seen from the whole. *)
Definition below (p : place) (path : list name) : place := mkplace (p_root p) (path ++ p_path p).

(** 245-254: [E{e}] copies the subobjects of the reference except the virtual bases. *)
Definition with_data (r : reference) (x : I) (p : place) : datum :=
  match p_root p with
  | Some _ => fresh p
  | None =>
      match rev (p_path p) with
      | [] => Nothing
      | n :: rest =>
          if name_eqb n (c_name (r_type r)) then o_data (r_obj r) (below (r_place r) (rev rest))
          else match rest with [] => Of_type (c_name (r_type r)) | _ => Value x end
      end
  end.

(** 257-273: the object that is thrown, [None] if the call does not compile. *)
Definition throw_with_info (r : reference) (x : I) : option obj :=
  if throwable (r_type r) then Some (mkobj (with_class (r_type r)) (with_data r x)) else None.

(** * Casts *)

Inductive cast := Ill_formed | Null | To (p : place).

(** The subobjects of class [t] that the subobject at [p] is a public base of. *)
Definition derived (c : cls) (t : name) (p : place) : list place :=
  distinct
    (map s_place
       (filter (fun s => named t s &&
                         existsb (fun u => place_eqb (s_place u) p && s_public u) (subs (s_class s) (s_place s) true))
               (all c))).

(** The place of a place of the static type, seen from the whole. *)
Definition absolute (r : reference) (p : place) : place :=
  match p_root p with None => below (r_place r) (p_path p) | Some _ => p end.

(** [expr.dynamic.cast] 5, 6, 8 *)
Definition dyn_cast (r : reference) (t : name) : cast :=
  if base_of t (r_type r) then
    match upcast (r_type r) t with Some p => To (absolute r p) | None => Ill_formed end
  else if polymorphic (r_type r) then
    match derived (o_class (r_obj r)) t (r_place r) with
    | [p] => To p
    | _ =>
        if visible (o_class (r_obj r)) (r_place r)
        then match upcast (o_class (r_obj r)) t with Some p => To p | None => Null end
        else Null
    end
  else Ill_formed.

(** 275-287 *)
Definition get_exception_info (r : reference) : cast :=
  if polymorphic (r_type r) then dyn_cast r Info else Ill_formed.

(** * Descriptions *)

(** The lines: the type, whether there is a line of [what], the information. *)
Record description := mkdescription { d_type : option name; d_what : bool; d_info : option datum }.

(** 289-323; [None] when it does not compile *)
Definition describe (r : reference) : option description :=
  if polymorphic (r_type r) then
    match dyn_cast r Info_base, dyn_cast r Std, dyn_cast r Info with
    | Ill_formed, _, _ | _, Ill_formed, _ | _, _, Ill_formed => None
    | b, s, i =>
        Some (mkdescription
                (match b with
                 | To p => match o_data (r_obj r) p with Of_type n => Some n | _ => None end
                 | _ => Some (c_name (o_class (r_obj r)))
                 end)
                (match s with To _ => true | _ => false end)
                (match i with To p => Some (o_data (r_obj r) p) | _ => None end))
    end
  else Some (mkdescription (Some (c_name (r_type r))) false None).

Definition class_at (c : cls) (p : place) : option cls :=
  option_map s_class (find (fun s => place_eqb (s_place s) p) (all c)).
(** The reference that a handler for [t] binds. *)
Definition bind (o : obj) (t : name) : option reference :=
  if name_eqb (c_name (o_class o)) t then Some (mkref o whole (o_class o))
  else match upcast (o_class o) t with
       | Some p => option_map (mkref o p) (class_at (o_class o) p)
       | None => None
       end.

(** 325-345, for a pointer that is not null: [None] when it does not compile *)
Definition describe_pointer (o : obj) : option description :=
  match bind o Info with
  | Some r => describe r
  | None => match bind o Std with
            | Some r => describe r
            | None => Some (mkdescription None false None)
            end
  end.
End Objects.

Arguments Nothing {V I}.
Arguments Own {V I}.
Arguments Value {V I}.
Arguments Of_type {V I}.
Arguments mkobj {V I}.
Arguments o_class {V I}.
Arguments o_data {V I}.
Arguments mkref {V I}.
Arguments r_obj {V I}.
Arguments r_place {V I}.
Arguments r_type {V I}.
Arguments with_data {V I}.
Arguments throw_with_info {V I}.
Arguments absolute {V I}.
Arguments dyn_cast {V I}.
Arguments get_exception_info {V I}.
Arguments mkdescription {V I}.
Arguments d_type {V I}.
Arguments d_what {V I}.
Arguments d_info {V I}.
Arguments describe {V I}.
Arguments bind {V I}.
Arguments describe_pointer {V I}.
