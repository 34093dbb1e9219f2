(** Which function a customization point calls: [priority_tag] of kl/utility.hpp and the points of
    kl/resource_op.hpp, [validate_resource] and [resource_key_matches].

    The choice is made at compile time.  Simplifications: a class has at most one base, which is public, and is copyable; [plain]
    types (numbers, strings, containers) convert to no other plain type and name no namespace; parameters for
    the context or the segment are a yes or no; functions with other parameters than those of [param] are left out. *)
From Coq Require Import List Arith Bool.
Import ListNotations.

(* ------------------------------------------------------------------ *)
(** ** Overload resolution *)

(** [over.match.best]: the candidate that is better than every other one; no such candidate is an error. *)
Definition at_places {A} (l : list A) : list (nat * A) := combine (seq 0 (length l)) l.
Definition best {A} (better : A -> A -> bool) (l : list A) : option A :=
  match filter (fun x => forallb (fun y => Nat.eqb (fst x) (fst y) || better (snd x) (snd y)) (at_places l)) (at_places l) with
  | [(_, x)] => Some x
  | _ => None
  end.

(** utility.hpp:34-37: [priority_tag<n>] derives from [priority_tag<n - 1>].  The steps from one to the other. *)
Fixpoint steps_up (from to : nat) : option nat :=
  if Nat.eqb from to then Some 0
  else match from with
       | O => None
       | S n => option_map S (steps_up n to)
       end.

(** A function whose last parameter is a [priority_tag]: the number in it, whether the expression in its
    return type is valid, and what it does.  The other parameters are the same. *)
Record tagged (A : Type) := mktagged { tag : nat; valid : bool; does : A }.
Arguments mktagged {A}. Arguments tag {A}. Arguments valid {A}. Arguments does {A}.

(** [over.ics.rank]: a class converts to itself better than to a base, to a nearer base better than to a further one. *)
Definition nearer (n : nat) {A} (x y : tagged A) : bool :=
  match steps_up n (tag x), steps_up n (tag y) with
  | Some i, Some j => Nat.ltb i j
  | _, _ => false
  end.
(** A call with [priority_tag<n>{}]. *)
Definition with_priority (n : nat) {A} (l : list (tagged A)) : option A :=
  option_map does (best (nearer n) (filter (fun x => valid x && match steps_up n (tag x) with Some _ => true | None => false end) l)).

(* ------------------------------------------------------------------ *)
(** ** Types and user functions *)

(** A member function [validate_resource]: public, callable on an lvalue, callable with the context. *)
Record member := mkmember { m_public : bool; m_lvalue : bool; m_context : bool }.
(** A class and its bases, the most derived first: name, namespace, the member if it declares one. *)
Record level := mklevel { l_class : nat; l_space : nat; l_member : option member }.

Inductive ty :=
| Plain (n : nat)
| Obj (c : list level)
| Opt (t : ty).                     (* std::optional *)

(** Types as user functions name them. *)
Inductive named :=
| NPlain (n : nat)
| NClass (c : nat)
| NOpt (t : named).

Inductive passing := ByRef | ByConst | ByValue.          (* T&, const T&, T *)
Inductive param :=
| Named (t : named)
| Any                               (* template <typename U> ... U *)
| AnyOpt.                           (* template <typename U> ... std::optional<U> *)
(** A free function named like the customization point. *)
Record fn := mkfn { f_name : nat; f_space : nat; f_pass : passing; f_param : param; f_context : bool; f_deleted : bool }.

(* ------------------------------------------------------------------ *)
(** ** Conversions of the first argument *)

Fixpoint place_of (c : nat) (ls : list level) : option nat :=
  match ls with
  | [] => None
  | l :: ls' => if Nat.eqb (l_class l) c then Some 0 else option_map S (place_of c ls')
  end.

(** The type itself, or how far away the base is. *)
Fixpoint same_type (t : ty) (p : named) : bool :=
  match t, p with
  | Plain n, NPlain m => Nat.eqb n m
  | Obj ls, NClass c => match place_of c ls with Some 0 => true | _ => false end
  | Opt t', NOpt p' => same_type t' p'
  | _, _ => false
  end.
Definition base_steps (t : ty) (p : named) : option nat :=
  match t, p with
  | Obj ls, NClass c => place_of c ls
  | _, _ => if same_type t p then Some 0 else None
  end.

(** The constructors of [std::optional]: from what its content can be made of, or from an optional of such. *)
Fixpoint constructible (p : named) (t : ty) : bool :=
  match base_steps t p with
  | Some _ => true
  | None =>
      match p with
      | NOpt p' => constructible p' t || match t with Opt t' => constructible p' t' | _ => false end
      | _ => false
      end
  end.

Inductive rank := Exact | ToBase (steps : nat) | User.
Definition rank_of_steps (n : nat) : rank := match n with O => Exact | _ => ToBase n end.

(** [const_arg]: the argument is const.  [None]: the function is not viable. *)
Definition rank_of (const_arg : bool) (t : ty) (f : fn) : option rank :=
  if negb (f_context f) then None
  else match f_param f with
       | Named p =>
           match f_pass f with
           | ByRef => if const_arg then None else option_map rank_of_steps (base_steps t p)
           | _ => match base_steps t p with
                  | Some n => Some (rank_of_steps n)
                  | None => if constructible p t then Some User else None
                  end
           end
       | Any => Some Exact
       | AnyOpt =>
           match t with
           | Opt _ => match f_pass f with ByRef => if const_arg then None else Some Exact | _ => Some Exact end
           | _ => None
           end
       end.

(** [over.ics.rank]: better conversions. *)
Definition rank_lt (r s : rank) : bool :=
  match r, s with
  | Exact, ToBase _ | Exact, User | ToBase _, User => true
  | ToBase n, ToBase m => Nat.ltb n m
  | _, _ => false
  end.
(** The same conversion, of which one adds const: [T&] and [const T&] for an argument that is not const. *)
Definition same_rank (r s : rank) : bool :=
  match r, s with
  | Exact, Exact => true
  | ToBase n, ToBase m => Nat.eqb n m
  | _, _ => false
  end.
Definition less_const (const_arg : bool) (f g : fn) : bool :=
  negb const_arg && match f_pass f, f_pass g with ByRef, ByConst => true | _, _ => false end.

Definition is_template (f : fn) : bool := match f_param f with Named _ => false | _ => true end.
(** [temp.func.order]: [optional<U>] before [U]; [const U&] before [U&]. *)
Definition more_special (f g : fn) : bool :=
  match f_param f, f_param g with
  | AnyOpt, Any => true
  | Any, Any | AnyOpt, AnyOpt => match f_pass f, f_pass g with ByConst, ByRef => true | _, _ => false end
  | _, _ => false
  end.

Definition better (const_arg : bool) (t : ty) (f g : fn) : bool :=
  match rank_of const_arg t f, rank_of const_arg t g with
  | Some r, Some s =>
      if rank_lt r s then true
      else if rank_lt s r then false
      else if same_rank r s && less_const const_arg f g then true
      else if same_rank r s && less_const const_arg g f then false
      else if negb (is_template f) && is_template g then true
      else if is_template f && negb (is_template g) then false
      else is_template f && is_template g && more_special f g
  | _, _ => false
  end.

(** [basic.lookup.argdep]: the namespaces of the class and its bases, of what an optional holds, and of the context. *)
Fixpoint spaces_of (t : ty) : list nat :=
  match t with
  | Plain _ => []
  | Obj ls => map l_space ls
  | Opt t' => spaces_of t'
  end.

(** A program: the free functions, and the namespaces of the context. *)
Record program := mkprogram { p_fns : list fn; p_context : list nat }.

Definition found (p : program) (t : ty) : list fn :=
  filter (fun f => existsb (Nat.eqb (f_space f)) (spaces_of t ++ p_context p)) (p_fns p).
(** The free function of a valid call. *)
Definition free_call (p : program) (const_arg : bool) (t : ty) : option fn :=
  match best (better const_arg t) (filter (fun f => match rank_of const_arg t f with Some _ => true | None => false end) (found p t)) with
  | Some f => if f_deleted f then None else Some f
  | None => None
  end.

(** [class.member.lookup]: the most derived class that declares the name. *)
Fixpoint declared (ls : list level) : option (nat * member) :=
  match ls with
  | [] => None
  | l :: ls' => match l_member l with Some m => Some (l_class l, m) | None => declared ls' end
  end.
Definition member_call (t : ty) : option nat :=
  match t with
  | Obj ls =>
      match declared ls with
      | Some (c, m) => if m_public m && m_lvalue m && m_context m then Some c else None
      | None => None
      end
  | _ => None
  end.

(* ------------------------------------------------------------------ *)
(** ** The customization points *)

Inductive callee := Member (c : nat) | Free (f : fn) | Nothing.

Definition present {A} (o : option A) : bool := match o with Some _ => true | None => false end.
Definition or_nothing {A} (k : A -> callee) (o : option A) : callee := match o with Some a => k a | None => Nothing end.

(** resource_op.hpp:84-104, and 137-140 [validate_self] *)
Definition validator (p : program) (t : ty) : option callee :=
  with_priority 2
    [mktagged 2 (present (member_call t)) (or_nothing Member (member_call t));
     mktagged 1 (present (free_call p false t)) (or_nothing Free (free_call p false t));
     mktagged 0 true Nothing].

(** 123-134 [validate_candidate].  [depth]: how many of the optionals around the value hold something; the
    functions that run, with the optionals they are inside. *)
Fixpoint validate (p : program) (t : ty) (depth : nat) (inside : nat) : list (nat * callee) :=
  match validator p t with
  | Some Nothing | None => []
  | Some c => [(inside, c)]
  end ++
  match t, depth with
  | Opt t', S d => validate p t' d (S inside)
  | _, _ => []
  end.

(** 106-119, 142-146 [key_matches]; the element is const. *)
Definition matcher (p : program) (t : ty) : option callee :=
  with_priority 1
    [mktagged 1 (present (free_call p true t)) (or_nothing Free (free_call p true t));
     mktagged 0 true Nothing].
