(** What the claims about customization points are made of. *)
From Coq Require Import List Arith Bool.
From Verif Require Import DispModel.
Import ListNotations.

(** The argument is of the type, or of a class [k] steps below it. *)
Inductive binds : ty -> named -> nat -> Prop :=
| B_plain n : binds (Plain n) (NPlain n) 0
| B_class l1 l l2 : (forall x, In x l1 -> l_class x <> l_class l) -> binds (Obj (l1 ++ l :: l2)) (NClass (l_class l)) (length l1)
| B_opt t p : binds t p 0 -> binds (Opt t) (NOpt p) 0.

(** An object of the type can be made of the argument. *)
Inductive made : ty -> named -> Prop :=
| M_self t p k : binds t p k -> made t p
| M_content t p : made t p -> made t (NOpt p)
| M_opt t p : made t p -> made (Opt t) (NOpt p).

(** The member function the class or its nearest base declares can be called. *)
Definition has_member (t : ty) (c : nat) : Prop :=
  exists l1 l l2, t = Obj (l1 ++ l :: l2) /\ (forall x, In x l1 -> l_member x = None) /\
  l_member l = Some (mkmember true true true) /\ l_class l = c.

(** Lookup finds the function. *)
Fixpoint core (t : ty) : ty := match t with Opt t' => core t' | _ => t end.
Definition visible (p : program) (t : ty) (f : fn) : Prop :=
  In (f_space f) (p_context p) \/ exists ls l, core t = Obj ls /\ In l ls /\ f_space f = l_space l.
(** It is found and can be called with the context. *)
Definition candidate (p : program) (t : ty) (f : fn) : Prop := visible p t f /\ f_context f = true.

(** The content of [n] optionals. *)
Definition inside_of (n : nat) (t t' : ty) : Prop := t = Nat.iter n Opt t'.
