(** kl/iterator_facade.hpp: the operators that are made of the functions of a derived class, for any derived class.

    A derived iterator is a type of states with six functions; those may throw or be undefined.  Simplifications: the
    elements that iterators refer to are not modified; [noexcept] is left out; a copy of an iterator is its state. *)
From Coq Require Import List ZArith Bool.
From Verif Require Import Base.
Import ListNotations.
Local Open Scope Z_scope.
Local Open Scope outcome_scope.

(** * Types *)

Inductive category := Input | Forward | Bidirectional | RandomAccess.
Definition rank (c : category) : Z := match c with Input => 0 | Forward => 1 | Bidirectional => 2 | RandomAccess => 3 end.
(** [std::is_convertible_v<iterator_category, Tag>]: the tags derive from each other *)
Definition convertible (c tag : category) : bool := rank tag <=? rank c.

(** The parameter [Reference]: [T&], [T&&] or [T], each with or without [const]. *)
Inductive rtype := LRef (const : bool) | RRef (const : bool) | Val (const : bool).
Definition is_lvalue_reference (r : rtype) : bool := match r with LRef _ => true | _ => false end.
(** [T] or [const T]; [T&&] or [const T&&] *)
Inductive named := Object (const : bool) | RvalueReference (const : bool).
Definition remove_reference (r : rtype) : named := match r with LRef c | RRef c | Val c => Object c end.
Definition itself (r : rtype) : named := match r with LRef c | Val c => Object c | RRef c => RvalueReference c end.
(** 31-33 *)
Definition value_type (r : rtype) : named := if is_lvalue_reference r then remove_reference r else itself r.
Inductive pointer_type := Raw (const : bool) | ArrowProxy (t : named).
(** 34-37 *)
Definition pointer (r : rtype) : pointer_type :=
  match r with LRef c => Raw c | _ => ArrowProxy (value_type r) end.
(** 13-19 [arrow_proxy]: there are no pointers to references; the member is made of a [T&&], or copied if that is const. *)
Definition arrow_proxy_compiles (copyable movable : bool) (t : named) : bool :=
  match t with Object true => copyable | Object false => movable | RvalueReference _ => false end.

(** * Derived classes *)

Section Facade.
Context {St V : Type}.

(** What [dereference] gives: an element elsewhere, a member of the iterator, something made on the spot. *)
Inductive found := AtCell (l : nat) | InSelf | Made (v : V).
Record derived := mkderived {
  cat : category; reference : rtype; copyable : bool; movable : bool;
  dereference : St -> outcome found;
  stash : St -> V;                           (* the member that [InSelf] refers to *)
  increment : St -> outcome St;
  decrement : St -> outcome St;
  advance : St -> Z -> outcome St;
  distance_to : St -> St -> outcome Z;
  equal_to : St -> St -> outcome bool }.
Context (D : derived) (cells : nat -> V).

(** Where an iterator object is: a variable, or a variable of the function that returns. *)
Inductive home := Named (x : nat) | Local.
(** What an expression refers to. *)
Inductive place := Cell (l : nat) | Part (h : home) | Temporary (v : V) | Dangling.

(** [return impl().dereference();] *)
Definition referred (h : home) (s : St) (f : found) : place :=
  match reference D, f with
  | Val _, AtCell l => Temporary (cells l)
  | Val _, InSelf => Temporary (stash D s)
  | Val _, Made v => Temporary v
  | _, AtCell l => Cell l
  | _, InSelf => Part h
  | _, Made _ => Dangling
  end.

(** * Operators *)

(** 42-45 *)
Definition star (h : home) (s : St) : outcome place := f <- dereference D s ;; Ok (referred h s f).
(** 47-53: the address of the element, or a proxy with the value *)
Definition arrow (h : home) (s : St) : outcome place := star h s.
(** 64-75 *)
Definition pre_increment (s : St) : outcome St := increment D s.
Definition post_increment (s : St) : outcome (St * St) := s' <- increment D s ;; Ok (s, s').
(** 77-92 *)
Definition pre_decrement (s : St) : outcome St := decrement D s.
Definition post_decrement (s : St) : outcome (St * St) := s' <- decrement D s ;; Ok (s, s').
(** 94-108; [-n] overflows for one number *)
Definition min_difference : Z := - 2 ^ 63.
Definition add_assign (s : St) (n : Z) : outcome St := advance D s n.
Definition sub_assign (s : St) (n : Z) : outcome St := if n =? min_difference then UB else advance D s (- n).
(** 110-125 *)
Definition plus (s : St) (n : Z) : outcome St := add_assign s n.
Definition plus_left (n : Z) (s : St) : outcome St := plus s n.
Definition minus (s : St) (n : Z) : outcome St := sub_assign s n.
(** 127-133 *)
Definition difference (l r : St) : outcome Z := distance_to D l r.
(** 135-145 *)
Definition eq_op (l r : St) : outcome bool := equal_to D l r.
Definition ne_op (l r : St) : outcome bool := e <- eq_op l r ;; Ok (negb e).
(** 147-169 *)
Definition lt_op (l r : St) : outcome bool := d <- difference r l ;; Ok (0 <? d).
Definition gt_op (l r : St) : outcome bool := d <- difference l r ;; Ok (0 <? d).
Definition le_op (l r : St) : outcome bool := g <- gt_op l r ;; Ok (negb g).
Definition ge_op (l r : St) : outcome bool := b <- lt_op l r ;; Ok (negb b).
(** 55-61: [copy] is gone when the function has returned *)
Definition subscript (s : St) (n : Z) : outcome place := copy <- plus s n ;; star Local copy.

(** * Programs that use iterators *)

Inductive comparison := Eq | Ne | Lt | Gt | Le | Ge.
Inductive stmt :=
| Assign (y x : nat)                     (* y = x *)
| PreInc (x : nat) | PreDec (x : nat)    (* ++x, --x *)
| PostInc (y x : nat) | PostDec (y x : nat)   (* y = x++, y = x-- *)
| AddTo (x : nat) (n : Z) | SubFrom (x : nat) (n : Z)   (* x += n, x -= n *)
| Plus (y x : nat) (n : Z) | PlusLeft (y : nat) (n : Z) (x : nat) | Minus (y x : nat) (n : Z)   (* y = x + n, n + x, x - n *)
| Diff (x y : nat)                       (* print(x - y) *)
| Cmp (c : comparison) (x y : nat)       (* print(x < y) *)
| Star (x : nat) | Arrow (x : nat) | Subscript (x : nat) (n : Z).   (* of the element: *x, x->v, x[n] *)
Inductive out := ONum (z : Z) | OBool (b : bool) | OVal (v : V).

Definition vars := nat -> St.
Definition set_var (e : vars) (x : nat) (s : St) : vars := fun y => if Nat.eqb y x then s else e y.

(** Reading what is referred to. *)
Definition load (e : vars) (p : place) : outcome V :=
  match p with
  | Cell l => Ok (cells l)
  | Part (Named x) => Ok (stash D (e x))
  | Part Local => UB
  | Temporary v => Ok v
  | Dangling => UB
  end.

Definition compare (c : comparison) : St -> St -> outcome bool :=
  match c with Eq => eq_op | Ne => ne_op | Lt => lt_op | Gt => gt_op | Le => le_op | Ge => ge_op end.

Definition step (i : stmt) (e : vars) : outcome (vars * list out) :=
  match i with
  | Assign y x => Ok (set_var e y (e x), [])
  | PreInc x => s <- pre_increment (e x) ;; Ok (set_var e x s, [])
  | PreDec x => s <- pre_decrement (e x) ;; Ok (set_var e x s, [])
  | PostInc y x => 'p <- post_increment (e x) ;; Ok (set_var (set_var e x (snd p)) y (fst p), [])
  | PostDec y x => 'p <- post_decrement (e x) ;; Ok (set_var (set_var e x (snd p)) y (fst p), [])
  | AddTo x n => s <- add_assign (e x) n ;; Ok (set_var e x s, [])
  | SubFrom x n => s <- sub_assign (e x) n ;; Ok (set_var e x s, [])
  | Plus y x n => s <- plus (e x) n ;; Ok (set_var e y s, [])
  | PlusLeft y n x => s <- plus_left n (e x) ;; Ok (set_var e y s, [])
  | Minus y x n => s <- minus (e x) n ;; Ok (set_var e y s, [])
  | Diff x y => d <- difference (e x) (e y) ;; Ok (e, [ONum d])
  | Cmp c x y => b <- compare c (e x) (e y) ;; Ok (e, [OBool b])
  | Star x => p <- star (Named x) (e x) ;; v <- load e p ;; Ok (e, [OVal v])
  | Arrow x => p <- arrow (Named x) (e x) ;; v <- load e p ;; Ok (e, [OVal v])
  | Subscript x n => p <- subscript (e x) n ;; v <- load e p ;; Ok (e, [OVal v])
  end.
Fixpoint run (l : list stmt) (e : vars) : outcome (vars * list out) :=
  match l with
  | [] => Ok (e, [])
  | i :: l' => 'r <- step i e ;; 'q <- run l' (fst r) ;; Ok (fst q, snd r ++ snd q)
  end.

(** The static assertions, with those of the operators that are called. *)
Definition decrement_compiles : bool := convertible (cat D) Bidirectional.
Definition add_assign_compiles : bool := convertible (cat D) RandomAccess.
Definition sub_assign_compiles : bool := convertible (cat D) RandomAccess.
Definition difference_compiles : bool := convertible (cat D) RandomAccess.
Definition subscript_compiles : bool := convertible (cat D) RandomAccess && add_assign_compiles.
Definition arrow_compiles : bool :=
  match pointer (reference D) with Raw _ => true | ArrowProxy t => arrow_proxy_compiles (copyable D) (movable D) t end.
Definition compiles (i : stmt) : bool :=
  match i with
  | Assign _ _ | PreInc _ | PostInc _ _ | Star _ | Cmp (Eq | Ne) _ _ => true
  | PreDec _ | PostDec _ _ => decrement_compiles
  | AddTo _ _ | Plus _ _ _ | PlusLeft _ _ _ => add_assign_compiles
  | SubFrom _ _ | Minus _ _ _ => sub_assign_compiles
  | Diff _ _ | Cmp (Lt | Gt | Le | Ge) _ _ => difference_compiles
  | Subscript _ _ => subscript_compiles
  | Arrow _ => arrow_compiles
  end.
(** [None]: the program does not compile. *)
Definition program (l : list stmt) (e : vars) : option (outcome (vars * list out)) :=
  if forallb compiles l then Some (run l e) else None.

End Facade.
Arguments found : clear implicits. Arguments derived : clear implicits. Arguments out : clear implicits. Arguments place : clear implicits.
