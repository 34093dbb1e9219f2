(** How the arguments of an emission reach the slots: [signal::operator()], [std::function], the lambdas of [connect],
    kl/signal.hpp:452-574, 587-648.

    Objects are cells of a store; a cell is never used again.  An argument is passed by value, by reference, by reference to
    const or by rvalue reference.  [None] stands for a program that does not compile.

    Simplifications: all slots are connected and not blocked, none throws, stops the emission or changes the signal (see
    SignalModel); the types of a parameter and its argument are the same up to references, so nothing is converted; every
    type can be moved; the objects of member functions are left out. *)
From Coq Require Import List Arith Bool.
Import ListNotations.

(** A type in a signature: [T], [T&], [const T&], [T&&]. *)
Inductive passing := Value | Ref | CRef | RRef.
(** ... and whether [T] can be copied. *)
Record param := mkparam { p_pass : passing; p_copy : bool }.

Section Pass.
Variable V : Type.

(** An object, or what is left of it when it has been moved from. *)
Inductive cell := Val (v : V) | Moved.
Record store := mkstore { cells : list cell; copies : nat }.
Definition read (st : store) (a : nat) : cell := nth a (cells st) Moved.
Fixpoint put (l : list cell) (a : nat) (c : cell) : list cell :=
  match l, a with
  | [], _ => []
  | _ :: l', 0 => c :: l'
  | x :: l', S a' => x :: put l' a' c
  end.
Definition write (st : store) (a : nat) (c : cell) : store := mkstore (put (cells st) a c) (copies st).

(** Expressions: the object and the category of the value. *)
Inductive expr := LValue (a : nat) | ConstLValue (a : nat) | XValue (a : nat).

(** A parameter is initialized: [dcl.init]. *)
Definition bind (p : param) (e : expr) (st : store) : option (store * nat) :=
  match p_pass p, e with
  | Value, XValue a => Some (mkstore (put (cells st) a Moved ++ [read st a]) (copies st), length (cells st))
  | Value, (LValue a | ConstLValue a) =>
      if p_copy p then Some (mkstore (cells st ++ [read st a]) (S (copies st)), length (cells st)) else None
  | Ref, LValue a => Some (st, a)
  | Ref, _ => None
  | CRef, (LValue a | ConstLValue a | XValue a) => Some (st, a)
  | RRef, XValue a => Some (st, a)
  | RRef, _ => None
  end.
Fixpoint bind_all (ps : list param) (es : list expr) (st : store) : option (store * list nat) :=
  match ps, es with
  | [], [] => Some (st, [])
  | p :: ps', e :: es' =>
      match bind p e st with
      | None => None
      | Some (st, a) => match bind_all ps' es' st with None => None | Some (st, l) => Some (st, a :: l) end
      end
  | _, _ => None
  end.

(** The expression [arg], for a parameter [T arg]. *)
Definition name (p : param) (a : nat) : expr := match p_pass p with CRef => ConstLValue a | _ => LValue a end.
(** The expression [std::forward<T>(arg)]. *)
Definition forward (p : param) (a : nat) : expr :=
  match p_pass p with Value | RRef => XValue a | Ref => LValue a | CRef => ConstLValue a end.
(** The type [T&&]. *)
Definition collapse (p : param) : param :=
  match p_pass p with Value => mkparam RRef (p_copy p) | _ => p end.
Fixpoint zip {A B C} (f : A -> B -> C) (l : list A) (m : list B) : list C :=
  match l, m with x :: l', y :: m' => f x y :: zip f l' m' | _, _ => [] end.

(** What the body of a function does with its parameters: it is given what they hold and answers what they are to hold;
    those that are const stay. *)
Definition body := list cell -> list cell.
Fixpoint store_back (ps : list param) (l : list nat) (cs : list cell) (st : store) : store :=
  match ps, l, cs with
  | p :: ps', a :: l', c :: cs' =>
      store_back ps' l' cs' (match p_pass p with CRef => st | _ => write st a c end)
  | _, _, _ => st
  end.

(** What a signal is connected to: a function object, a member function, another signal.  Functions have numbers. *)
Inductive slot :=
| Function (id : nat) (ps : list param) (f : body)
| Member (id : nat) (ps : list param) (f : body)
| Chain (s : signal)
with signal := Signal (ps : list param) (slots : list slot).

(** The calls: which function, what its parameters held when it began. *)
Definition log := list (nat * list cell).

Definition run (id : nat) (ps : list param) (f : body) (es : list expr) (st : store) : option (store * log) :=
  match bind_all ps es st with
  | None => None
  | Some (st, l) => let seen := map (read st) l in Some (store_back ps l (f seen) st, [(id, seen)])
  end.

(** The call [current->target(args...)] compiles, whether there are slots or not: 630. *)
Definition can_call (p : param) : bool := match p_pass p with Value => p_copy p | RRef => false | _ => true end.

(** [call ps s]: operator() of a [std::function<void(ps...)>] made of a slot; it forwards its parameters to the function
    object, [func.wrap.func.inv].  That is a lambda with parameters [Args&&...] for a member function (465-563) and for a
    signal (566-572). *)
Fixpoint call (ps : list param) (s : slot) (es : list expr) (st : store) {struct s} : option (store * log) :=
  match bind_all ps es st with
  | None => None
  | Some (st, l) =>
      match s with
      | Function id qs f => run id qs f (zip forward ps l) st
      | Member id qs f =>
          match bind_all (map collapse ps) (zip forward ps l) st with
          | None => None
          | Some (st, l) => run id qs f (zip forward ps l) st
          end
      | Chain sg =>
          match bind_all (map collapse ps) (zip forward ps l) st with
          | None => None
          | Some (st, l) => emit sg (zip forward ps l) st
          end
      end
  end
(** [signal::operator()(Args... args)]: 587-648 *)
with emit (sg : signal) (es : list expr) (st : store) {struct sg} : option (store * log) :=
  match sg with
  | Signal ps slots =>
      if forallb can_call ps
      then match bind_all ps es st with
           | None => None
           | Some (st, l) =>
               (fix each (ss : list slot) (st : store) : option (store * log) :=
                  match ss with
                  | [] => Some (st, [])
                  | s :: ss' =>
                      match call ps s (zip name ps l) st with
                      | None => None
                      | Some (st, g) => match each ss' st with None => None | Some (st, g') => Some (st, g ++ g') end
                      end
                  end) slots st
           end
      else None
  end.
End Pass.
