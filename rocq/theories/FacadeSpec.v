(** Iterators as positions in a sequence. *)
From Coq Require Import List ZArith Bool.
From Verif Require Import Base FacadeModel.
Import ListNotations.
Local Open Scope Z_scope.

(** Programs on positions between [first] and [last]; [None]: a position or an element outside. *)
Section Positions.
Context {V : Type} (first last : Z) (element : Z -> V).
Definition positions := nat -> Z.
Definition move (e : positions) (x : nat) (p : Z) : positions := fun y => if Nat.eqb y x then p else e y.
Definition to (e : positions) (y : nat) (p : Z) : option (positions * list (out V)) :=
  if (first <=? p) && (p <=? last) then Some (move e y p, []) else None.
Definition show (e : positions) (p : Z) : option (positions * list (out V)) :=
  if (first <=? p) && (p <? last) then Some (e, [OVal (element p)]) else None.
Definition holds (c : comparison) (p q : Z) : bool :=
  match c with Eq => p =? q | Ne => negb (p =? q) | Lt => p <? q | Gt => q <? p | Le => p <=? q | Ge => q <=? p end.
Definition meaning (i : stmt) (e : positions) : option (positions * list (out V)) :=
  match i with
  | Assign y x => to e y (e x)
  | PreInc x => to e x (e x + 1)
  | PreDec x => to e x (e x - 1)
  | PostInc y x => match to e x (e x + 1) with Some (e', _) => Some (move e' y (e x), []) | None => None end
  | PostDec y x => match to e x (e x - 1) with Some (e', _) => Some (move e' y (e x), []) | None => None end
  | AddTo x n => to e x (e x + n)
  | SubFrom x n => to e x (e x - n)
  | Plus y x n | PlusLeft y n x => to e y (e x + n)
  | Minus y x n => to e y (e x - n)
  | Diff x y => Some (e, [ONum (e x - e y)])
  | Cmp c x y => Some (e, [OBool (holds c (e x) (e y))])
  | Star x | Arrow x => show e (e x)
  | Subscript x n => show e (e x + n)
  end.
Fixpoint means (l : list stmt) (e : positions) : option (positions * list (out V)) :=
  match l with
  | [] => Some (e, [])
  | i :: l' =>
      match meaning i e with
      | Some (e', o) => match means l' e' with Some (e'', o') => Some (e'', o ++ o') | None => None end
      | None => None
      end
  end.
End Positions.

(** What is asked of the functions of a derived class. *)
Section Contract.
Context {St V : Type} (D : derived St V) (cells : nat -> V) (pos : St -> Z) (first last : Z) (element : Z -> V).
Definition inside (p : Z) : Prop := first <= p <= last.
(** [dereference] finds the element: elsewhere, in the iterator, or made on the spot if it returns by value *)
Definition finds (s : St) : Prop :=
  (exists l, dereference D s = Ok (AtCell l) /\ cells l = element (pos s)) \/
  (dereference D s = Ok InSelf /\ stash D s = element (pos s)) \/
  (exists c, reference D = Val c /\ dereference D s = Ok (Made (element (pos s)))).
Record conforms : Prop := {
  c_range : last - first < 2 ^ 63;
  c_find : forall s, inside (pos s) -> pos s <> last -> finds s;
  c_inc : forall s, inside (pos s) -> inside (pos s + 1) -> exists s', increment D s = Ok s' /\ pos s' = pos s + 1;
  c_dec : cat D = Bidirectional \/ cat D = RandomAccess ->
    forall s, inside (pos s) -> inside (pos s - 1) -> exists s', decrement D s = Ok s' /\ pos s' = pos s - 1;
  c_adv : cat D = RandomAccess ->
    forall s n, inside (pos s) -> inside (pos s + n) -> exists s', advance D s n = Ok s' /\ pos s' = pos s + n;
  c_dist : cat D = RandomAccess ->
    forall s s', inside (pos s) -> inside (pos s') -> distance_to D s s' = Ok (pos s - pos s');
  c_eq : forall s s', inside (pos s) -> inside (pos s') -> equal_to D s s' = Ok (pos s =? pos s') }.

(** The operators of an iterator of this category, [input.iterators] and the following. *)
Definition offered (i : stmt) : Prop :=
  match i with
  | Assign _ _ | PreInc _ | PostInc _ _ | Star _ | Arrow _ | Cmp (Eq | Ne) _ _ => True
  | PreDec _ | PostDec _ _ => cat D = Bidirectional \/ cat D = RandomAccess
  | _ => cat D = RandomAccess
  end.
(** [T&]; [T] that can be moved; [const T] that can be copied *)
Definition points : Prop :=
  match reference D with LRef _ => True | Val false => movable D = true | Val true => copyable D = true | RRef _ => False end.
(** [dereference] returns a reference to a member of the iterator. *)
Definition stashing : Prop := (forall c, reference D <> Val c) /\ exists s, dereference D s = Ok InSelf.
End Contract.
