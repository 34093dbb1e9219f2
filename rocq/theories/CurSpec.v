(** Which slot is being invoked, from what happened; when the end of an emission destroys slots. *)
From Coq Require Import List Arith Bool.
From Verif Require Import Base CurModel.
Import ListNotations.

(** The emissions that run, innermost first: the slot being invoked, and the slot last invoked (before the first one, that of the code
    which emits). *)
Definition being (k : list (option nat * option nat)) : option nat := match k with p :: _ => fst p | [] => None end.
Definition follow (k : list (option nat * option nat)) (e : event) : list (option nat * option nat) :=
  match e, k with
  | EBegin _, _ => (None, being k) :: k
  | ECall s, _ :: k' => (Some s, Some s) :: k'
  | EReturn, p :: k' => (None, snd p) :: k'
  | EThrow, _ :: k' => k'
  | EEnd, _ :: k' => k'
  | _, _ => k
  end.
Definition emissions (es : list event) : list (option nat * option nat) := fold_left follow es [].

Definition invoked (es : list event) : option nat := being (emissions es).
Definition last_invoked (es : list event) : option nat := match emissions es with p :: _ => snd p | [] => None end.

(** Slots that only the list of their signal holds and that are disconnected. *)
Definition doomed (st : state) (s : nat) : bool :=
  match nth_error (slots st) s with Some x => negb (s_connected x) && (s_refs x =? 1) | None => false end.
Definition asking (st : state) (s : nat) : bool :=
  match nth_error (slots st) s with Some x => s_asks x | None => false end.

(** The signal whose outermost emission ends, if one does. *)
Definition outermost (st : state) : option nat :=
  match stack st with
  | f :: k => if existsb (fun h => Nat.eqb (f_sig h) (f_sig f)) k then None else Some (f_sig f)
  | [] => None
  end.

(** The slots the end of the emission removes, in order. *)
Definition removed (st : state) : list nat := match outermost st with Some g => nth g (lists st) [] | None => [] end.

(** No function is connected that asks when it is destroyed. *)
Definition quiet (e : event) : Prop := match e with EConnect _ true => False | _ => True end.

Definition is_end (e : event) : bool := match e with EEnd | EThrow => true | _ => false end.
(** Whether the event asks: by itself, or in the destructor of a function that it runs. *)
Definition asked (st st' : state) (e : event) : bool :=
  match e with
  | EAsk => true
  | EDrop s | EDisconnect s => asking st s && (refs st' s =? 0)
  | _ => false
  end.
