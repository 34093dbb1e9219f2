(** Function objects of slots that own connections: what happens when they are destroyed, kl/signal.hpp.

    SignalModel takes the destructor of a slot's function to do nothing.  Here a function owns connections, plain or scoped,
    and destroying it disconnects the scoped ones; [release] of a slot may thus come back to a signal, whose mutex may be
    held.  [std::mutex] is not recursive: locking it again in the same thread is [Deadlock].

    One thread.  The list of slots is a list, not linked cells (see SignalModel).  An emission is its beginning and its end with
    anything in between; the references that it holds to the current and the last slot are left out: while it runs
    these slots are also held by the list, and they are given back before the mutex is taken at the end (615-621).  Destroying
    a signal during its emission is left out.  Functions own their connections directly, not through shared objects. *)
From Coq Require Import List Arith Bool.
From Verif Require Import Base.
Import ListNotations.

(** [s_caps]: the connections that the function owns, [true] for scoped ones. *)
Record slot := mkslot { s_live : bool; s_refs : nat; s_sender : option nat; s_caps : list (bool * nat) }.
Record sigrec := mksig { g_live : bool; g_slots : list nat; g_active : nat; g_deferred : bool; g_locked : bool }.
(** [handles]: the connections of the rest of the program. *)
Record state := mkstate { slots : list slot; sigs : list sigrec; handles : list (option nat) }.

Inductive result := Done (st : state) | Deadlock | Undefined | No_fuel.
Definition bind (r : result) (k : state -> result) : result := match r with Done st => k st | _ => r end.

Definition set_slot (st : state) (s : nat) (x : slot) : state := mkstate (upd (slots st) s x) (sigs st) (handles st).
Definition set_sig (st : state) (g : nat) (r : sigrec) : state := mkstate (slots st) (upd (sigs st) g r) (handles st).
Definition set_handles (st : state) (h : list (option nat)) : state := mkstate (slots st) (sigs st) h.
(** Access to a slot or a signal that is no more is undefined. *)
Definition with_slot (st : state) (s : nat) (k : slot -> result) : result :=
  match nth_error (slots st) s with Some x => if s_live x then k x else Undefined | None => Undefined end.
Definition with_sig (st : state) (g : nat) (k : sigrec -> result) : result :=
  match nth_error (sigs st) g with Some r => if g_live r then k r else Undefined | None => Undefined end.

Definition lock (st : state) (g : nat) : result :=
  with_sig st g (fun r => if g_locked r then Deadlock
                          else Done (set_sig st g (mksig true (g_slots r) (g_active r) (g_deferred r) true))).
Definition unlock (st : state) (g : nat) : result :=
  with_sig st g (fun r => Done (set_sig st g (mksig true (g_slots r) (g_active r) (g_deferred r) false))).

(** signal.hpp:33 *)
Definition add_ref (st : state) (s : nat) : result :=
  with_slot st s (fun x => Done (set_slot st s (mkslot true (S (s_refs x)) (s_sender x) (s_caps x)))).
(** 794-797 *)
Definition invalidate (st : state) (s : nat) : result :=
  with_slot st s (fun x => Done (set_slot st s (mkslot true (s_refs x) None (s_caps x)))).

Section Release.
(** [release], 34-38 *)
Variable rel : nat -> state -> result.

(** 837-850; the mutex is held *)
Definition remove_slot (g s : nat) (st : state) : result :=
  with_sig st g (fun r =>
    rel s (set_sig st g (mksig true (filter (fun k => negb (Nat.eqb k s)) (g_slots r)) (g_active r) (g_deferred r) (g_locked r)))).
(** 726-750 [signal::disconnect] *)
Definition sig_disconnect (g s : nat) (st : state) : result :=
  bind (lock st g) (fun st =>
  bind (with_sig st g (fun r =>
    if existsb (Nat.eqb s) (g_slots r)
    then bind (invalidate st s) (fun st =>
         if Nat.eqb (g_active r) 0 then remove_slot g s st
         else Done (set_sig st g (mksig true (g_slots r) (g_active r) true (g_locked r))))
    else Done st)) (fun st =>
  unlock st g)).
(** 79-84 [slot_state::disconnect] *)
Definition state_disconnect (s : nat) (st : state) : result :=
  with_slot st s (fun x =>
    let st := set_slot st s (mkslot true (s_refs x) None (s_caps x)) in
    match s_sender x with Some g => sig_disconnect g s st | None => Done st end).
(** 174-181 [connection::disconnect] *)
Definition disconnect (s : nat) (st : state) : result := bind (state_disconnect s st) (rel s).
(** The destructor of the function: 133-137, 317 *)
Fixpoint destroy (caps : list (bool * nat)) (st : state) : result :=
  match caps with
  | [] => Done st
  | (scoped, s) :: caps' => bind (if scoped then disconnect s st else rel s st) (destroy caps')
  end.
End Release.

(** 34-38 [release], with [delete].  The recursion is as deep as functions own each other; [fuel] is a bound of it. *)
Fixpoint release (fuel s : nat) (st : state) : result :=
  match fuel with
  | 0 => No_fuel
  | S f =>
      with_slot st s (fun x =>
        match s_refs x with
        | 0 => Undefined
        | 1 => destroy (release f) (s_caps x) (set_slot st s (mkslot false 0 (s_sender x) (s_caps x)))
        | S n => Done (set_slot st s (mkslot true n (s_sender x) (s_caps x)))
        end)
  end.

(** Slots that are removed one after the other, the mutex being held: 661-675, 770-783 *)
Fixpoint remove_each (rel : nat -> state -> result) (g : nat) (all : bool) (l : list nat) (st : state) : result :=
  match l with
  | [] => Done st
  | s :: l' =>
      with_slot st s (fun x =>
        if all
        then bind (bind (invalidate st s) (remove_slot rel g s)) (remove_each rel g all l')
        else match s_sender x with
             | Some _ => remove_each rel g all l' st
             | None => bind (remove_slot rel g s st) (remove_each rel g all l')
             end)
  end.
Fixpoint invalidate_each (l : list nat) (st : state) : result :=
  match l with [] => Done st | s :: l' => bind (invalidate st s) (invalidate_each l') end.
(** 658-676 [disconnect_all_slots] *)
Definition disconnect_all (rel : nat -> state -> result) (g : nat) (st : state) : result :=
  bind (lock st g) (fun st =>
  bind (with_sig st g (fun r =>
    if Nat.eqb (g_active r) 0 then remove_each rel g true (g_slots r) st
    else bind (invalidate_each (g_slots r) st) (fun st =>
         Done (set_sig st g (mksig true (g_slots r) (g_active r) (match g_slots r with [] => g_deferred r | _ => true end) (g_locked r)))))) (fun st =>
  unlock st g)).
(** 607-608, and 618-621 with 758-785 *)
Definition begin_emission (g : nat) (st : state) : result :=
  bind (lock st g) (fun st =>
  bind (with_sig st g (fun r => Done (set_sig st g (mksig true (g_slots r) (S (g_active r)) (g_deferred r) (g_locked r))))) (fun st =>
  unlock st g)).
Definition end_emission (rel : nat -> state -> result) (g : nat) (st : state) : result :=
  bind (lock st g) (fun st =>
  bind (with_sig st g (fun r =>
    match g_active r with
    | 0 => Undefined
    | S n =>
        let st := set_sig st g (mksig true (g_slots r) n (g_deferred r) (g_locked r)) in
        if Nat.eqb n 0 && g_deferred r
        then bind (remove_each rel g false (g_slots r) st) (fun st =>
             with_sig st g (fun r => Done (set_sig st g (mksig true (g_slots r) (g_active r) false (g_locked r)))))
        else Done st
    end)) (fun st =>
  unlock st g)).

(** * The program *)

Inductive op :=
| New_signal
| Connect (g : nat) (front : bool)             (* the connection becomes a new handle; 456-463 *)
| Copy (h : nat)
| Drop (h : nat)                               (* ~connection *)
| Disconnect (h : nat)                         (* disconnect(), ~scoped_connection *)
| Give (h s : nat) (scoped : bool)             (* the function of slot [s] comes to own the connection *)
| Disconnect_owned (s i : nat)                 (* the function calls disconnect() of a connection that it owns *)
| Disconnect_all (g : nat)
| Begin (g : nat) | End (g : nat)              (* of an emission *)
| Destroy (g : nat).

Fixpoint drop_nth {A} (i : nat) (l : list A) : list A :=
  match l, i with [], _ => [] | _ :: l', 0 => l' | x :: l', S i' => x :: drop_nth i' l' end.
Definition fuel_for (st : state) : nat := S (S (length (slots st))).

(** Operations that do not apply do nothing. *)
Definition run_op (o : op) (st : state) : result :=
  let rel := release (fuel_for st) in
  let live g := match nth_error (sigs st) g with Some r => g_live r | None => false end in
  match o with
  | New_signal => Done (mkstate (slots st) (sigs st ++ [mksig true [] 0 false false]) (handles st))
  | Connect g front =>
      if live g
      then bind (lock st g) (fun st =>
           let s := length (slots st) in
           bind (with_sig st g (fun r =>
             Done (set_sig (mkstate (slots st ++ [mkslot true 2 (Some g) []]) (sigs st) (handles st ++ [Some s])) g
                    (mksig true (if front then s :: g_slots r else g_slots r ++ [s]) (g_active r) (g_deferred r) (g_locked r))))) (fun st =>
           unlock st g))
      else Done st
  | Copy h => match nth_error (handles st) h with
              | Some (Some s) => bind (add_ref st s) (fun st => Done (set_handles st (handles st ++ [Some s])))
              | _ => Done st end
  | Drop h => match nth_error (handles st) h with
              | Some (Some s) => rel s (set_handles st (upd (handles st) h None))
              | _ => Done st end
  | Disconnect h => match nth_error (handles st) h with
                    | Some (Some s) => disconnect rel s (set_handles st (upd (handles st) h None))
                    | _ => Done st end
  | Give h s scoped =>
      match nth_error (handles st) h, nth_error (slots st) s with
      | Some (Some c), Some x =>
          if s_live x
          then Done (set_slot (set_handles st (upd (handles st) h None)) s
                      (mkslot true (s_refs x) (s_sender x) (s_caps x ++ [(scoped, c)])))
          else Done st
      | _, _ => Done st
      end
  | Disconnect_owned s i =>
      match nth_error (slots st) s with
      | Some x => if s_live x
                  then match nth_error (s_caps x) i with
                       | Some (_, c) => disconnect rel c (set_slot st s (mkslot true (s_refs x) (s_sender x) (drop_nth i (s_caps x))))
                       | None => Done st
                       end
                  else Done st
      | None => Done st
      end
  | Disconnect_all g => if live g then disconnect_all rel g st else Done st
  | Begin g => if live g then begin_emission g st else Done st
  | End g => match nth_error (sigs st) g with
             | Some r => if g_live r && negb (Nat.eqb (g_active r) 0) then end_emission rel g st else Done st
             | None => Done st end
  | Destroy g => match nth_error (sigs st) g with
                 | Some r => if g_live r && Nat.eqb (g_active r) 0
                             then bind (disconnect_all rel g st) (fun st =>
                                  with_sig st g (fun r => Done (set_sig st g (mksig false (g_slots r) 0 (g_deferred r) (g_locked r)))))
                             else Done st
                 | None => Done st end
  end.
Fixpoint run (os : list op) (st : state) : result :=
  match os with [] => Done st | o :: os' => bind (run_op o st) (run os') end.
Definition empty : state := mkstate [] [] [].
