(** [this_signal::current_connection] and destructors: kl/signal.hpp:33-38 ([ref_counted]), 103-113 ([tls_signal_info]), 587-650
    ([operator()]), 726-750 ([disconnect]), 762-786 ([cleanup_invalidated_slots_locked]), 837-859, 877-886.

    One thread, any number of signals and nested emissions.  The function of a slot may, when it is destroyed, ask for the current
    connection ([s_asks]); it is destroyed with the slot, when no reference is left.  A run is a list of events: what code outside
    emissions and in slots does, and when slots are called, return, and emissions end.  Which slots an emission calls, and in which
    order, is left open here (SignalModel).  The references that an emission holds to the current and the last slot are left out, as
    in CaptModel: they are given back (611-615) before the slots are removed.  The one to the current slot is not given back when the slot
    throws (C27); that reference stays ([EThrow]), and that no connection gives it back ([EDrop]) is not required here.  Moves and destruction
    of signals, and destructors that do anything else (CaptModel) are left out. *)
From Coq Require Import List Arith Bool.
From Verif Require Import Base.
Import ListNotations.

Record slot := mkslot { s_refs : nat; s_connected : bool; s_asks : bool }.
(** An emission: the signal, [prev_emission_state.current_slot] and the slot being called. *)
Record frame := mkframe { f_sig : nat; f_saved : option nat; f_in : option nat }.
(** [lists]: the slots of each signal. *)
Record state := mkstate { slots : list slot; lists : list (list nat); stack : list frame; current : option nat;
                          answers : list (option nat) }.

Inductive event :=
| EConnect (g : nat) (asks : bool)   (* [at_back]; the connection is dropped *)
| EHold (s : nat)                    (* a copy of a connection *)
| EDrop (s : nat)                    (* one is destroyed *)
| EDisconnect (s : nat)
| EAsk                               (* [current_connection] *)
| EBegin (g : nat)
| ECall (s : nat)
| EReturn
| EThrow                             (* an exception leaves the slot, and with it the emission *)
| EEnd.

Definition set_slots (st : state) (l : list slot) : state := mkstate l (lists st) (stack st) (current st) (answers st).
Definition set_lists (st : state) (l : list (list nat)) : state := mkstate (slots st) l (stack st) (current st) (answers st).
Definition set_stack (st : state) (k : list frame) (c : option nat) : state := mkstate (slots st) (lists st) k c (answers st).

Definition refs (st : state) (s : nat) : nat := match nth_error (slots st) s with Some x => s_refs x | None => 0 end.

(** 882-886: a connection is made and, with the expression, destroyed.  A slot without references is destroyed or about to be: to count them up
    and down again destroys it twice. *)
Definition ask (st : state) : outcome state :=
  match current st with
  | None => Ok (mkstate (slots st) (lists st) (stack st) (current st) (answers st ++ [None]))
  | Some c => if refs st c =? 0 then UB
              else Ok (mkstate (slots st) (lists st) (stack st) (current st) (answers st ++ [Some c]))
  end.

(** 34-38.  The function is destroyed when the count is down. *)
Definition release (st : state) (s : nat) : outcome state :=
  match nth_error (slots st) s with
  | None => UB
  | Some x =>
      match s_refs x with
      | 0 => UB
      | S n =>
          let st := set_slots st (upd (slots st) s (mkslot n (s_connected x) (s_asks x))) in
          if (n =? 0) && s_asks x then ask st else Ok st
      end
  end.

(** 837-859 *)
Definition unlink (g s : nat) (st : state) : state :=
  set_lists st (upd (lists st) g (filter (fun k => negb (k =? s)) (nth g (lists st) []))).

(** 773-784, over the slots that are there *)
Fixpoint cleanup (g : nat) (l : list nat) (st : state) : outcome state :=
  match l with
  | [] => Ok st
  | s :: l' =>
      match nth_error (slots st) s with
      | None => UB
      | Some x => if s_connected x then cleanup g l' st else obind (release (unlink g s st) s) (cleanup g l')
      end
  end.

Definition emitting (k : list frame) (g : nat) : bool := existsb (fun f => f_sig f =? g) k.

(** Code of the program runs outside emissions and in slots. *)
Definition user_code (st : state) : bool :=
  match stack st with [] => true | f :: _ => match f_in f with Some _ => true | None => false end end.

(** The signal whose list has the slot. *)
Definition home (st : state) (s : nat) : option nat :=
  find (fun g => existsb (Nat.eqb s) (nth g (lists st) [])) (seq 0 (length (lists st))).

(** [None]: not an event of this state. *)
Definition step (st : state) (e : event) : option (outcome state) :=
  match e with
  | EConnect g asks =>
      if user_code st && (g <? length (lists st)) then
        Some (Ok (set_lists (set_slots st (slots st ++ [mkslot 1 true asks]))
                            (upd (lists st) g (nth g (lists st) [] ++ [length (slots st)]))))
      else None
  | EHold s =>
      match nth_error (slots st) s with
      | Some x =>
          if user_code st && (0 <? s_refs x) then
            Some (Ok (set_slots st (upd (slots st) s (mkslot (S (s_refs x)) (s_connected x) (s_asks x)))))
          else None
      | None => None
      end
  | EDrop s =>
      if user_code st && ((if home st s then 1 else 0) <? refs st s) then Some (release st s) else None
  | EDisconnect s =>
      match nth_error (slots st) s, home st s with
      | Some x, Some g =>
          if user_code st && s_connected x then
            let st := set_slots st (upd (slots st) s (mkslot (s_refs x) false (s_asks x))) in
            Some (if emitting (stack st) g then Ok st else release (unlink g s st) s)
          else None
      | _, _ => None
      end
  | EAsk => if user_code st then Some (ask st) else None
  | EBegin g =>
      if user_code st && (g <? length (lists st)) then
        Some (Ok (set_stack st (mkframe g (current st) None :: stack st) (current st)))
      else None
  | ECall s =>
      match stack st, nth_error (slots st) s with
      | mkframe g saved None :: k, Some x =>
          if existsb (Nat.eqb s) (nth g (lists st) []) && s_connected x then
            Some (Ok (set_stack st (mkframe g saved (Some s) :: k) (Some s)))
          else None
      | _, _ => None
      end
  | EReturn =>
      match stack st with
      | mkframe g saved (Some _) :: k => Some (Ok (set_stack st (mkframe g saved None :: k) (current st)))
      | _ => None
      end
  | EThrow =>
      match stack st with
      | mkframe g saved (Some s) :: k =>
          match nth_error (slots st) s with
          | Some x =>
              let st := set_stack (set_slots st (upd (slots st) s (mkslot (S (s_refs x)) (s_connected x) (s_asks x)))) k (current st) in
              Some (obind (if emitting k g then Ok st else cleanup g (nth g (lists st) []) st) (fun st =>
                    Ok (set_stack st (stack st) saved)))
          | None => None
          end
      | _ => None
      end
  | EEnd =>
      match stack st with
      | mkframe g saved None :: k =>
          let st := set_stack st k (current st) in
          Some (obind (if emitting k g then Ok st else cleanup g (nth g (lists st) []) st) (fun st =>
                Ok (set_stack st (stack st) saved)))
      | _ => None
      end
  end.

Definition initial (signals : nat) : state := mkstate [] (repeat [] signals) [] None [].

Fixpoint run (st : state) (es : list event) : option (outcome state) :=
  match es with
  | [] => Some (Ok st)
  | e :: es' =>
      match step st e with
      | Some (Ok st') => run st' es'
      | r => match es' with [] => r | _ :: _ => None end
      end
  end.
