(** [connection], [scoped_connection] and [connection::blocker] as values: pointers to slots, compared, copied, moved, swapped.

    signal.hpp 25-110 [ref_counted], [slot_state], 117-298 [connection], [blocker], 306-367 [scoped_connection], 415-482 [signal],
    674-692 [swap], 704-729 [disconnect], 888-909 [hash].

    Simplifications: one thread, between emissions; functions of slots own nothing (CaptModel has those that do); a signal has
    the list of its slots (SignalModel has the links). Operations on variables that are not there are left out. *)
From Coq Require Import List Arith Bool.
From Verif Require Import Base.
Import ListNotations.

(** A slot. [c_call]: its function, which call of [connect] made it. *)
Record cell := mkcell { c_call : nat; c_count : nat; c_sender : option nat; c_blocks : nat }.
Definition memory := nat -> option cell.

Inductive kind := Conn | Scoped | Blocker.
Definition kind_eqb (a b : kind) : bool :=
  match a, b with Conn, Conn | Scoped, Scoped | Blocker, Blocker => true | _, _ => false end.
(** [slot_], an address; [None], null *)
Notation handle := (kind * option nat)%type.

(** Signals and variables that were destroyed are [None]. *)
Record state := mkstate {
  st_mem : memory; st_sigs : list (option (list nat)); st_vars : list (option handle); st_calls : nat }.
Definition start : state := mkstate (fun _ => None) [] [] 0.

Definition set (m : memory) (a : nat) (c : option cell) : memory := fun b => if Nat.eqb a b then c else m b.
Definition with_mem st m := mkstate m (st_sigs st) (st_vars st) (st_calls st).
Definition with_sigs st l := mkstate (st_mem st) l (st_vars st) (st_calls st).
Definition with_vars st l := mkstate (st_mem st) (st_sigs st) l (st_calls st).
Definition var st i : option handle := nth i (st_vars st) None.
Definition sig st s : option (list nat) := nth s (st_sigs st) None.
Definition set_var st i (h : option handle) : state := with_vars st (upd (st_vars st) i h).
Definition set_sig st s (l : option (list nat)) : state := with_sigs st (upd (st_sigs st) s l).
Definition new_var st (h : handle) : state := with_vars st (st_vars st ++ [Some h]).

(** * Slots *)

(** 32 [add_ref] *)
Definition add_ref (a : nat) (m : memory) : outcome memory :=
  match m a with
  | Some c => Ok (set m a (Some (mkcell (c_call c) (S (c_count c)) (c_sender c) (c_blocks c))))
  | None => UB
  end.
(** 33-37 [release] *)
Definition release (a : nat) (m : memory) : outcome memory :=
  match m a with
  | Some c =>
      match c_count c with
      | 0 => UB
      | 1 => Ok (set m a None)
      | S n => Ok (set m a (Some (mkcell (c_call c) n (c_sender c) (c_blocks c))))
      end
  | None => UB
  end.
(** 56-59 [block] *)
Definition block (a : nat) (m : memory) : outcome memory :=
  match m a with
  | Some c => Ok (set m a (Some (mkcell (c_call c) (c_count c) (c_sender c) (S (c_blocks c)))))
  | None => UB
  end.
(** 61-66 [unblock] *)
Definition unblock (a : nat) (m : memory) : outcome memory :=
  match m a with
  | Some c =>
      match c_blocks c with
      | 0 => UB
      | S n => Ok (set m a (Some (mkcell (c_call c) (c_count c) (c_sender c) n)))
      end
  | None => UB
  end.
(** [rebind], [invalidate] *)
Definition rebind (s : option nat) (a : nat) (m : memory) : outcome memory :=
  match m a with
  | Some c => Ok (set m a (Some (mkcell (c_call c) (c_count c) s (c_blocks c))))
  | None => UB
  end.
Fixpoint each (f : nat -> memory -> outcome memory) (l : list nat) (m : memory) : outcome memory :=
  match l with [] => Ok m | a :: l' => obind (f a m) (each f l') end.

(** 704-729: the slot found by its address, invalidated, removed and released *)
Definition remove (a : nat) (l : list nat) : list nat := filter (fun b => negb (Nat.eqb a b)) l.
Definition signal_disconnect (s a : nat) (st : state) : outcome state :=
  match sig st s with
  | None => UB                                            (* the signal is no more *)
  | Some l =>
      if existsb (Nat.eqb a) l then
        obind (rebind None a (st_mem st)) (fun m =>
        obind (release a m) (fun m =>
        Ok (with_mem (set_sig st s (Some (remove a l))) m)))
      else Ok st
  end.
(** 78-83 [slot_state::disconnect] *)
Definition slot_disconnect (a : nat) (st : state) : outcome state :=
  match st_mem st a with
  | None => UB
  | Some c =>
      obind (rebind None a (st_mem st)) (fun m =>
      let st := with_mem st m in
      match c_sender c with Some s => signal_disconnect s a st | None => Ok st end)
  end.

(** * Handles *)

(** Copying, 135-139, 215-222, and being destroyed, 129-133, 206-213 *)
Definition retain (k : kind) (p : option nat) (m : memory) : outcome memory :=
  match p with
  | None => Ok m
  | Some a => obind (add_ref a m) (match k with Blocker => block a | _ => fun m => Ok m end)
  end.
Definition drop (k : kind) (p : option nat) (m : memory) : outcome memory :=
  match p with
  | None => Ok m
  | Some a => obind (match k with Blocker => unblock a m | _ => Ok m end) (release a)
  end.
(** 174-181; the variable becomes null *)
Definition disconnect (p : option nat) (st : state) : outcome state :=
  match p with
  | None => Ok st
  | Some a =>
      obind (slot_disconnect a st) (fun st =>
      obind (release a (st_mem st)) (fun m => Ok (with_mem st m)))
  end.

Inductive op :=
| New_signal
| Connect (s : nat) (front : bool)     (* 456-464 *)
| Connect_nothing (s : nat)            (* an empty function *)
| Default (k : kind)
| Copy (i : nat)                       (* copy constructors; scoped connections have none *)
| Copy_assign (i j : nat)
| Move (i : nat)                       (* move constructors *)
| Move_assign (i j : nat)              (* 157-161, 243-247, 327-331: swap *)
| Swap (i j : nat)
| Destroy (i : nat)
| Disconnect (i : nat)
| To_scoped (i : nat)                  (* [scoped_connection{std::move(c)}] *)
| Release (i : nat)                    (* 339-343 *)
| Get (i : nat)                        (* a copy of [get()] *)
| Get_blocker (i : nat)                (* 266 *)
| Disconnect_all (s : nat)
| Destroy_signal (s : nat)
| Swap_signals (s t : nat)             (* also move assignment *)
| Move_signal (s : nat).               (* move constructor *)

(** [disconnect_all_slots]: every slot invalidated, removed and released *)
Definition clear (s : nat) (l : list nat) (r : option (list nat)) (st : state) : outcome state :=
  obind (each (fun a m => obind (rebind None a m) (release a)) l (st_mem st)) (fun m => Ok (with_mem (set_sig st s r) m)).

(** [pick]: what [new] returns; any address that is not in use *)
Definition step (pick : nat -> memory -> nat) (o : op) (st : state) : outcome state :=
  match o with
  | New_signal => Ok (with_sigs st (st_sigs st ++ [Some []]))
  | Connect s front =>
      match sig st s with
      | None => Ok st
      | Some l =>
          let a := pick (st_calls st) (st_mem st) in
          let m := set (st_mem st) a (Some (mkcell (st_calls st) 1 (Some s) 0)) in
          let st := mkstate m (upd (st_sigs st) s (Some (if front then a :: l else l ++ [a]))) (st_vars st) (S (st_calls st)) in
          obind (add_ref a (st_mem st)) (fun m => Ok (new_var (with_mem st m) (Conn, Some a)))
      end
  | Connect_nothing s => Ok (new_var st (Conn, None))
  | Default k => Ok (new_var st (k, None))
  | Copy i =>
      match var st i with
      | None | Some (Scoped, _) => Ok st
      | Some (k, p) => obind (retain k p (st_mem st)) (fun m => Ok (new_var (with_mem st m) (k, p)))
      end
  | Copy_assign i j =>
      match var st i, var st j with
      | Some (k, p), Some (k', q) =>
          if kind_eqb k k' && negb (kind_eqb k Scoped) && negb (Nat.eqb i j) then
            obind (drop k p (st_mem st)) (fun m =>
            obind (retain k q m) (fun m => Ok (set_var (with_mem st m) i (Some (k, q)))))
          else Ok st
      | _, _ => Ok st
      end
  | Move i =>
      match var st i with
      | None => Ok st
      | Some (k, p) => Ok (new_var (set_var st i (Some (k, None))) (k, p))
      end
  | Move_assign i j | Swap i j =>
      match var st i, var st j with
      | Some (k, p), Some (k', q) =>
          if kind_eqb k k' then Ok (set_var (set_var st i (Some (k, q))) j (Some (k, p))) else Ok st
      | _, _ => Ok st
      end
  | Destroy i =>
      match var st i with
      | None => Ok st
      | Some (Scoped, p) => obind (disconnect p st) (fun st => Ok (set_var st i None))
      | Some (k, p) => obind (drop k p (st_mem st)) (fun m => Ok (set_var (with_mem st m) i None))
      end
  | Disconnect i =>
      match var st i with
      | Some (Conn, p) => obind (disconnect p st) (fun st => Ok (set_var st i (Some (Conn, None))))
      | _ => Ok st
      end
  | To_scoped i =>
      match var st i with
      | Some (Conn, p) => Ok (new_var (set_var st i (Some (Conn, None))) (Scoped, p))
      | _ => Ok st
      end
  | Release i =>
      match var st i with
      | Some (Scoped, p) => Ok (new_var (set_var st i (Some (Scoped, None))) (Conn, p))
      | _ => Ok st
      end
  | Get i =>
      match var st i with
      | Some (Scoped, p) => obind (retain Conn p (st_mem st)) (fun m => Ok (new_var (with_mem st m) (Conn, p)))
      | _ => Ok st
      end
  | Get_blocker i =>
      match var st i with
      | Some (Conn, p) => obind (retain Blocker p (st_mem st)) (fun m => Ok (new_var (with_mem st m) (Blocker, p)))
      | _ => Ok st
      end
  | Disconnect_all s => match sig st s with None => Ok st | Some l => clear s l (Some []) st end
  | Destroy_signal s => match sig st s with None => Ok st | Some l => clear s l None st end
  | Swap_signals s t =>
      match sig st s, sig st t with
      | Some l, Some r =>
          if Nat.eqb s t then Ok st
          else
            obind (each (rebind (Some s)) r (st_mem st)) (fun m =>
            obind (each (rebind (Some t)) l m) (fun m =>
            Ok (with_mem (set_sig (set_sig st s (Some r)) t (Some l)) m)))
      | _, _ => Ok st
      end
  | Move_signal s =>
      match sig st s with
      | None => Ok st
      | Some l =>
          obind (each (rebind (Some (List.length (st_sigs st)))) l (st_mem st)) (fun m =>
          Ok (with_mem (with_sigs st (upd (st_sigs st) s (Some []) ++ [Some l])) m))
      end
  end.
Fixpoint run (pick : nat -> memory -> nat) (os : list op) (st : state) : outcome state :=
  match os with [] => Ok st | o :: os' => obind (step pick o st) (run pick os') end.

(** * What can be seen *)

Definition pointer_eqb (p q : option nat) : bool :=
  match p, q with Some a, Some b => Nat.eqb a b | None, None => true | _, _ => false end.
(** Null comes first. *)
Definition pointer_ltb (p q : option nat) : bool :=
  match p, q with Some a, Some b => Nat.ltb a b | None, Some _ => true | _, None => false end.
Definition both st i j (f : option nat -> option nat -> bool) : option bool :=
  match var st i, var st j with
  | Some (k, p), Some (k', q) => if kind_eqb k k' && negb (kind_eqb k Blocker) then Some (f p q) else None
  | _, _ => None
  end.
(** 279-293, 354-364 *)
Definition equal st i j : option bool := both st i j pointer_eqb.
Definition less st i j : option bool := both st i j pointer_ltb.
(** 188-191, 888-909; [h], the hash of pointers *)
Definition hash (h : option nat -> nat) st i : option nat :=
  match var st i with Some (Blocker, _) | None => None | Some (_, p) => Some (h p) end.
(** 184; of a scoped connection, [get().connected()] *)
Definition connected st i : outcome bool :=
  match var st i with
  | Some (_, Some a) => match st_mem st a with Some c => Ok (match c_sender c with Some _ => true | None => false end) | None => UB end
  | _ => Ok false
  end.
(** The functions that an emission calls. *)
Fixpoint calls (m : memory) (l : list nat) : outcome (list nat) :=
  match l with
  | [] => Ok []
  | a :: l' =>
      match m a with
      | None => UB
      | Some c =>
          obind (calls m l') (fun r =>
          Ok (match c_sender c with Some _ => if Nat.eqb (c_blocks c) 0 then c_call c :: r else r | None => r end))
      end
  end.
Definition emit st s : outcome (list nat) := match sig st s with Some l => calls (st_mem st) l | None => Ok [] end.
Fixpoint count_valid (m : memory) (l : list nat) : outcome nat :=
  match l with
  | [] => Ok 0
  | a :: l' =>
      match m a with
      | None => UB
      | Some c => obind (count_valid m l') (fun n => Ok (match c_sender c with Some _ => S n | None => n end))
      end
  end.
Definition num_slots st s : outcome nat := match sig st s with Some l => count_valid (st_mem st) l | None => Ok 0 end.
