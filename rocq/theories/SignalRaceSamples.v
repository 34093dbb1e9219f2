(** Runs used by the examples of SignalRaceProps, and a search for orders between
    accesses that is used to show there is none. *)
From Coq Require Import List Arith Bool.
From Verif Require Import Base SignalModel SignalSpec SignalRaceModel SignalRaceSpec.
Import ListNotations.

(** Labels that ask nothing of the caller. *)
Definition free_label (l : label) : bool :=
  match l with User (USwap _ _) | User (UMove _) | User (UDestroy _) => false | _ => true end.

(** The given steps, with the record of their accesses. *)
Fixpoint play (md : orders) (st : state) (ls : list (nat * label)) : option (record * state) :=
  match ls with
  | [] => Some ([], st)
  | (t, l) :: ls' =>
      match lstep md st t l with
      | (es, Next st1 _) =>
          match play md st1 ls' with Some (tr, st') => Some (map (pair t) es ++ tr, st') | None => None end
      | _ => None
      end
  end.

Definition cell_eqb (c c' : cell) : bool :=
  match c, c' with
  | Count s, Count s' | Sender s, Sender s' | Blocking s, Blocking s' => Nat.eqb s s'
  | _, _ => false
  end.
Definition object_eqb (b b' : object) : bool :=
  match b, b' with
  | OConn s, OConn s' | OBlocker s, OBlocker s' | OSig s, OSig s' => Nat.eqb s s'
  | _, _ => false
  end.
Definition released_cell (e : access) : option cell :=
  match e with EStore c o | ERmw c o _ => if releasing o then Some c else None | _ => None end.
Definition acquired_cell (e : access) : option cell :=
  match e with ELoad c o | ERmw c o _ => if acquiring o then Some c else None | _ => None end.

(** An order that one pair of accesses might give. *)
Definition may_order (x y : nat * access) : bool :=
  Nat.eqb (fst x) (fst y) ||
  match snd x, snd y with
  | EUnlock g, ELock g' => Nat.eqb g g'
  | EFin b w, EBeg b' w' => object_eqb b b' && (w || w')
  | e, e' => match released_cell e, acquired_cell e' with Some c, Some c' => cell_eqb c c' | _, _ => false end
  end.

(** What accesses from [i] on may be ordered after access [i]. *)
Fixpoint grow (tr : record) (seen : list (nat * access)) : list (nat * access) * list bool :=
  match tr with
  | [] => (seen, [])
  | y :: tr' =>
      let b := existsb (fun x => may_order x y) seen in
      let (s, bs) := grow tr' (if b then y :: seen else seen) in (s, b :: bs)
  end.
Definition after (tr : record) (i j : nat) : bool :=
  match skipn i tr with
  | x :: tr' => nth (j - i - 1) (snd (grow tr' [x])) false
  | [] => false
  end.

(** Thread 0 makes a signal, connects, copies the connection, disconnects all and
    drops the first connection; thread 1 drops the copy, which frees the slot. *)
Definition two_droppers : list (nat * label) :=
  [(0, User UNewSignal); (0, User (UConnect 0 false)); (0, User (UCopy 0)); (0, User (UDisconnectAll 0));
   (0, User (UDrop 0)); (1, User (UDrop 1))].

(** Two threads emit while a third connects and disconnects. *)
Definition busy_threads : list (nat * label) :=
  [(0, User UNewSignal); (0, User (UConnect 0 false)); (1, User (UEmit 0)); (2, User (UConnect 0 true)); (0, User (UEmit 0));
   (1, Tau); (0, Tau); (2, User (UDisconnect 0)); (0, Tau); (2, Tau); (1, Tau); (2, Tau); (2, Tau)].

Definition with_sub (o : order) : orders := mkorders Relaxed o Relaxed Acquire AcqRel Release.

Definition record_of (md : orders) (n : nat) (ls : list (nat * label)) : record :=
  match play md (init n) ls with Some (tr, _) => tr | None => [] end.
