(** Connections as names: a handle names a call of [connect], or nothing; signals have lists of names. No memory, no counts. *)
From Coq Require Import List Arith Bool.
From Verif Require Import Base HandModel.
Import ListNotations.

Record world := mkworld { w_sigs : list (option (list nat)); w_vars : list (option (kind * option nat)); w_calls : nat }.
Definition nothing : world := mkworld [] [] 0.

Definition named (w : world) (i : nat) : option (kind * option nat) := nth i (w_vars w) None.
Definition slots (w : world) (s : nat) : option (list nat) := nth s (w_sigs w) None.
Definition put (w : world) (i : nat) (v : option (kind * option nat)) : world := mkworld (w_sigs w) (upd (w_vars w) i v) (w_calls w).
Definition more (w : world) (v : kind * option nat) : world := mkworld (w_sigs w) (w_vars w ++ [Some v]) (w_calls w).
Definition sigs (w : world) (l : list (option (list nat))) : world := mkworld l (w_vars w) (w_calls w).
(** Off every signal. *)
Definition cut (n : option nat) (w : world) : world :=
  match n with
  | None => w
  | Some g => sigs w (map (option_map (filter (fun x => negb (Nat.eqb g x)))) (w_sigs w))
  end.

Definition act (o : op) (w : world) : world :=
  match o with
  | New_signal => sigs w (w_sigs w ++ [Some []])
  | Connect s front =>
      match slots w s with
      | None => w
      | Some l =>
          let g := w_calls w in
          more (mkworld (upd (w_sigs w) s (Some (if front then g :: l else l ++ [g]))) (w_vars w) (S g)) (Conn, Some g)
      end
  | Connect_nothing s => more w (Conn, None)
  | Default k => more w (k, None)
  | Copy i => match named w i with None | Some (Scoped, _) => w | Some (k, n) => more w (k, n) end
  | Copy_assign i j =>
      match named w i, named w j with
      | Some (k, _), Some (k', n) => if kind_eqb k k' && negb (kind_eqb k Scoped) then put w i (Some (k, n)) else w
      | _, _ => w
      end
  | Move i => match named w i with None => w | Some (k, n) => more (put w i (Some (k, None))) (k, n) end
  | Move_assign i j | Swap i j =>
      match named w i, named w j with
      | Some (k, n), Some (k', n') => if kind_eqb k k' then put (put w i (Some (k, n'))) j (Some (k, n)) else w
      | _, _ => w
      end
  | Destroy i =>
      match named w i with
      | None => w
      | Some (Scoped, n) => put (cut n w) i None
      | Some _ => put w i None
      end
  | Disconnect i => match named w i with Some (Conn, n) => put (cut n w) i (Some (Conn, None)) | _ => w end
  | To_scoped i => match named w i with Some (Conn, n) => more (put w i (Some (Conn, None))) (Scoped, n) | _ => w end
  | Release i => match named w i with Some (Scoped, n) => more (put w i (Some (Scoped, None))) (Conn, n) | _ => w end
  | Get i => match named w i with Some (Scoped, n) => more w (Conn, n) | _ => w end
  | Get_blocker i => match named w i with Some (Conn, n) => more w (Blocker, n) | _ => w end
  | Disconnect_all s => match slots w s with None => w | Some _ => sigs w (upd (w_sigs w) s (Some [])) end
  | Destroy_signal s => sigs w (upd (w_sigs w) s None)
  | Swap_signals s t =>
      match slots w s, slots w t with
      | Some l, Some r => sigs w (upd (upd (w_sigs w) s (Some r)) t (Some l))
      | _, _ => w
      end
  | Move_signal s => match slots w s with None => w | Some l => sigs w (upd (w_sigs w) s (Some []) ++ [Some l]) end
  end.
Definition acts (os : list op) (w : world) : world := fold_left (fun w o => act o w) os w.

(** ** What can be seen *)

(** On some signal. *)
Definition on (w : world) (g : nat) : Prop := exists s l, slots w s = Some l /\ In g l.
Definition blocked (w : world) (g : nat) : Prop := exists i, named w i = Some (Blocker, Some g).
(** Both are connections, or both scoped ones. *)
Definition comparable (w : world) (i j : nat) (n n' : option nat) : Prop :=
  exists k, k <> Blocker /\ named w i = Some (k, n) /\ named w j = Some (k, n').

(** New addresses are not in use. ([n]: how many were asked for before; one of the first is always free.) *)
Definition honest (pick : nat -> memory -> nat) : Prop := forall n m, (exists a, a <= n /\ m a = None) -> m (pick n m) = None.

(** Somewhere in a variable or on a signal. *)
Definition in_use (w : world) (g : nat) : Prop := on w g \/ exists i k, named w i = Some (k, Some g).

(** The variables that an operation writes to. *)
Definition writes (o : op) : list nat :=
  match o with
  | Copy_assign i _ | Move i | Destroy i | Disconnect i | To_scoped i | Release i => [i]
  | Move_assign i j | Swap i j => [i; j]
  | _ => []
  end.

(** The operations that take [g] off its signal. *)
Definition cuts (w : world) (o : op) (g : nat) : Prop :=
  match o with
  | Disconnect i => named w i = Some (Conn, Some g)
  | Destroy i => named w i = Some (Scoped, Some g)
  | Disconnect_all s | Destroy_signal s => exists l, slots w s = Some l /\ In g l
  | _ => False
  end.

(** No emission calls [g]. *)
Definition silent (st : state) (g : nat) : Prop := forall s, exists r, emit st s = Ok r /\ ~ In g r.
