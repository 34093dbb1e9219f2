(** Happens-before and data races, as the C++ standard defines them, over a record
    of accesses: a list of accesses with the thread that made each. *)
From Coq Require Import List Arith Bool.
From Verif Require Import SignalModel SignalSpec SignalRaceModel.
Import ListNotations.

Definition record := list (nat * access).

Definition at_ (tr : record) (i t : nat) (e : access) : Prop := nth_error tr i = Some (t, e).

Definition releasing (o : order) : bool := match o with Release | AcqRel => true | _ => false end.
Definition acquiring (o : order) : bool := match o with Acquire | AcqRel => true | _ => false end.

(** [e] writes cell [c] with release semantics. *)
Definition releases (c : cell) (e : access) : Prop :=
  match e with
  | EStore c' o | ERmw c' o _ => c' = c /\ releasing o = true
  | _ => False
  end.
(** [e] reads cell [c] with acquire semantics. *)
Definition acquires (c : cell) (e : access) : Prop :=
  match e with
  | ELoad c' o | ERmw c' o _ => c' = c /\ acquiring o = true
  | _ => False
  end.
(** [e] overwrites cell [c] without reading it, which ends a release sequence. *)
Definition overwrites (c : cell) (e : access) : Prop :=
  match e with EStore c' _ => c' = c | _ => False end.

Inductive sync (tr : record) (i j : nat) : Prop :=
| S_mutex t t' g : i < j -> at_ tr i t (EUnlock g) -> at_ tr j t' (ELock g) -> sync tr i j
| S_user t t' b w w' : i < j -> at_ tr i t (EFin b w) -> at_ tr j t' (EBeg b w') -> w = true \/ w' = true -> sync tr i j
| S_atomic t t' c e e' :
    i < j -> at_ tr i t e -> at_ tr j t' e' -> releases c e -> acquires c e' ->
    (forall k u x, i < k < j -> at_ tr k u x -> ~ overwrites c x) -> sync tr i j.

Inductive hb (tr : record) : nat -> nat -> Prop :=
| HB_thread i j t e e' : i < j -> at_ tr i t e -> at_ tr j t e' -> hb tr i j
| HB_sync i j : sync tr i j -> hb tr i j
| HB_trans i j k : hb tr i j -> hb tr j k -> hb tr i k.

(** What an access uses of a slot. *)
Inductive use := Whole | Plain (write : bool) | Fixed | Atomic.

Definition cell_slot (c : cell) : nat := match c with Count s | Sender s | Blocking s => s end.

Definition slot_use (e : access) : option (nat * use) :=
  match e with
  | ENew s | EFree s => Some (s, Whole)
  | ENext s w => Some (s, Plain w)
  | ETarget s => Some (s, Fixed)
  | ELoad c _ | EStore c _ | ERmw c _ _ => Some (cell_slot c, Atomic)
  | _ => None
  end.
(** What an access uses of a signal; a mutex operation counts as [Atomic]. *)
Definition sig_use (e : access) : option (nat * use) :=
  match e with
  | ESigNew g | ESigDel g => Some (g, Whole)
  | ESig g w => Some (g, Plain w)
  | ELock g | EUnlock g => Some (g, Atomic)
  | _ => None
  end.

Definition clash (u v : use) : Prop :=
  match u, v with
  | Whole, _ | _, Whole => True
  | Plain w, Plain w' => w = true \/ w' = true
  | _, _ => False
  end.

(** Two accesses to the same memory, not both reading and not both atomic. *)
Definition conflict (e e' : access) : Prop :=
  (exists s u v, slot_use e = Some (s, u) /\ slot_use e' = Some (s, v) /\ clash u v) \/
  (exists g u v, sig_use e = Some (g, u) /\ sig_use e' = Some (g, v) /\ clash u v).

(** A data race: conflicting accesses of different threads that nothing orders. *)
Definition race (tr : record) : Prop :=
  exists i j t t' e e', i < j /\ at_ tr i t e /\ at_ tr j t' e' /\ t <> t' /\ conflict e e' /\ ~ hb tr i j.

(** Any schedule of any threads, with the record of its accesses. *)
Inductive recorded (md : orders) : state -> record -> state -> Prop :=
| RC_nil st : recorded md st [] st
| RC_step st t l es st' r tr st'' :
    respectful st l -> lstep md st t l = (es, Next st' r) -> recorded md st' tr st'' ->
    recorded md st (map (pair t) es ++ tr) st''.

(* -------------------------------------------------------- what is written *)

(** A place in memory: an atomic member, [next], whether a slot is allocated, the
    members of a signal. *)
Inductive place := PCell (c : cell) | PNext (s : nat) | PLive (s : nat) | PSig (g : nat).

Inductive content := VCount (n : option nat) | VLink (o : option (option nat)) | VLive (b : option bool) | VSig (r : option sigrec).

Definition content_of (m : mem) (p : place) : content :=
  match p with
  | PCell (Count s) => VCount (option_map s_refs (nth_error (heap m) s))
  | PCell (Blocking s) => VCount (option_map s_block (nth_error (heap m) s))
  | PCell (Sender s) => VLink (option_map s_sender (nth_error (heap m) s))
  | PNext s => VLink (option_map s_next (nth_error (heap m) s))
  | PLive s => VLive (option_map s_live (nth_error (heap m) s))
  | PSig g => VSig (nth_error (sigs m) g)
  end.

(** [e] writes [p]. *)
Definition writes (e : access) (p : place) : Prop :=
  match e, p with
  | (EStore c _ | ERmw c _ _), PCell c' => c = c'
  | ENext s true, PNext s' => s = s'
  | ENew s, (PCell (Count s' | Sender s' | Blocking s') | PNext s' | PLive s') => s = s'
  | EFree s, PLive s' => s = s'
  | ESig g true, PSig g' => g = g'
  | (ESigNew g | ESigDel g), PSig g' => g = g'
  | _, _ => False
  end.
