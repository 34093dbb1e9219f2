(** Vocabulary for system resources and deferred actions. *)
From Coq Require Import List NArith Arith.
From Verif Require Import SysModel.
Import ListNotations.

Definition closes (fd : nat) (t : list call) : nat :=
  length (filter (fun c => match c with Close f => Nat.eqb f fd | _ => false end) t).

(** The answers describe a file with these bytes, as seen in [memory]:
    a successful mapping shows the whole file. *)
Definition shows (p : posix) (memory : N -> option N) (file : list N) : Prop :=
  (forall n, fstat_answer p = Some n -> n = N.of_nat (length file)) /\
  mmap_answer p <> 0%N /\
  (mmap_answer p <> map_failed ->
     forall i b, nth_error file i = Some b -> memory (mmap_answer p + N.of_nat i)%N = Some b).

(** Every registration is followed by exactly one run of the same action, and
    registrations and runs are properly nested (so runs are in reverse order). *)
Inductive nested : list event -> Prop :=
| nested_nil : nested []
| nested_did n t : nested t -> nested (Did n :: t)
| nested_pair n t t' : nested t -> nested t' -> nested (Reg n :: t ++ Ran n :: t').

(** No deferred action of the program throws. *)
Fixpoint quiet (s : stmt) : Prop :=
  match s with
  | Defer _ throws => throws = false
  | Block b | Repeat _ b => fold_right (fun s P => quiet s /\ P) True b
  | Try b h => fold_right (fun s P => quiet s /\ P) True b /\ fold_right (fun s P => quiet s /\ P) True h
  | _ => True
  end.

(** The actions that throw are those for which [loud] holds. *)
Fixpoint labelled (loud : nat -> bool) (s : stmt) : Prop :=
  match s with
  | Defer n throws => throws = loud n
  | Block b | Repeat _ b => fold_right (fun s P => labelled loud s /\ P) True b
  | Try b h => fold_right (fun s P => labelled loud s /\ P) True b /\ fold_right (fun s P => labelled loud s /\ P) True h
  | _ => True
  end.

Definition runs (n : nat) (t : list event) : nat :=
  length (filter (fun e => match e with Ran m => Nat.eqb m n | _ => false end) t).
Definition regs (n : nat) (t : list event) : nat :=
  length (filter (fun e => match e with Reg m => Nat.eqb m n | _ => false end) t).

(** Windows handles: which one a call uses, and how often it is closed. *)
Definition uses (c : wcall) : option nat :=
  match c with
  | GetSize h | CreateMapping h | MapView h | CloseHandle h => Some h
  | CreateFile | UnmapView _ => None
  end.
Definition wcloses (h : nat) (t : list wcall) : nat :=
  length (filter (fun c => match c with CloseHandle g => Nat.eqb g h | _ => false end) t).
(** No call uses a handle that was closed before. *)
Fixpoint no_use_after_close (t : list wcall) : Prop :=
  match t with
  | [] => True
  | CloseHandle h :: t' => Forall (fun c => uses c <> Some h) t' /\ no_use_after_close t'
  | _ :: t' => no_use_after_close t'
  end.

(** The handle the file was opened with. *)
Definition file_handle (p : win32) : option nat :=
  match create_answer p with Some h => Some h | None => create2_answer p end.

(** The answers describe a file with these bytes. *)
Definition shows_win (p : win32) (memory : N -> option N) (file : list N) : Prop :=
  size_answer p = Some (N.of_nat (length file)) /\
  (view_answer p <> 0%N -> forall i b, nth_error file i = Some b -> memory (view_answer p + N.of_nat i)%N = Some b).
