(** src/file_view_unix.cpp, src/file_view_win32.cpp and kl/defer.hpp. *)
From Coq Require Import List NArith Arith Bool.
From Verif Require Import Base.
Import ListNotations.

(* ---------------------------------------------------- file_view, POSIX *)

(** What the system calls answer during one construction. *)
Record posix := mkposix {
  open_answer : option nat;   (** descriptor, [None] for -1 *)
  fstat_answer : option N;    (** [st_size], [None] for -1 *)
  mmap_answer : N             (** the address returned *)
}.

(** [MAP_FAILED] is the pointer of value -1. *)
Definition map_failed : N := 18446744073709551615.

Inductive call :=
| Open | Fstat (fd : nat) | Mmap (fd : nat) (size : N) | Close (fd : nat)
| Munmap (addr size : N).

(** [contents_]: address and size of the span; empty by default. *)
Definition span := (N * N)%type.

(** file_view_unix.cpp:63-83.  [None] is a thrown [std::system_error].  The
    destructor of [file_descriptor] (lines 17-55) closes the descriptor on
    every way out once it was opened. *)
Definition file_view (p : posix) : option span * list call :=
  match open_answer p with
  | None => (None, [Open])
  | Some fd =>
      match fstat_answer p with
      | None => (None, [Open; Fstat fd; Close fd])
      | Some size =>
          if N.eqb size 0 then (Some (0, 0)%N, [Open; Fstat fd; Close fd])
          else
            let mapped := mmap_answer p in
            if N.eqb mapped 0 then (None, [Open; Fstat fd; Mmap fd size; Close fd])
            else (Some (mapped, size), [Open; Fstat fd; Mmap fd size; Close fd])
      end
  end.

(** file_view_unix.cpp:85-92 [~file_view]. *)
Definition destroy (contents : span) : list call :=
  if N.eqb (snd contents) 0 then [] else [Munmap (fst contents) (snd contents)].

(** The class declares a destructor but no copy operations, so copying a view
    copies the span (file_view.hpp:9-20). *)
Definition copy_view (contents : span) : span := contents.

(** Reading the bytes of the view from memory; an unmapped address is [UB]. *)
Fixpoint read_bytes (memory : N -> option N) (addr : N) (n : nat) : outcome (list N) :=
  match n with
  | O => Ok []
  | S n' =>
      match memory addr with
      | None => UB
      | Some b => obind (read_bytes memory (addr + 1) n') (fun bs => Ok (b :: bs))
      end
  end.

Definition get_bytes (memory : N -> option N) (contents : span) : outcome (list N) :=
  read_bytes memory (fst contents) (N.to_nat (snd contents)).

(* --------------------------------------------------- file_view, Windows *)

Record win32 := mkwin32 {
  create_answer : option nat;    (** [CreateFileA]; [None] for [INVALID_HANDLE_VALUE] *)
  create2_answer : option nat;   (** second attempt with write sharing *)
  size_answer : option N;        (** [GetFileSizeEx]; [None] when it fails *)
  mapping_answer : option nat;   (** [CreateFileMappingA]; [None] for null *)
  view_answer : N                (** [MapViewOfFile]; 0 for null *)
}.

Inductive wcall :=
| CreateFile | GetSize (h : nat) | CreateMapping (h : nat) | MapView (m : nat)
| CloseHandle (h : nat) | UnmapView (addr : N).

(** file_view_win32.cpp:71-106.  A failing [GetFileSizeEx] leaves
    [file_size] at its initial 0. *)
Definition file_view_win (p : win32) : option span * list wcall :=
  let rest (calls : list wcall) (h : nat) : option span * list wcall :=
    let size := match size_answer p with Some n => n | None => 0%N end in
    if N.eqb size 0 then (Some (0, 0)%N, calls ++ [GetSize h; CloseHandle h])
    else
      match mapping_answer p with
      | None => (None, calls ++ [GetSize h; CreateMapping h; CloseHandle h])
      | Some m =>
          if N.eqb (view_answer p) 0
          then (None, calls ++ [GetSize h; CreateMapping h; MapView m; CloseHandle m; CloseHandle h])
          else (Some (view_answer p, size), calls ++ [GetSize h; CreateMapping h; MapView m; CloseHandle m; CloseHandle h])
      end in
  match create_answer p with
  | Some h => rest [CreateFile] h
  | None =>
      match create2_answer p with
      | Some h => rest [CreateFile; CreateFile] h
      | None => (None, [CreateFile; CreateFile])
      end
  end.

(** file_view_win32.cpp:108-112 [~file_view]. *)
Definition destroy_win (contents : span) : list wcall :=
  if N.eqb (snd contents) 0 then [] else [UnmapView (fst contents)].

(* --------------------------------------------------------------- defer *)

(** Programs made of scopes.  [Defer a] is [KL_DEFER(a)] (defer.hpp:20-31);
    [a] is the body of the deferred lambda, without scopes of its own that
    outlive it. *)
Inductive stmt :=
| Act (n : nat)                       (** an observable action *)
| Defer (n : nat) (throws : bool)     (** register action [n]; it throws when run if [throws] *)
| Block (body : list stmt)            (** a nested scope *)
| Repeat (k : nat) (body : list stmt) (** a loop; each round is a scope *)
| Try (body handler : list stmt)
| Throw
| Return.

Inductive event := Did (n : nat) | Reg (n : nat) | Ran (n : nat).

(** How a scope is left. [Terminated]: an exception left a destructor. *)
Inductive exit := Normal | Throwing | Returning | Terminated.

(** The destructors of the [scope_exit_t] objects of one scope (defer.hpp:9-17),
    last constructed first.  A destructor is [noexcept], so a throwing action
    ends the program and no further destructor runs. *)
Fixpoint unwind (guards : list (nat * bool)) : list event * bool :=
  match guards with
  | [] => ([], true)
  | (n, throws) :: rest =>
      if throws then ([Ran n], false)
      else let '(t, ok) := unwind rest in (Ran n :: t, ok)
  end.

(** Leaving a scope by [how], after [trace]. *)
Definition leave (guards : list (nat * bool)) (trace : list event) (how : exit) : list event * exit :=
  match how with
  | Terminated => (trace, Terminated)
  | _ => let '(t, ok) := unwind guards in (trace ++ t, if ok then how else Terminated)
  end.

Definition seq_exit (r : list event * exit) (k : unit -> list event * exit) : list event * exit :=
  match snd r with
  | Normal => let '(t, e) := k tt in (fst r ++ t, e)
  | _ => r
  end.

Fixpoint repeat_exit (k : nat) (body : unit -> list event * exit) : list event * exit :=
  match k with
  | O => ([], Normal)
  | S k' => seq_exit (body tt) (fun _ => repeat_exit k' body)
  end.

Fixpoint exec (s : stmt) : list event * exit :=
  (* runs the statements of one scope; [guards] holds the constructed guards, newest first *)
  let scope := fix scope (guards : list (nat * bool)) (body : list stmt) : list event * exit :=
    match body with
    | [] => leave guards [] Normal
    | Defer n throws :: rest => let '(t, e) := scope ((n, throws) :: guards) rest in (Reg n :: t, e)
    | s :: rest =>
        match exec s with
        | (t, Normal) => let '(t', e) := scope guards rest in (t ++ t', e)
        | (t, how) => leave guards t how
        end
    end in
  match s with
  | Act n => ([Did n], Normal)
  | Defer n throws => leave [(n, throws)] [Reg n] Normal
  | Block body => scope [] body
  | Repeat k body => repeat_exit k (fun _ => scope [] body)
  | Try body handler =>
      match scope [] body with
      | (t, Throwing) => let '(t', e) := scope [] handler in (t ++ t', e)
      | r => r
      end
  | Throw => ([], Throwing)
  | Return => ([], Returning)
  end.
