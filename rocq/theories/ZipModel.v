(** kl/zip.hpp and the parts of kl/tuple.hpp it uses.  A tuple of sequences is
    a list; element types are merged into one type [V], into which the numbers
    of iota sequences are injected. *)
From Coq Require Import List NArith Arith Bool.
From Verif Require Import Base.
Import ListNotations.
Local Open Scope outcome_scope.

Definition size_max1 : N := 18446744073709551616.  (** 2^64 *)

Section zip.
Variable V : Type.
Variable of_number : N -> V.

(** A sequence given to [zipped]: a container, [iota_range<size_t>]
    (zip.hpp:161-180) or [unbounded_iota_range<size_t>] (zip.hpp:182-199). *)
Inductive sequence :=
| Container (xs : list V)
| Iota (b e : N)
| Unbounded (b : N).

(** An iterator into a sequence: a container position, or the value held by
    [iota_iterator] (zip.hpp:104-141). *)
Inductive iter :=
| At (pos : nat)
| Num (n : N).

(** [std::begin]. *)
Definition seq_begin (s : sequence) : iter :=
  match s with Container _ => At 0 | Iota b _ => Num b | Unbounded b => Num b end.

(** [*it]: dereferencing a container iterator at its end is [UB]. *)
Definition deref (s : sequence) (i : iter) : outcome V :=
  match s, i with
  | Container xs, At p => rd xs p
  | Container _, Num _ => UB
  | _, Num n => Ok (of_number n)
  | _, At _ => UB
  end.

(** [++it]: advancing a container iterator at its end is [UB]; iota wraps. *)
Definition advance (s : sequence) (i : iter) : outcome iter :=
  match s, i with
  | Container xs, At p => if Nat.ltb p (List.length xs) then Ok (At (S p)) else UB
  | Container _, Num _ => UB
  | _, Num n => Ok (Num ((n + 1) mod size_max1)%N)
  | _, At _ => UB
  end.

(** [it != sentinel]; [unbounded_sentinel] is never reached (zip.hpp:133-136). *)
Definition differs (s : sequence) (i : iter) : bool :=
  match s, i with
  | Container xs, At p => negb (Nat.eqb p (List.length xs))
  | Iota _ e, Num n => negb (N.eqb n e)
  | _, _ => true
  end.

(** tuple.hpp:64-86 [not_equal_fn]: the comparisons are ANDed. *)
Fixpoint not_equal (ss : list sequence) (is_ : list iter) : bool :=
  match ss, is_ with
  | s :: ss', i :: is' => differs s i && not_equal ss' is'
  | _, _ => true
  end.

(** tuple.hpp:39-60 [transform_ref_fn], zip.hpp:86 [operator*]. *)
Fixpoint deref_all (ss : list sequence) (is_ : list iter) : outcome (list V) :=
  match ss, is_ with
  | s :: ss', i :: is' => v <- deref s i ;; vs <- deref_all ss' is' ;; Ok (v :: vs)
  | _, _ => Ok []
  end.

(** tuple.hpp:20-36 [for_each_fn], zip.hpp:88-92 [operator++]. *)
Fixpoint advance_all (ss : list sequence) (is_ : list iter) : outcome (list iter) :=
  match ss, is_ with
  | s :: ss', i :: is' => j <- advance s i ;; js <- advance_all ss' is' ;; Ok (j :: js)
  | _, _ => Ok []
  end.

(** [for (auto&& t : zipped(ss...))], collecting the tuples; [None] when the
    loop is still running after [fuel] rounds. *)
Fixpoint zip_loop (fuel : nat) (ss : list sequence) (is_ : list iter) : outcome (option (list (list V))) :=
  if not_equal ss is_ then
    match fuel with
    | O => Ok None
    | S fuel' =>
        t <- deref_all ss is_ ;;
        js <- advance_all ss is_ ;;
        r <- zip_loop fuel' ss js ;;
        Ok (option_map (cons t) r)
    end
  else Ok (Some []).

(** zip.hpp:143-159, 210-222 [zipped_range], [zipped]. *)
Definition zipped (fuel : nat) (ss : list sequence) : outcome (option (list (list V))) :=
  zip_loop fuel ss (map seq_begin ss).

(** zip.hpp:224-231 [enumerated]. *)
Definition enumerated (fuel : nat) (xs : list V) : outcome (option (list (list V))) :=
  zipped fuel [Unbounded 0; Container xs].

End zip.
Arguments Container {V} xs.
Arguments Iota {V} b e.
Arguments Unbounded {V} b.
