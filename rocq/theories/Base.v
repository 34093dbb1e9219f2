(** Shared vocabulary: outcomes of C++ code, bounds-checked memory access. *)
From Coq Require Import List NArith Lia Bool Arith.
Import ListNotations.

(** Result of running a piece of C++ code: a normal result, or undefined
    behaviour (out-of-bounds access).  Throwing is a separate constructor. *)
Inductive outcome (A : Type) : Type :=
| Ok (a : A)
| Throws
| UB.
Arguments Ok {A} a.
Arguments Throws {A}.
Arguments UB {A}.

Definition obind {A B} (m : outcome A) (f : A -> outcome B) : outcome B :=
  match m with
  | Ok a => f a
  | Throws => Throws
  | UB => UB
  end.

Declare Scope outcome_scope.
Delimit Scope outcome_scope with outcome.
Notation "x <- m ;; k" := (obind m (fun x => k))
  (at level 61, m at next level, right associativity) : outcome_scope.
Notation "' p <- m ;; k" := (obind m (fun p => k))
  (at level 61, p pattern, m at next level, right associativity) : outcome_scope.

(** Reading element [i] of a contiguous buffer: outside the buffer is UB. *)
Definition rd {A} (s : list A) (i : nat) : outcome A :=
  match nth_error s i with
  | Some b => Ok b
  | None => UB
  end.

(** Replace element [i] of a buffer (identity outside, callers check bounds). *)
Fixpoint upd {A} (s : list A) (i : nat) (v : A) : list A :=
  match s, i with
  | [], _ => []
  | _ :: t, O => v :: t
  | h :: t, S i' => h :: upd t i' v
  end.

(** [*dst++ = v] through a cursor into a fixed-size buffer. *)
Definition wr {A} (st : list A * nat) (v : A) : outcome (list A * nat) :=
  let '(buf, pos) := st in
  if Nat.ltb pos (length buf) then Ok (upd buf pos v, S pos) else UB.

Lemma length_upd {A} (s : list A) i v : length (upd s i v) = length s.
Proof. revert i; induction s; destruct i; cbn; auto. Qed.

Lemma upd_app {A} (p q : list A) x v :
  upd (p ++ x :: q) (length p) v = p ++ v :: q.
Proof. induction p; cbn; congruence. Qed.

Lemma rd_app {A} (p q : list A) x : rd (p ++ x :: q) (length p) = Ok x.
Proof. unfold rd. induction p; cbn; auto. Qed.

Lemma wr_app {A} (p q : list A) x v :
  wr (p ++ x :: q, length p) v = Ok (p ++ v :: q, S (length p)).
Proof.
  unfold wr. rewrite app_length; cbn [length].
  replace (length p <? length p + S (length q))%nat with true
    by (symmetry; apply PeanoNat.Nat.ltb_lt; lia).
  now rewrite upd_app.
Qed.
