(** Types that can be streamed: what is claimed. *)
From Coq Require Import List Arith Bool.
From Verif Require Import StrmModel StrmSpec StrmProofs StrmSamples.
Import ListNotations.

(** Types of values can be written unless there is a [std::vector<bool>] in them. *)
Theorem writable_types : forall t, regular t -> (can_write t = true <-> ~ bits_in t).
Proof. exact writable_iff. Qed.
Print Assumptions writable_types.

(** They can be read unless there is, or a variant with an alternative twice. *)
Theorem readable_types : forall t, regular t -> (can_read t = true <-> ~ bits_in t /\ ~ twice_in t).
Proof. exact readable_iff. Qed.
Print Assumptions readable_types.

(** Spans of what is copied byte by byte are written if they are of const elements, and read if not. *)
Theorem streamed_spans : forall t c, (can_write (Span c t) = true <-> c = true /\ trivial t) /\
  (can_read (Span c t) = true <-> c = false /\ trivial t /\ forall u, t <> Const u) /\
  (can_read (Const (Span c t)) = true <-> c = false /\ trivial t /\ forall u, t <> Const u).
Proof. exact spans. Qed.
Print Assumptions streamed_spans.
Example some_spans : can_write (Span true (Opt point)) = true /\ can_read (Span false (Var [Number 0; point])) = true /\
  can_write (Span true (Var [Number 0; Str])) = false /\ can_read (Span false (Pair (Number 0) (Number 0))) = false.
Proof. repeat split. Qed.

(** Containers are read if their elements are and can be made from nothing first. *)
Theorem elements_made : forall t, (can_read (Set_ t) = true <-> ~ unmade t /\ can_read t = true) /\
  (can_read (Opt t) = true <-> ~ unmade t /\ can_read t = true) /\
  (~ simple t -> (forall u, t <> Const u) -> can_read (Vec t) = true <-> ~ unmade t /\ can_read t = true).
Proof. exact elements. Qed.
Print Assumptions elements_made.
Example no_default_elements : unmade (Pair (Number 0) no_default) /\ can_read (Pair (Number 0) no_default) = true /\
  can_read (Set_ (Pair (Number 0) no_default)) = false /\ can_read (Set_ (Var [Number 0; no_default])) = false /\ can_read (Var [Number 0; no_default]) = false.
Proof. repeat split. apply m_second. apply m_user. Qed.

Theorem vectors_of_simple_types_refuted : ~ forall t, can_write t = true -> can_read t = true -> can_write (Vec t) = true.
Proof. intros H. specialize (H Boolean eq_refl eq_refl). discriminate H. Qed.
Print Assumptions vectors_of_simple_types_refuted.

Theorem written_types_read_refuted : ~ forall t, regular t -> can_write t = true -> can_read t = true.
Proof.
  intros H. assert (R : regular either) by (apply r_var; [discriminate | repeat constructor]).
  specialize (H either R eq_refl). discriminate H.
Qed.
Print Assumptions written_types_read_refuted.

Theorem read_types_written_refuted : ~ forall t, can_read t = true -> can_write t = true.
Proof. intros H. specialize (H (Span false (Number 0)) eq_refl). discriminate H. Qed.
Print Assumptions read_types_written_refuted.

(** Types with their own functions cannot be put into containers unless they have a default constructor. *)
Theorem elements_read_refuted : ~ forall t, can_write t = true -> can_read t = true -> can_write (Vec t) = true -> can_read (Vec t) = true.
Proof. intros H. specialize (H no_default eq_refl eq_refl eq_refl). discriminate H. Qed.
Print Assumptions elements_read_refuted.

Example an_inventory : regular inventory /\ can_write inventory = true /\ can_read inventory = true.
Proof. split; [|split; reflexivity]. repeat (constructor; try discriminate). Qed.
Example some_flags : can_write flags = false /\ can_read flags = false /\ bits_in flags.
Proof. split; [reflexivity|]. split; [reflexivity|]. apply b_mapped, b_here. Qed.
Example either_twice : twice_in (Opt either).
Proof. apply t_opt. exact (t_here [] (Number 0) [Str] (Number 0) [] (s_number 0)). Qed.
Example literals_written : can_write Chars = true /\ can_read Chars = false /\ can_write title = true /\ can_read title = false.
Proof. repeat split. Qed.
