(** What splitting, joining and index segments mean. *)
From Coq Require Import List NArith Arith.
Import ListNotations.

Section cut.
Variable delims : list N.

Definition free (t : list N) : Prop := Forall (fun c => ~ In c delims) t.

(** [cut s ts]: cutting [s] at each of its delimiters leaves [ts]; nothing is
    left after a final delimiter. *)
Inductive cut : list N -> list (list N) -> Prop :=
| cut_nil : cut [] []
| cut_last t : t <> [] -> free t -> cut t [t]
| cut_step t d s ts : free t -> In d delims -> cut s ts -> cut (t ++ d :: s) (t :: ts).
End cut.

Fixpoint interleave (ts : list (list N)) (ds : list N) : list N :=
  match ts, ds with
  | t :: ts', d :: ds' => t ++ d :: interleave ts' ds'
  | t :: _, [] => t
  | [], _ => []
  end.

Fixpoint intercalate (sep : list N) (ts : list (list N)) : list N :=
  match ts with
  | [] => []
  | [t] => t
  | t :: ts' => t ++ sep ++ intercalate sep ts'
  end.

Definition decimal (s : list N) : Prop := s <> [] /\ Forall (fun c => 48 <= c <= 57)%N s.

(** The number a string of digits denotes, most significant digit first. *)
Fixpoint numeral (s : list N) : N :=
  match s with
  | [] => 0
  | c :: s' => (c - 48) * 10 ^ N.of_nat (length s') + numeral s'
  end%N.
