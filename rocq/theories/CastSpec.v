(** Types, values and the bytes that hold them. *)
From Coq Require Import List NArith ZArith Arith Bool.
From Verif Require Import Base BinModel BinSpec CastModel.
Import ListNotations.

(** Types that exist. *)
Fixpoint real (t : lay) : Prop :=
  match t with
  | LNum _ n k => 1 <= n <= 2 ^ k
  | LBool => True
  | LArr n t => 1 <= n /\ real t
  | LStruct ts => (fix all (ts : list lay) : Prop := match ts with [] => True | t :: ts' => real t /\ all ts' end) ts
  end.

Inductive value : lay -> cv -> Prop :=
| v_num : forall s n k z, in_range s n z -> value (LNum s n k) (CNum z)
| v_bool : forall b, value LBool (CBool b)
| v_arr : forall n t vs, length vs = n -> Forall (value t) vs -> value (LArr n t) (CSeq vs)
| v_struct : forall ts vs, Forall2 value ts vs -> value (LStruct ts) (CSeq vs).

(** [o] is the first multiple of [a] from [e] on. *)
Definition first_multiple (a e o : nat) : Prop :=
  e <= o /\ Nat.divide a o /\ forall o', e <= o' -> Nat.divide a o' -> o <= o'.

(** In a structure of which [e] bytes are used, of the members [ts] that follow one of type [t] is at [o]. *)
Inductive member_at : nat -> list lay -> nat -> lay -> Prop :=
| m_here : forall e t ts o, first_multiple (alignof t) e o -> member_at e (t :: ts) o t
| m_later : forall e t ts o o' t', first_multiple (alignof t) e o -> member_at (o + sizeof t) ts o' t' -> member_at e (t :: ts) o' t'.

(** Where the last of the members ends. *)
Inductive members_end : nat -> list lay -> nat -> Prop :=
| e_none : forall e, members_end e [] e
| e_some : forall e t ts o e', first_multiple (alignof t) e o -> members_end (o + sizeof t) ts e' -> members_end e (t :: ts) e'.

Inductive part := Digit | Flag.

(** Byte [i] of an object belongs to a number or is a [bool]. *)
Inductive holds : lay -> nat -> part -> Prop :=
| h_num : forall s n k i, i < n -> holds (LNum s n k) i Digit
| h_bool : holds LBool 0 Flag
| h_arr : forall n t j i p, j < n -> holds t i p -> holds (LArr n t) (j * sizeof t + i) p
| h_struct : forall ts o t i p, member_at 0 ts o t -> holds t i p -> holds (LStruct ts) (o + i) p.

Definition padding (t : lay) (i : nat) : Prop := i < sizeof t /\ forall p, ~ holds t i p.

(** Each byte of a number is part of a number on the other side, each [bool] part of a number or a [bool], and what is a [bool] on the other side
    is one here. *)
Definition covered (from to : lay) : Prop :=
  (forall i, holds from i Digit -> holds to i Digit) /\
  (forall i, holds from i Flag -> exists p, holds to i p) /\
  (forall i, holds to i Flag -> holds from i Flag).

Definition octets (pad : nat -> N) : Prop := forall i, is_octet (pad i).
Definition octets_of (copied : option (nat -> N)) : Prop := match copied with Some pad => octets pad | None => True end.
