(** Handlers and containers. *)
From Coq Require Import List Arith ZArith Bool Lia.
From Verif Require Import Base OverModel OverSpec OverProofs.
Import ListNotations.

(** Class 1 is derived from class 0; class 2 converts to [int]. *)
Definition there : world :=
  mkworld (fun d b => Nat.eqb d 1 && Nat.eqb b 0) (fun t u => ty_eqb t (Class 2) && ty_eqb u (Arith TInt)).
Lemma there_sound : sound there.
Proof.
  split; cbn.
  - intros [|[|a]]; reflexivity.
  - intros a b c H G. apply andb_true_iff in H as [H1 H2]. apply andb_true_iff in G as [G1 G2].
    apply Nat.eqb_eq in H2. apply Nat.eqb_eq in G1. subst b. discriminate G1.
Qed.

Definition value (t : ty) : param := mkparam false by_value (Exactly t).
Definition const_ref (t : ty) : param := mkparam true lref (Exactly t).
Definition plain_ref (t : ty) : param := mkparam false lref (Exactly t).
Definition rvalue_ref (t : ty) : param := mkparam false rref (Exactly t).
Definition auto_value : param := mkparam false by_value Any.
Definition auto_const_ref : param := mkparam true lref Any.
Definition auto_fwd : param := mkparam false forwarding Any.

Definition tint : ty := Arith TInt.
Definition tbool : ty := Arith TBool.
Definition tdouble : ty := Arith TDouble.

(** A handler that answers its number, adds one to what it is given, and counts its calls. *)
Definition answers (n : Z) (c : cand) : handler Z Z := mkhandler c (false, tint) 0 (fun x s => (n, x + 1, s + 1))%Z.
Definition conv0 (t u : ty) (x : Z) : Z := x.
Definition put0 (t u : ty) (x y : Z) : Z := y.
Definition holding (alts : list ty) (k : nat) (x : Z) : variant Z := mkvariant alts (Some (k, x)).

(** The world of range.hpp: class 0 is a vector with iterators 0 and 1, an [int*] is iterator 2, a [const int*] 3;
    class 1 is an [initializer_list]: no [cbegin]. *)
Definition shapes0 (t : ty) : shape :=
  match t with
  | Class 0 => mkshape (Some 0) (Some 1) (fun c => Some (if c then 1 else 0)) (Some 1)
  | Class 1 => mkshape (Some 3) (Some 3) (fun _ => Some 3) None
  | Range i => range_shape i
  | _ => nothing
  end.
Lemma shapes0_ok : shapes shapes0.
Proof. split; reflexivity. Qed.
Definition pointer0 (c : bool) (t : ty) : nat := if c then 3 else 2.
Definition to_const (i j : nat) : bool := Nat.eqb i j || (Nat.eqb i 0 && Nat.eqb j 1) || (Nat.eqb i 2 && Nat.eqb j 3).
