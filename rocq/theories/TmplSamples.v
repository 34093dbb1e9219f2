(** A program that uses the class templates. *)
From Coq Require Import String List Arith NArith Bool.
From Verif Require Import TmplModel TmplSpec TmplProofs TmplMoreProofs.
Import ListNotations.
Local Open Scope string_scope.
Local Open Scope list_scope.

Definition int : ty := Name "int".
Definition dbl : ty := Name "double".

Definition is_int (t : ty) : bool := ty_eqb t int.
Definition noexcept_q : fq := mkfq false false no_ref true false.
Definition const_noexcept : fq := mkfq true false no_ref true false.

(** The predicate [is_int]; a condition that cannot be instantiated is any other name;
    the closure types of three lambdas, one of which is [mutable] and one [noexcept]; a class derived from the second. *)
Definition here : world := mkworld
  (fun n args =>
     match args with
     | [t] => if String.eqb n "is_int" then Some [("value", Is (number (is_int t)))] else None
     | _ => None
     end)
  (fun t =>
     if ty_eqb t (Name "lambda1") then Some (t, Fn dbl [int; Lref (Cv true false int)] fq_const)
     else if ty_eqb t (Name "lambda2") then Some (t, Fn (Name "void") [] fq0)
     else if ty_eqb t (Name "lambda3") then Some (t, Fn int [int] const_noexcept)
     else if ty_eqb t (Name "derived") then Some (Name "lambda2", Fn (Name "void") [] fq0)
     else None).

Lemma here_decides : decides here "is_int" is_int.
Proof. intros t _. exists 1. intros [|f] Hf; [inversion Hf | reflexivity]. Qed.

Lemma lambda3_none : forall c r ts, ~ signature here (Name "lambda3") c r ts.
Proof.
  intros c r ts H. inversion H as [| | |? d ? ? q C Ad Ar Q E| |]; subst. cbn in E. injection E as <- <- <- <-. destruct Q as [Q|Q]; discriminate Q.
Qed.

Lemma const_pointer_none : forall W r ts q c s us, ~ signature W (Cv true false (Ptr (Fn r ts q))) c s us.
Proof. intros W r ts q c s us H. inversion H as [| | |? d ? ? p C Ad Ar Q E| |]; subst. discriminate C. Qed.

Lemma noexcept_none : forall W r ts q c s us, q_noexcept q = true -> ~ signature W (Fn r ts q) c s us /\ ~ signature W (Ptr (Fn r ts q)) c s us.
Proof.
  intros W r ts q c s us Q. split; intros H; inversion H as [| | |? d ? ? p C Ad Ar Q2 E| |]; subst; try discriminate Q; discriminate C.
Qed.
