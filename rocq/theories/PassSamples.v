(** Sample signals. *)
From Coq Require Import List Arith.
From Verif Require Import PassModel.
Import ListNotations.

(** A function that takes its parameters away. *)
Definition consume : body nat := map (fun _ => Moved nat).
(** A function that adds one to its parameters. *)
Definition increment : body nat := map (fun c => match c with Val _ v => Val nat (S v) | Moved _ => Moved nat end).
Definition T := mkparam Value true.
Definition T_ref := mkparam Ref true.
Definition T_cref := mkparam CRef true.
Definition T_rref := mkparam RRef true.
Definition Unique := mkparam Value false.

Definition inner : signal nat := Signal nat [T; T_cref] [Function nat 3 [T; T] consume; Member nat 4 [T_rref; T_cref] consume].
Definition outer : signal nat := Signal nat [T; T_cref] [Function nat 1 [T_rref; T] consume; Chain nat inner; Chain nat inner; Member nat 2 [T; T_cref] consume].
Definition mixed : signal nat := Signal nat [T_ref; T_cref] [Function nat 1 [T_ref; T_cref] increment; Function nat 2 [T_cref; T_cref] increment].
Definition start : store nat := mkstore nat [Val nat 7; Val nat 8] 0.
