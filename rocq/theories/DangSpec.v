(** Which expressions leave nothing dangling. *)
From Coq Require Import List Arith Bool.
From Verif Require Import Base DangModel.
Import ListNotations.

(** It denotes a variable or a part of one. *)
Inductive lasting : ex -> Prop :=
| l_var : forall x, lasting (EVar x)
| l_items : forall e, lasting e -> lasting (EItems e)
| l_call : forall e, lasting e -> lasting (ECall e)
| l_moved : forall e, lasting e -> lasting (EMoved e).

Inductive numbers : ex -> Prop :=
| n_iota : numbers EIota
| n_moved : forall e, numbers e -> numbers (EMoved e).

(** A copy of it refers to nothing but variables. *)
Inductive kept : ex -> Prop :=
| k_var : forall x, kept (EVar x)
| k_make : kept EMake
| k_holder : kept EHolder
| k_iota : kept EIota
| k_items : forall e, kept (EItems e)
| k_call : forall e, kept (ECall e)
| k_moved : forall e, kept e -> kept (EMoved e)
| k_range : forall e, lasting e -> kept (ERange e)
| k_join : forall e, lasting e -> kept (EJoin e)
| k_zip : forall es, (forall e, In e es -> lasting e \/ numbers e) -> kept (EZip es).

(** It can be looped over: a part of a variable, a member of a new object, or a new object that refers to nothing but variables. *)
Inductive loopable : ex -> Prop :=
| o_lasting : forall e, lasting e -> loopable e
| o_make : loopable EMake
| o_iota : loopable EIota
| o_member : loopable (EItems EHolder)
| o_range : forall e, lasting e -> loopable (ERange e)
| o_zip : forall es, (forall e, In e es -> lasting e \/ numbers e) -> loopable (EZip es).

Inductive careful : stmt -> Prop :=
| c_auto : forall e, kept e -> careful (SAuto e)
| c_print : forall e, careful (SPrint e)
| c_for : forall e body, loopable e -> Forall careful body -> careful (SFor e body)
| c_block : forall body, Forall careful body -> careful (SBlock body).

(** No function is asked for a reference to a part of a temporary. *)
Inductive direct : ex -> Prop :=
| d_var : forall x, direct (EVar x)
| d_make : direct EMake
| d_holder : direct EHolder
| d_iota : direct EIota
| d_items : forall e, direct e -> direct (EItems e)
| d_call : forall e, lasting e -> direct (ECall e)
| d_moved : forall e, direct e -> direct (EMoved e)
| d_range : forall e, direct e -> direct (ERange e)
| d_join : forall e, direct e -> direct (EJoin e)
| d_zip : forall es, (forall e, In e es -> direct e) -> direct (EZip es).

(** How many variables are declared. *)
Fixpoint declares (ss : list stmt) : nat :=
  match ss with
  | [] => 0
  | SAuto _ :: ss' => S (declares ss')
  | _ :: ss' => declares ss'
  end.
