(** What match.hpp and range.hpp are for. *)
From Coq Require Import List Arith ZArith Bool.
From Verif Require Import Base OverModel.
Import ListNotations.

(** Being a base is a strict order. *)
Definition sound (W : world) : Prop :=
  (forall a, w_derives W a a = false) /\
  (forall a b c, w_derives W a b = true -> w_derives W b c = true -> w_derives W a c = true).

(** The function that a call calls. *)
Definition chosen (W : world) (oc : bool) (a : arg) (cs : list cand) : option cand :=
  match resolve W oc a cs with Some n => nth_error cs n | None => None end.

(** A handler for alternatives of type [t]; [c], the variant is const. *)
Definition for_type (c : bool) (t : ty) (p : param) : Prop :=
  p_pat p = Exactly t /\ (p_ref p = by_value \/ (p_ref p = lref /\ (c = true -> p_const p = true))).
(** It does not need a [const] that is not there. *)
Definition adds_const (c : bool) (p : param) : Prop := p_ref p = lref /\ p_const p = true /\ c = false.
(** A handler that takes anything. *)
Definition generic (p : param) : Prop := p_pat p = Any.

(** It can write to what it is given. *)
Definition writes (p : param) : Prop := p_ref p = lref /\ p_const p = false.

(** What it writes to its parameter is written to the variant; [c], the variant is const. *)
Definition reaches (c : bool) (p : param) : bool :=
  match p_ref p with
  | lref | forwarding => negb (p_const p || match p_pat p with Exactly _ => false | _ => c end)
  | _ => false
  end.

(** What a container has. *)
Definition container (s : shape) (i ci : nat) : Prop :=
  s_iterator s = Some i /\ s_const_iterator s = Some ci /\ s_begin s false = Some i /\ s_begin s true = Some ci /\ s_cbegin s = Some ci.
(** What a range has: no [const_iterator], no [cbegin]. *)
Definition range_shape (i : nat) : shape := mkshape (Some i) None (fun _ => Some i) None.
Definition nothing : shape := mkshape None None (fun _ => None) None.
(** What kinds of types there are. *)
Definition shapes (sh : ty -> shape) : Prop :=
  (forall i, sh (Range i) = range_shape i) /\ (forall t n, sh (Array t n) = nothing).

(** Every alternative has a handler, and there is no second one for its type. *)
Definition own_handlers {V R} (c : bool) (alts : list ty) (hs : list (handler V R)) : Prop :=
  forall t, In t alts -> exists n h, nth_error hs n = Some h /\ for_type c t (c_param (h_cand h)) /\
    forall m g, m <> n -> nth_error hs m = Some g -> p_pat (c_param (h_cand g)) <> Exactly t.
(** Lambdas and functions that each take one type, none of them [mutable], all with the same result. *)
Definition plain_handlers {V R} (rt : bool * ty) (hs : list (handler V R)) : Prop :=
  forall h, In h hs -> c_mutable (h_cand h) = false /\ h_returns h = rt /\ exists u, p_pat (c_param (h_cand h)) = Exactly u.

(** How far a type is from another: the same, promoted, converted by the language (also to a base), converted by a class. *)
Definition effort (W : world) (t u : ty) : nat :=
  if ty_eqb t u then 0
  else match t, u with
       | Arith a, Arith b => if promotes a b then 1 else 2
       | _, _ => if derives W t u then 2 else 3
       end.
