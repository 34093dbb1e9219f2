(** Who names a slot: vocabulary of the claims about functions that own connections. *)
From Coq Require Import List Arith Bool Relations.
From Verif Require Import CaptModel.
Import ListNotations.

Definition total {A} (f : A -> nat) (l : list A) : nat := list_sum (map f l).
Definition times (s : nat) (l : list nat) : nat := count_occ Nat.eq_dec l s.
(** How often a slot is in the lists of signals, among the handles of the program, among what functions that exist own. *)
Definition listed (st : state) (s : nat) : nat := total (fun r => times s (g_slots r)) (sigs st).
Definition held (st : state) (s : nat) : nat := total (fun h => match h with Some k => if Nat.eqb k s then 1 else 0 | None => 0 end) (handles st).
Definition owned (st : state) (s : nat) : nat := total (fun x => if s_live x then times s (map snd (s_caps x)) else 0) (slots st).
Definition names (st : state) (s : nat) : nat := listed st s + held st s + owned st s.

(** Slots are deleted exactly when nobody names them, and their counts are right. *)
Definition accounted (st : state) : Prop :=
  (forall s x, nth_error (slots st) s = Some x -> s_live x = true -> s_refs x = names st s /\ 0 < names st s) /\
  (forall s x, nth_error (slots st) s = Some x -> s_live x = false -> names st s = 0) /\
  (forall s, length (slots st) <= s -> names st s = 0).
Definition unlocked (st : state) : Prop := forall g r, nth_error (sigs st) g = Some r -> g_locked r = false.

(** The function of [a] owns a connection to [b]. *)
Definition owns (st : state) (a b : nat) : Prop := exists x k, nth_error (slots st) a = Some x /\ In (k, b) (s_caps x).
Definition owns_scoped (st : state) (a b : nat) : Prop := exists x, nth_error (slots st) a = Some x /\ In (true, b) (s_caps x).
(** Whatever is destroyed with [a] can only disconnect what [a] may cut. *)
Definition may_cut (st : state) (a c : nat) : Prop := exists b, clos_refl_trans nat (owns st) a b /\ owns_scoped st b c.
Definition connected_to (st : state) (c g : nat) : Prop := exists x, nth_error (slots st) c = Some x /\ s_sender x = Some g.
Definition disconnected (st : state) (c : nat) : Prop := forall x, nth_error (slots st) c = Some x -> s_sender x = None.
Definition live_slot (st : state) (s : nat) : Prop := exists x, nth_error (slots st) s = Some x /\ s_live x = true.

(** Named by a signal or the program, or by a function that is itself so named. *)
Inductive rooted (st : state) : nat -> Prop :=
| root_listed s : listed st s <> 0 -> rooted st s
| root_held s : held st s <> 0 -> rooted st s
| root_owned a s : live_slot st a -> rooted st a -> owns st a s -> rooted st s.
(** No function owns itself through others. *)
Definition acyclic (st : state) : Prop := exists rank : nat -> nat, forall a b, owns st a b -> live_slot st a -> rank b < rank a.

(** What never waits: everything but taking all slots of a signal away or ending its emission. *)
Definition quiet (o : op) : bool := match o with Disconnect_all _ | End _ | Destroy _ => false | _ => true end.
(** Levels: functions own connections to slots of lower levels, the slots of one signal are of one level. *)
Definition layered (level : nat -> nat) (st : state) : Prop :=
  (forall a b, owns st a b -> level b < level a) /\
  (forall g r s c, nth_error (sigs st) g = Some r -> In s (g_slots r) -> In c (g_slots r) -> level s = level c).
