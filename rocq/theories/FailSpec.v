(** What a request may leave behind. *)
From Coq Require Import List Arith Bool.
From Verif Require Import Base FailModel.
Import ListNotations.

(** The generation reported for a key. *)
Definition gen (t : table) (key : path) : nat :=
  match find (fun e => if list_eq_dec Nat.eq_dec (fst e) key then true else false) t with Some e => snd e | None => 0 end.
Definition known (t : table) (key : path) : Prop := In key (map fst t).

(** resource.hpp:54-72: the node itself, or a subtree it is in *)
Definition changed_at (n s : table) (p : path) : nat :=
  fold_left Nat.max (map (fun i => gen s (firstn i p)) (seq 0 (S (length p)))) (gen n p).

Definition untouched {V} (w w' : world V) : Prop :=
  cell V w' = cell V w /\ now V w' = now V w /\ nodes V w' = nodes V w /\ subtrees V w' = subtrees V w.

(** The value is there and everybody is told. *)
Definition told {V} (w w' : world V) (v : V) (p : path) (subtree : bool) : Prop :=
  cell V w' = v /\ now V w' = S (now V w) /\
  (forall key, gen (nodes V w') key = if list_eq_dec Nat.eq_dec (firstn (length key) p) key then S (now V w) else gen (nodes V w) key) /\
  (forall key, gen (subtrees V w') key =
     if list_eq_dec Nat.eq_dec p key then (if subtree then S (now V w) else gen (subtrees V w) key) else gen (subtrees V w) key).

(** The value is there, but only the first [k] places on the way have been told: the next one has never been reported before. *)
Definition half_told {V} (w w' : world V) (v : V) (p : path) (subtree : bool) : Prop :=
  cell V w' = v /\ now V w' = S (now V w) /\ subtrees V w' = subtrees V w /\
  exists k, (forall key, gen (nodes V w') key =
               if list_eq_dec Nat.eq_dec (firstn (length key) p) key then (if length key <? k then S (now V w) else gen (nodes V w) key)
               else gen (nodes V w) key) /\
            ((k <= length p /\ ~ known (nodes V w) (firstn k p)) \/
             (k = S (length p) /\ subtree = true /\ ~ known (subtrees V w) p)).

(** A request that answers with [s] when it succeeds and then leaves a value as in [good]. *)
Definition ends {V} (w : world V) (r : ending * world V) (s : status) (good : V -> Prop) (p : path) (subtree : bool) (deadly : Prop) : Prop :=
  match fst r with
  | Answered a => (a = s /\ exists v, good v /\ told w (snd r) v p subtree) \/ (a <> s /\ untouched w (snd r))
  | Thrown => untouched w (snd r) \/ (exists v, good v /\ half_told w (snd r) v p subtree)
  | Died => deadly
  end.

(** Everything on the way has been reported before. *)
Definition familiar {V} (w : world V) (p : path) (subtree : bool) : Prop :=
  (forall k, k <= length p -> known (nodes V w) (firstn k p)) /\ (subtree = true -> known (subtrees V w) p).

Definition no_failure (fails : nat -> bool) : Prop := forall n, fails n = false.
