(** Exceptions in the middle of resource requests: kl/resource_op.hpp:394-457 (the rollbacks), 717-845 ([delete_direct_child]), 868-1087
    ([put], [post], [patch], [del]), kl/resource.hpp:23-47 and 89-103 ([notify_changed], [assign]).

    A request is followed from the node it is about.  Every construction, assignment and allocation that may throw can do so: the [n]-th
    one does if [fails n].  What the document, the key comparisons and the validators say is given by functions that may throw too.
    A throwing assignment leaves its target in any state ([torn]); a moved-from object is in any state ([moved]).  [push_back] that throws has
    no effect, and [pop_back] does not throw, as for [std::vector] of types that can be copied or moved without exceptions.  Validators do
    not change what they look at (HookModel has those that do); finding the node (ResourceModel) changes nothing. *)
From Coq Require Import List Arith Bool.
From Verif Require Import Base.
Import ListNotations.

Inductive status := SOk | SCreated | SNoContent | SBadRequest | SNotAllowed | SConflict.
(** [Died]: an exception left a destructor during stack unwinding, [std::terminate]. *)
Inductive ending := Answered (s : status) | Thrown | Died.

(** What a function that reads, compares or validates does. *)
Inductive verdict A := Fine (a : A) | Refused | Raised.
Arguments Fine {A}. Arguments Refused {A}. Arguments Raised {A}.

(** The type at the node. *)
Record traits := mktraits { copy_nothrow : bool; move_nothrow : bool; assign_nothrow : bool }.

Definition path := list nat.
Definition table := list (path * nat).

Section Requests.
Variable V : Type.
Variable moved : V -> V.
Variable torn : V -> V.
Variable fails : nat -> bool.

(** [tick]: how many steps that may throw have been taken. *)
Record world := mkworld { cell : V; now : nat; nodes : table; subtrees : table; tick : nat }.

Definition set_cell (w : world) (v : V) : world := mkworld v (now w) (nodes w) (subtrees w) (tick w).
Definition set_tables (w : world) (n s : table) : world := mkworld (cell w) (now w) n s (tick w).
(** A step that throws at most if [can]. *)
Definition attempt (can : bool) (w : world) : bool * world :=
  if can then (fails (tick w), mkworld (cell w) (now w) (nodes w) (subtrees w) (S (tick w))) else (false, w).

Definition same (a b : path) : bool := if list_eq_dec Nat.eq_dec a b then true else false.

(** resource.hpp:89-103; [true]: thrown *)
Definition has_key (t : table) (key : path) : bool := existsb (fun e => same (fst e) key) t.
Definition store (t : table) (key : path) (gen : nat) : table :=
  if has_key t key then map (fun e => if same (fst e) key then (fst e, gen) else e) t else t ++ [(key, gen)].

(** resource.hpp:34-35 *)
Fixpoint mark (keys : list path) (gen : nat) (w : world) : bool * world :=
  match keys with
  | [] => (false, w)
  | key :: keys' =>
      let '(thrown, w) := attempt (negb (has_key (nodes w) key)) w in
      if thrown then (true, w) else mark keys' gen (set_tables w (store (nodes w) key gen) (subtrees w))
  end.

(** resource.hpp:28-43; the prefixes of the path from the root on *)
Definition notify_changed (p : path) (subtree : bool) (w : world) : bool * world :=
  let gen := S (now w) in
  let w := mkworld (cell w) gen (nodes w) (subtrees w) (tick w) in
  let '(thrown, w) := mark (map (fun i => firstn i p) (seq 0 (S (length p)))) gen w in
  if thrown then (true, w)
  else if subtree then
    let '(thrown, w) := attempt (negb (has_key (subtrees w) p)) w in
    if thrown then (true, w) else (false, set_tables w (nodes w) (store (subtrees w) p gen))
  else (false, w).

(** The answer to a refused request holds a text (899-911 and others). *)
Definition answer_text (s : status) (w : world) : ending * world :=
  let '(thrown, w) := attempt true w in (if thrown then Thrown else Answered s, w).

(** 412-416, while an exception is on its way. *)
Definition roll_back (c : traits) (old : V) (after : world -> ending * world) (w : world) : ending * world :=
  let '(thrown, w) := attempt (negb (assign_nothrow c)) w in
  if thrown then (Died, set_cell w (torn (cell w))) else after (set_cell w old).

Inductive backup := CopyBackup | MoveIfNoexceptBackup.

(** 400-408: the old value, and what is left at the node *)
Definition back_up (c : traits) (b : backup) (w : world) : option V * world :=
  match b, move_nothrow c with
  | MoveIfNoexceptBackup, true => (Some (cell w), set_cell w (moved (cell w)))
  | _, _ => let '(thrown, w) := attempt (negb (copy_nothrow c)) w in (if thrown then None else Some (cell w), w)
  end.

(** 884-893, 990-998, 1057-1065, 735-742: backup, change, validate, commit, notify. *)
Definition guarded (c : traits) (b : backup) (change_nothrow : bool) (next : V) (validate : V -> verdict unit)
           (p : path) (subtree : bool) (s : status) (w : world) : ending * world :=
  let '(old, w) := back_up c b w in
  match old with
  | None => (Thrown, w)
  | Some old =>
      let '(thrown, w) := attempt (negb change_nothrow) w in
      if thrown then roll_back c old (fun w => (Thrown, w)) (set_cell w (torn (cell w)))
      else
        let w := set_cell w next in
        match validate next with
        | Refused => roll_back c old (answer_text SConflict) w
        | Raised => roll_back c old (fun w => (Thrown, w)) w
        | Fine _ =>
            let '(thrown, w) := notify_changed p subtree w in
            if thrown then (Thrown, w) else (Answered s, w)
        end
  end.

(** 868-896, and 973-1002 with [patch] for [deserialize]: [read] *)
Definition put (c : traits) (read : V -> verdict V) (identical : V -> bool) (validate : V -> verdict unit)
           (p : path) (subtree : bool) (w : world) : ending * world :=
  let '(thrown, w) := attempt (negb (copy_nothrow c)) w in
  if thrown then (Thrown, w)
  else
    match read (cell w) with
    | Refused => (Answered SBadRequest, w)
    | Raised => (Thrown, w)
    | Fine candidate =>
        if identical candidate then guarded c MoveIfNoexceptBackup (assign_nothrow c) candidate validate p subtree SOk w
        else (Answered SNotAllowed, w)
    end.

(** 1042-1072, an optional that is emptied: [empty]; [veto] is the validator of its content *)
Definition reset (c : traits) (empty : V) (veto : V -> verdict unit) (validate : V -> verdict unit)
           (p : path) (subtree : bool) (w : world) : ending * world :=
  let '(thrown, w) := attempt (negb (copy_nothrow c)) w in
  if thrown then (Thrown, w)
  else
    match veto (cell w) with
    | Refused => answer_text SConflict w
    | Raised => (Thrown, w)
    | Fine _ => guarded c MoveIfNoexceptBackup (assign_nothrow c) empty validate p subtree SNoContent w
    end.

(** 717-845: [shorter] is the collection without the child; erasing moves elements *)
Definition remove_child (c : traits) (erase_nothrow : bool) (shorter : V) (validate : V -> verdict unit) (p : path) (w : world)
  : ending * world :=
  guarded c CopyBackup erase_nothrow shorter validate (removelast p) true SNoContent w.

(** 919-945: [push] appends, [pop] removes the last; [check] compares keys and validates the candidate *)
Definition post {E : Type} (push : V -> E -> V) (pop : V -> V) (read : verdict E) (check : V -> E -> verdict unit)
           (validate : V -> verdict unit) (p : path) (w : world) : ending * world :=
  let '(thrown, w) := attempt true w in
  if thrown then (Thrown, w)
  else
    match read with
    | Refused => (Answered SBadRequest, w)
    | Raised => (Thrown, w)
    | Fine candidate =>
        match check (cell w) candidate with
        | Refused => answer_text SConflict w
        | Raised => (Thrown, w)
        | Fine _ =>
            let '(thrown, w) := attempt true w in
            if thrown then (Thrown, w)
            else
              let w := set_cell w (push (cell w) candidate) in
              match validate (cell w) with
              | Refused => answer_text SConflict (set_cell w (pop (cell w)))
              | Raised => (Thrown, set_cell w (pop (cell w)))
              | Fine _ =>
                  let '(thrown, w) := notify_changed p true w in
                  if thrown then (Thrown, w) else (Answered SCreated, w)
              end
        end
    end.
End Requests.
