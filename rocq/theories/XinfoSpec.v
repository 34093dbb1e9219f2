(** Intended meaning: every object has its own stack of values per tag. *)
From Coq Require Import List NArith Arith Bool.
From Verif Require Import XinfoModel.
Import ListNotations.

Section spec.
Variable V : Type.

(** One object: for each tag the values set and not yet unset, newest first. *)
Definition stacks := nat -> list V.

Definition push (s : stacks) (tag : nat) (v : V) : stacks :=
  fun t => if Nat.eqb t tag then v :: s t else s t.
Definition pop (s : stacks) (tag : nat) : stacks :=
  fun t => if Nat.eqb t tag then tl (s t) else s t.
Definition replace_top (s : stacks) (tag : nat) (v : V) : stacks :=
  fun t => if Nat.eqb t tag then match s t with [] => [] | _ :: r => v :: r end else s t.

(** Several objects with value semantics. *)
Definition put (ss : list stacks) (o : nat) (f : stacks -> stacks) : list stacks :=
  map (fun p => if Nat.eqb (fst p) o then f (snd p) else snd p) (combine (seq 0 (length ss)) ss).

Definition nothing : stacks := fun _ => [].

Definition ideal_step (ss : list stacks) (a : op V) : list stacks :=
  match a with
  | Set_ o tag v => put ss o (fun s => push s tag v)
  | Unset o tag => put ss o (fun s => pop s tag)
  | Poke o tag v => put ss o (fun s => replace_top s tag v)
  | Construct => ss ++ [nothing]
  | Copy o => ss ++ [nth o ss nothing]
  | Assign dst src => put ss dst (fun _ => nth src ss nothing)
  end.

Definition ideal (ops : list (op V)) : list stacks := fold_left ideal_step ops [].

(** What an object should answer. *)
Definition answer (ss : list stacks) (o tag : nat) : option V := hd_error (nth o ss nothing tag).

(** Every operation names objects that exist. *)
Fixpoint well_formed (n : nat) (ops : list (op V)) : Prop :=
  match ops with
  | [] => True
  | Set_ o _ _ :: r | Unset o _ :: r | Poke o _ _ :: r => o < n /\ well_formed n r
  | Construct :: r => well_formed (S n) r
  | Copy o :: r => o < n /\ well_formed (S n) r
  | Assign d s :: r => d < n /\ s < n /\ well_formed n r
  end.

(** Histories without copying. *)
Definition no_copies (ops : list (op V)) : Prop :=
  Forall (fun a => match a with Copy _ | Assign _ _ => False | _ => True end) ops.

(** Histories that only add values and copy. *)
Definition only_adds (ops : list (op V)) : Prop :=
  Forall (fun a => match a with Unset _ _ | Poke _ _ _ => False | _ => True end) ops.

(** What the code does instead: values are entries that objects share.  An object holds entries, newest first; a copy holds the
    same entries as the original, not copies of them.  Removing the newest entry of an object concerns this object alone.  Any
    other entry is unhooked from the one set after it, so it goes from every object that holds that one.  A
    value that is written to changes in every object that holds the entry. *)
Record shared := mkshared { entries : list (nat * V); held : list (list nat) }.

Definition tagged (s : shared) (tag id : nat) : bool :=
  match nth_error (entries s) id with Some e => Nat.eqb (fst e) tag | None => false end.

Fixpoint change {A} (l : list A) (i : nat) (f : A -> A) : list A :=
  match l, i with
  | [], _ => []
  | x :: l', O => f x :: l'
  | x :: l', S i' => x :: change l' i' f
  end.

(** The newest entry with the tag, and the one set after it. *)
Fixpoint newest (s : shared) (tag : nat) (after : option nat) (l : list nat) : option (option nat * nat) :=
  match l with
  | [] => None
  | id :: l' => if tagged s tag id then Some (after, id) else newest s tag (Some id) l'
  end.

Definition without (id : nat) (l : list nat) : list nat := filter (fun x => negb (Nat.eqb x id)) l.

Definition shared_step (s : shared) (a : op V) : shared :=
  match a with
  | Set_ o tag v => mkshared (entries s ++ [(tag, v)]) (change (held s) o (cons (length (entries s))))
  | Unset o tag =>
      match newest s tag None (nth o (held s) []) with
      | None => s
      | Some (None, id) => mkshared (entries s) (change (held s) o (without id))
      | Some (Some after, id) =>
          mkshared (entries s) (map (fun l => if existsb (Nat.eqb after) l then without id l else l) (held s))
      end
  | Poke o tag v =>
      match newest s tag None (nth o (held s) []) with
      | None => s
      | Some (_, id) => mkshared (change (entries s) id (fun e => (fst e, v))) (held s)
      end
  | Construct => mkshared (entries s) (held s ++ [[]])
  | Copy o => mkshared (entries s) (held s ++ [nth o (held s) []])
  | Assign dst src => mkshared (entries s) (change (held s) dst (fun _ => nth src (held s) []))
  end.

Definition sharing (ops : list (op V)) : shared := fold_left shared_step ops (mkshared [] []).

(** All an object holds, and the value [get] answers. *)
Definition contents (s : shared) (o : nat) : list (nat * V) :=
  flat_map (fun id => match nth_error (entries s) id with Some e => [e] | None => [] end) (nth o (held s) []).
Definition shared_answer (s : shared) (o tag : nat) : option V :=
  hd_error (map snd (filter (fun e => Nat.eqb (fst e) tag) (contents s o))).
End spec.
Arguments push {V}. Arguments pop {V}. Arguments replace_top {V}. Arguments put {V}.
Arguments nothing {V}. Arguments ideal_step {V}. Arguments ideal {V}. Arguments answer {V}.
Arguments well_formed {V}. Arguments no_copies {V}. Arguments only_adds {V}.
Arguments mkshared {V}. Arguments entries {V}. Arguments held {V}. Arguments tagged {V}. Arguments newest {V}.
Arguments shared_step {V}. Arguments sharing {V}. Arguments contents {V}. Arguments shared_answer {V}.
