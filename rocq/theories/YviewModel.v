(** [yaml::view] as a target of deserialization: what assigning to it does to the documents that it shows.

    yaml.hpp 29-46 [view], 91-117 [at], 544-567; detail/serialization.hpp 817-1117 [deserialize_adl], 1122-1242 [patch_adl].
    [view] has the implicit assignment, that of its [YAML::Node]. yaml-cpp (node/impl.h, node/detail/node.h): a [Node]
    points to a node, a node to what it refers to; assigning a [Node] that points to a node makes that node refer to
    what the other one refers to, and only then points to the other one.

    Simplifications: strings, views and structures of them; fields without attributes; keys are strings; memory is never
    reclaimed (a [Node] keeps all the memory of its document). *)
From Coq Require Import List Arith Bool String.
From Verif Require Import Base.
Import ListNotations.

(** * Documents *)

Inductive content :=
| Null
| Scalar (s : string)
| Seq (l : list nat)                   (* nodes *)
| Map (l : list (nat * nat)).          (* key and value *)

(** [h_ref], what every node refers to; [h_data], what is there. *)
Record heap := mkheap { h_ref : list nat; h_data : list content }.

Definition ref_of (h : heap) (n : nat) : nat := nth n (h_ref h) 0.
Definition content_of (h : heap) (n : nat) : content := nth (ref_of h n) (h_data h) Null.

(** A [YAML::Node]: [None], not yet a node (null). *)
Definition handle := option nat.
Definition shows (h : heap) (x : handle) : content := match x with Some n => content_of h n | None => Null end.

(** [EnsureNodeExists] *)
Definition new_null (h : heap) : heap * nat :=
  (mkheap (h_ref h ++ [List.length (h_data h)]) (h_data h ++ [Null]), List.length (h_ref h)).
(** [node::set_ref] *)
Definition set_ref (h : heap) (m n : nat) : heap := mkheap (upd (h_ref h) m (ref_of h n)) (h_data h).

(** [Node::AssignNode] *)
Definition assign_to (h : heap) (x : handle) (n : nat) : heap * handle :=
  match x with
  | None => (h, Some n)
  | Some m => (set_ref h m n, Some n)
  end.
(** [Node::operator=]: nothing happens if both refer to the same ([Node::is]). *)
Definition assign_node (h : heap) (x y : handle) : heap * handle :=
  match y with
  | None => let (h1, n) := new_null h in assign_to h1 x n
  | Some n =>
      match x with
      | Some m => if Nat.eqb (ref_of h m) (ref_of h n) then (h, x) else assign_to h x n
      | None => assign_to h x n
      end
  end.

(** * Targets *)

Inductive ty :=
| TString | TView
| TSeq (t : ty) | TMap (t : ty)                          (* growable ranges; maps from strings *)
| TOpt (t : ty)
| TTuple (l : list ty)                                   (* tuples, pairs; arrays, as tuples of equal types *)
| TStruct (names : list string) (l : list ty).           (* reflected *)

Inductive value :=
| VString (s : string)
| VView (x : handle)
| VSeq (l : list value)
| VMap (l : list (string * value))
| VOpt (v : option value)
| VFixed (l : list value).                               (* tuples, structures *)

Fixpoint default (t : ty) : value :=
  match t with
  | TString => VString EmptyString
  | TView => VView None
  | TSeq _ => VSeq []
  | TMap _ => VMap []
  | TOpt _ => VOpt None
  | TTuple l | TStruct _ l => VFixed (map default l)
  end.

(** Assignment of one object to another: containers hand over their memory, everything else goes member by member. *)
Definition assign_all (f : ty -> heap -> value -> value -> heap * value) :=
  fix go (ts : list ty) (h : heap) (xs ys : list value) {struct ts} : heap * list value :=
    match ts, xs, ys with
    | t :: ts', x :: xs', y :: ys' =>
        let (h1, v) := f t h x y in
        let (h2, vs) := go ts' h1 xs' ys' in (h2, v :: vs)
    | _, _, _ => (h, xs)
    end.
Fixpoint assign (t : ty) (h : heap) (x y : value) {struct t} : heap * value :=
  match t with
  | TView =>
      match x, y with
      | VView a, VView b => let (h', c) := assign_node h a b in (h', VView c)
      | _, _ => (h, y)
      end
  | TString | TSeq _ | TMap _ => (h, y)
  | TOpt t =>
      match x, y with
      | VOpt (Some a), VOpt (Some b) => let (h', c) := assign t h a b in (h', VOpt (Some c))
      | _, _ => (h, y)
      end
  | TTuple l | TStruct _ l =>
      match x, y with
      | VFixed xs, VFixed ys => let (h', vs) := assign_all assign l h xs ys in (h', VFixed vs)
      | _, _ => (h, y)
      end
  end.

(** * Deserialization *)

(** 103-107 *)
Definition at_index (h : heap) (x : handle) (i : nat) : handle :=
  match shows h x with Seq l => nth_error l i | _ => None end.
Definition key_is (h : heap) (name : string) (kv : nat * nat) : bool :=
  match content_of h (fst kv) with Scalar s => String.eqb s name | _ => false end.
(** [Node::operator[]] *)
Definition field (h : heap) (x : handle) (name : string) : option nat :=
  match shows h x with Map l => option_map snd (find (key_is h name) l) | _ => None end.

(** The state, the target, and whether it ended without an exception. *)
Definition result := (heap * value * bool)%type.

(** Members in order, every one from where [src] says; [None], it is passed over. *)
Definition in_place (f : ty -> heap -> value -> handle -> result) (src : nat -> heap -> option handle) :=
  fix go (ts : list ty) (i : nat) (h : heap) (xs : list value) {struct ts} : heap * list value * bool :=
    match ts, xs with
    | t :: ts', x :: xs' =>
        match src i h with
        | None => let '(h2, vs, ok) := go ts' (S i) h xs' in (h2, x :: vs, ok)
        | Some y =>
            let '(h1, v, ok1) := f t h x y in
            if ok1 then let '(h2, vs, ok) := go ts' (S i) h1 xs' in (h2, v :: vs, ok)
            else (h1, v :: xs', false)
        end
    | _, _ => (h, xs, true)
    end.
(** detail/serialization.hpp 858-872 *)
Definition push_all (f : heap -> handle -> result) :=
  fix go (l : list nat) (h : heap) (acc : list value) {struct l} : result :=
    match l with
    | [] => (h, VSeq acc, true)
    | n :: l' =>
        let '(h1, v, ok) := f h (Some n) in
        if ok then go l' h1 (acc ++ [v]) else (h1, VSeq acc, false)
    end.
(** 825-845; a key that there is already stays *)
Definition emplace (k : string) (v : value) (acc : list (string * value)) : list (string * value) :=
  if existsb (fun e => String.eqb (fst e) k) acc then acc else acc ++ [(k, v)].
Definition emplace_all (f : heap -> handle -> result) :=
  fix go (l : list (nat * nat)) (h : heap) (acc : list (string * value)) {struct l} : result :=
    match l with
    | [] => (h, VMap acc, true)
    | (k, n) :: l' =>
        match content_of h k with
        | Scalar s =>
            let '(h1, v, ok) := f h (Some n) in
            if ok then go l' h1 (emplace s v acc) else (h1, VMap acc, false)
        | _ => (h, VMap acc, false)
        end
    end.

Fixpoint deserialize (t : ty) (h : heap) (out : value) (x : handle) {struct t} : result :=
  match t with
  | TString =>                                            (* yaml.hpp 544-549 *)
      match shows h x with Scalar s => (h, VString s, true) | _ => (h, out, false) end
  | TView =>                                              (* 563-567 *)
      match out with
      | VView a => let (h', c) := assign_node h a x in (h', VView c, true)
      | _ => (h, out, false)
      end
  | TSeq t =>                                             (* 846-872 *)
      match shows h x with
      | Seq l => push_all (fun h y => deserialize t h (default t) y) l h []
      | _ => (h, out, false)
      end
  | TMap t =>                                             (* 817-845 *)
      match shows h x with
      | Map l => emplace_all (fun h y => deserialize t h (default t) y) l h []
      | _ => (h, out, false)
      end
  | TOpt t =>                                             (* 1108-1117 *)
      match shows h x with
      | Null => (h, VOpt None, true)
      | _ =>
          let '(h1, v, ok) := deserialize t h (default t) x in
          if ok then
            match out with
            | VOpt (Some a) => let (h2, c) := assign t h1 a v in (h2, VOpt (Some c), true)
            | _ => (h1, VOpt (Some v), true)
            end
          else (h1, out, false)
      end
  | TTuple l =>                                           (* 874-898, 1084-1106 *)
      match shows h x, out with
      | Seq s, VFixed xs =>
          if Nat.ltb (List.length l) (List.length s) then (h, out, false)
          else let '(h', vs, ok) := in_place deserialize (fun i h => Some (at_index h x i)) l 0 h xs in (h', VFixed vs, ok)
      | _, _ => (h, out, false)
      end
  | TStruct names l =>                                    (* 900-1038 *)
      match shows h x, out with
      | Map _, VFixed xs =>
          let '(h', vs, ok) := in_place deserialize (fun i h => Some (field h x (nth i names EmptyString))) l 0 h xs in (h', VFixed vs, ok)
      | Seq s, VFixed xs =>
          if Nat.ltb (List.length l) (List.length s) then (h, out, false)
          else let '(h', vs, ok) := in_place deserialize (fun i h => Some (at_index h x i)) l 0 h xs in (h', VFixed vs, ok)
      | _, _ => (h, out, false)
      end
  end.

(** 1122-1242 *)
Fixpoint patch (t : ty) (h : heap) (out : value) (x : handle) {struct t} : result :=
  match t with
  | TStruct names l =>
      match shows h x, out with
      | Map _, VFixed xs =>
          let '(h', vs, ok) :=
            in_place patch (fun i h => match field h x (nth i names EmptyString) with Some n => Some (Some n) | None => None end) l 0 h xs in
          (h', VFixed vs, ok)
      | _, _ => deserialize t h out x
      end
  | TOpt t' =>
      match shows h x with
      | Null => (h, VOpt None, true)
      | _ =>
          match out with
          | VOpt (Some a) => let '(h1, v, ok) := patch t' h a x in (h1, VOpt (Some v), ok)
          | _ => let '(h1, v, ok) := patch t' h (default t') x in
                 if ok then (h1, VOpt (Some v), true) else (h1, out, false)
          end
      end
  | _ => deserialize t h out x
  end.

(** * Reading a document *)

Inductive tree := TNull | TScalar (s : string) | TSeqOf (l : list tree) | TMapOf (l : list (tree * tree)).

Definition option_all {A} : list (option A) -> option (list A) :=
  fix go l := match l with
              | [] => Some []
              | Some a :: l' => match go l' with Some r => Some (a :: r) | None => None end
              | None :: _ => None
              end.
Definition both {A B} (a : option A) (b : option B) : option (A * B) :=
  match a, b with Some x, Some y => Some (x, y) | _, _ => None end.
(** [None]: deeper than [fuel] *)
Fixpoint read (fuel : nat) (h : heap) (n : nat) : option tree :=
  match fuel with
  | 0 => None
  | S f =>
      match content_of h n with
      | Null => Some TNull
      | Scalar s => Some (TScalar s)
      | Seq l => option_map TSeqOf (option_all (map (read f h) l))
      | Map l => option_map TMapOf (option_all (map (fun kv => both (read f h (fst kv)) (read f h (snd kv))) l))
      end
  end.
Definition read_handle (fuel : nat) (h : heap) (x : handle) : option tree :=
  match x with Some n => read fuel h n | None => match fuel with 0 => None | S _ => Some TNull end end.
