(** What views are for: showing a part of a document, without changing any. *)
From Coq Require Import List Arith String.
From Verif Require Import YviewModel.
Import ListNotations.

Definition inside (c : content) : list nat :=
  match c with Null | Scalar _ => [] | Seq l => l | Map l => flat_map (fun kv => [fst kv; snd kv]) l end.
(** Nodes refer to something, and their parts are nodes. *)
Definition closed (h : heap) : Prop :=
  forall n, n < List.length (h_ref h) ->
    ref_of h n < List.length (h_data h) /\ forall m, In m (inside (content_of h n)) -> m < List.length (h_ref h).
Definition there (h : heap) (x : handle) : Prop := match x with Some n => n < List.length (h_ref h) | None => True end.

(** [m] is [n] or a part of it. *)
Inductive reach (h : heap) (n : nat) : nat -> Prop :=
| reach_self : reach h n n
| reach_part m k : reach h n m -> In k (inside (content_of h m)) -> reach h n k.

(** The nodes of the views that are overwritten: those outside of containers. *)
Fixpoint held (v : value) : list nat :=
  match v with
  | VView (Some n) => [n]
  | VOpt (Some v) => held v
  | VFixed l => flat_map held l
  | _ => []
  end.
(** All the nodes of views. *)
Fixpoint views (v : value) : list nat :=
  match v with
  | VView (Some n) => [n]
  | VOpt (Some v) => views v
  | VFixed l | VSeq l => flat_map views l
  | VMap l => flat_map (fun e : string * value => let (_, v) := e in views v) l
  | _ => []
  end.

(** A document without any of these nodes. *)
Definition apart (h : heap) (n : nat) (ns : list nat) : Prop := forall m, In m ns -> ~ reach h n m.
(** It reads the same, and is made of the same nodes. *)
Definition untouched (h h' : heap) (n : nat) : Prop :=
  (forall fuel, read fuel h' n = read fuel h n) /\ (forall m, reach h' n m <-> reach h n m).

(** * What is made of a document *)

(** The value of the first of the entries whose key is this text. *)
Inductive named (h : heap) (name : string) : list (nat * nat) -> handle -> Prop :=
| named_none : named h name [] None
| named_this k n l : content_of h k = Scalar name -> named h name ((k, n) :: l) (Some n)
| named_later k n l x : content_of h k <> Scalar name -> named h name l x -> named h name ((k, n) :: l) x.

(** The document has what the type needs. *)
Inductive fits (h : heap) : ty -> handle -> Prop :=
| fits_string x s : shows h x = Scalar s -> fits h TString x
| fits_view x : fits h TView x
| fits_seq t x l : shows h x = Seq l -> (forall n, In n l -> fits h t (Some n)) -> fits h (TSeq t) x
| fits_map t x l : shows h x = Map l ->
    (forall k n, In (k, n) l -> (exists s, content_of h k = Scalar s) /\ fits h t (Some n)) -> fits h (TMap t) x
| fits_null t x : shows h x = Null -> fits h (TOpt t) x
| fits_some t x : shows h x <> Null -> fits h t x -> fits h (TOpt t) x
| fits_tuple ts x l : shows h x = Seq l -> List.length l <= List.length ts ->
    (forall i t, nth_error ts i = Some t -> fits h t (nth_error l i)) -> fits h (TTuple ts) x
| fits_fields names ts x l : shows h x = Map l ->
    (forall i t y, nth_error ts i = Some t -> named h (nth i names EmptyString) l y -> fits h t y) -> fits h (TStruct names ts) x
| fits_positions names ts x l : shows h x = Seq l -> List.length l <= List.length ts ->
    (forall i t, nth_error ts i = Some t -> fits h t (nth_error l i)) -> fits h (TStruct names ts) x.

(** The same of a patch: fields need not be there. *)
Inductive fits_patch (h : heap) : ty -> handle -> Prop :=
| patch_null t x : shows h x = Null -> fits_patch h (TOpt t) x
| patch_some t x : shows h x <> Null -> fits_patch h t x -> fits_patch h (TOpt t) x
| patch_fields names ts x l : shows h x = Map l ->
    (forall i t n, nth_error ts i = Some t -> named h (nth i names EmptyString) l (Some n) -> fits_patch h t (Some n)) ->
    fits_patch h (TStruct names ts) x
| patch_positions names ts x l : shows h x = Seq l -> fits h (TStruct names ts) x -> fits_patch h (TStruct names ts) x
| patch_other t x : (forall t', t <> TOpt t') -> (forall names ts, t <> TStruct names ts) -> fits h t x -> fits_patch h t x.

(** The object that the document [x] of [h] gives; its views show nodes of [h']. *)
Inductive made (h h' : heap) : ty -> handle -> value -> Prop :=
| made_string x s : shows h x = Scalar s -> made h h' TString x (VString s)
| made_view n : made h h' TView (Some n) (VView (Some n))
| made_new_view n : List.length (h_ref h) <= n < List.length (h_ref h') -> content_of h' n = Null -> made h h' TView None (VView (Some n))
| made_seq t x l vs : shows h x = Seq l -> List.length vs = List.length l ->
    (forall i n v, nth_error l i = Some n -> nth_error vs i = Some v -> made h h' t (Some n) v) -> made h h' (TSeq t) x (VSeq vs)
| made_map t x l es : shows h x = Map l -> NoDup (map fst es) ->
    (forall s, In s (map fst es) <-> exists n, named h s l (Some n)) ->
    (forall s v n, In (s, v) es -> named h s l (Some n) -> made h h' t (Some n) v) -> made h h' (TMap t) x (VMap es)
| made_null t x : shows h x = Null -> made h h' (TOpt t) x (VOpt None)
| made_some t x v : shows h x <> Null -> made h h' t x v -> made h h' (TOpt t) x (VOpt (Some v))
| made_tuple ts x l vs : shows h x = Seq l -> List.length vs = List.length ts ->
    (forall i t v, nth_error ts i = Some t -> nth_error vs i = Some v -> made h h' t (nth_error l i) v) ->
    made h h' (TTuple ts) x (VFixed vs)
| made_fields names ts x l vs : shows h x = Map l -> List.length vs = List.length ts ->
    (forall i t v y, nth_error ts i = Some t -> nth_error vs i = Some v -> named h (nth i names EmptyString) l y -> made h h' t y v) ->
    made h h' (TStruct names ts) x (VFixed vs)
| made_positions names ts x l vs : shows h x = Seq l -> List.length vs = List.length ts ->
    (forall i t v, nth_error ts i = Some t -> nth_error vs i = Some v -> made h h' t (nth_error l i) v) ->
    made h h' (TStruct names ts) x (VFixed vs).

(** Objects of a type. *)
Inductive object : ty -> value -> Prop :=
| object_string s : object TString (VString s)
| object_view x : object TView (VView x)
| object_seq t l : (forall v, In v l -> object t v) -> object (TSeq t) (VSeq l)
| object_map t l : (forall s v, In (s, v) l -> object t v) -> object (TMap t) (VMap l)
| object_none t : object (TOpt t) (VOpt None)
| object_some t v : object t v -> object (TOpt t) (VOpt (Some v))
| object_tuple ts vs : List.length vs = List.length ts ->
    (forall i t v, nth_error ts i = Some t -> nth_error vs i = Some v -> object t v) -> object (TTuple ts) (VFixed vs)
| object_struct names ts vs : List.length vs = List.length ts ->
    (forall i t v, nth_error ts i = Some t -> nth_error vs i = Some v -> object t v) -> object (TStruct names ts) (VFixed vs).
