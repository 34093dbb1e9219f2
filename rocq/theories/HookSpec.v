(** Vocabulary for validators that are any functions: which ones modify nothing,
    which ones only tidy up single values, why a request is refused. *)
From Coq Require Import String List NArith ZArith Arith Bool.
From Verif Require Import Base PathModel TrackerModel EnumModel SerialModel SerialSpec ResourceModel ResourceSpec
  ResourceAnswerSpec HookModel.
From Verif Require Base64Spec.
Import ListNotations.

Local Notation str := (list N) (only parsing).

(* ------------------------------------------------------------------ *)
(** ** Answers without their texts *)

Definition kind_of (e : hexn) : rexn :=
  match e with
  | HNotFound => XNotFound
  | HNotTraversable => XNotTraversable
  | HValidation _ => XValidation
  | HDuplicate _ => XDuplicate
  | HDeser => XDeser
  | HOther => XOther
  | HUB => XUB
  end.

Definition answer_of (a : hanswer) : answer :=
  match a with
  | HAnswer s (Dumped es) => Answer s es
  | HAnswer s (Text _) => Answer s []
  | HEscapes e => Escapes (kind_of e)
  end.

(** [m] is the part of [what] before the first zero. *)
Definition shown (what m : str) : Prop :=
  ~ In 0%N m /\ (what = m \/ exists rest, what = m ++ 0%N :: rest).

(** The exception is answered with the text [m]. *)
Definition conflicts (m : str) (e : hexn) : Prop := exists what, (e = HValidation what \/ e = HDuplicate what) /\ shown what m.

Section Validators.
Context {W : Type}.
Context (E : henv W).

(** The validators modify nothing; what they say may depend on other things. *)
Definition quiet : Prop := forall t w v w' v' e, hhook E t w v = (w', v', e) -> v' = v.

(** They say [P], always. *)
Definition pure (P : ty -> val -> option hexn) : Prop := forall t w v, exists w', hhook E t w v = (w', v, P t v).

(** Whatever else happens, the validator leaves the value as it is. *)
Definition unmodified (t : ty) (v : val) : Prop := forall w w' v' e, hhook E t w v = (w', v', e) -> v' = v.

(** The validators of structs, optionals and collections modify nothing. *)
Definition leaf_only : Prop := forall t v, ~ scalar t -> unmodified t v.

(** What a validator has accepted it does not modify again. *)
Definition settles : Prop := forall t w v w' v', hhook E t w v = (w', v', None) -> unmodified t v'.

(** Values stay in their C++ types. *)
Definition keeps_types : Prop := forall t w v w' v' e, hhook E t w v = (w', v', e) -> typed t v -> typed t v'.

(** No validator would modify any part of the object. *)
Definition at_rest (t : ty) (v : val) : Prop :=
  forall t' n' v', within t NRoot v t' n' v' -> unmodified t' v'.

(** [y] is [x] after every single value in it has passed its validator. *)
Inductive tidied : ty -> val -> val -> Prop :=
| tidied_leaf t w x w' y : scalar t -> hhook E t w x = (w', y, None) -> tidied t x y
| tidied_none t : tidied (TOpt t) VNone VNone
| tidied_some t x y : tidied t x y -> tidied (TOpt t) (VSome x) (VSome y)
| tidied_elements t te xs ys : elements t te -> Forall2 (tidied te) xs ys -> tidied t (VSeq xs) (VSeq ys)
| tidied_map t xs ys : Forall2 (fun a b => fst b = fst a /\ tidied t (snd a) (snd b)) xs ys ->
    tidied (TMap t) (VMap xs) (VMap ys)
| tidied_struct fs xs ys : List.length xs = List.length fs -> List.length ys = List.length fs ->
    (forall i a t x y, nth_error fs i = Some (a, t) -> nth_error xs i = Some x -> nth_error ys i = Some y ->
       tidied t x y) ->
    tidied (TRec fs) (VRec xs) (VRec ys).

End Validators.

(* ------------------------------------------------------------------ *)
(** ** Why a request is refused *)

Section Reasons.
Context (P : ty -> val -> option hexn).

Definition same_key_twice : hexn := HDuplicate (Base64Spec.codes "duplicate child key").

(** The validator of the node throws, or two of its elements have the same key. *)
Definition complains_with (x : node) (e : hexn) : Prop :=
  let '(t, n, v) := x in
  P t v = Some e \/
  (P t v = None /\ e = same_key_twice /\
   exists ck vs, In ck (node_child_keys n) /\ v = VSeq vs /\ ~ distinct_keys (ck_member ck) vs).

(** The first node to complain, parents before children, does so with [e]. *)
Definition objects (t : ty) (v : val) (e : hexn) : Prop :=
  exists pre x post, nodes t NRoot v = pre ++ x :: post /\
    (forall y e', In y pre -> ~ complains_with y e') /\ complains_with x e.

(** The value itself, or what is in the optional, is refused. *)
Inductive vetoed_with : ty -> val -> hexn -> Prop :=
| veto_with_here t v e : P t v = Some e -> vetoed_with t v e
| veto_with_inside t v e : P (TOpt t) (VSome v) = None -> vetoed_with t v e -> vetoed_with (TOpt t) (VSome v) e.

Definition unvetoed_by (t : ty) (v : val) : Prop := forall e, ~ vetoed_with t v e.

Context (cv : backend) (u : hexn).

(** The request about [segs] on the object [v] is refused because of [e]: a
    validator of the document throws [u], a key is taken, the candidate is vetoed,
    or the object would be refused with the change made. *)
Inductive reason (t : ty) (v : val) (segs : list str) : request -> hexn -> Prop :=
| reason_put_document p j tr t1 n1 v1 x : reaches t NRoot v segs tr t1 n1 v1 -> ~ locked tr n1 ->
    deser cv t1 j v1 = (x, Some EUser) -> reason t v segs (Put p j) u
| reason_put p j tr t1 n1 v1 x v' e : reaches t NRoot v segs tr t1 n1 v1 -> ~ locked tr n1 ->
    deser cv t1 j v1 = (x, None) -> same_identity n1 v1 x ->
    updated v (map snd tr) x v' -> objects t v' e -> reason t v segs (Put p j) e
| reason_patch_document p j tr t1 n1 v1 x : reaches t NRoot v segs tr t1 n1 v1 -> ~ locked tr n1 ->
    patch cv t1 j v1 = (x, Some EUser) -> reason t v segs (Patch p j) u
| reason_patch p j tr t1 n1 v1 x v' e : reaches t NRoot v segs tr t1 n1 v1 -> ~ locked tr n1 ->
    patch cv t1 j v1 = (x, None) -> same_identity n1 v1 x ->
    updated v (map snd tr) x v' -> objects t v' e -> reason t v segs (Patch p j) e
| reason_post_document p j tr te n1 vs c : reaches t NRoot v segs tr (TSeq te) n1 (VSeq vs) -> ~ children_locked tr n1 ->
    deser cv te j (default_of te) = (c, Some EUser) -> reason t v segs (Post p j) u
| reason_post_taken p j tr te n1 vs c : reaches t NRoot v segs tr (TSeq te) n1 (VSeq vs) -> ~ children_locked tr n1 ->
    deser cv te j (default_of te) = (c, None) -> taken n1 vs c -> reason t v segs (Post p j) same_key_twice
| reason_post_vetoed p j tr te n1 vs c e : reaches t NRoot v segs tr (TSeq te) n1 (VSeq vs) -> ~ children_locked tr n1 ->
    deser cv te j (default_of te) = (c, None) -> ~ taken n1 vs c -> vetoed_with te c e -> reason t v segs (Post p j) e
| reason_post p j tr te n1 vs c v' e : reaches t NRoot v segs tr (TSeq te) n1 (VSeq vs) -> ~ children_locked tr n1 ->
    deser cv te j (default_of te) = (c, None) -> ~ taken n1 vs c -> unvetoed_by te c ->
    updated v (map snd tr) (VSeq (vs ++ [c])) v' -> objects t v' e -> reason t v segs (Post p j) e
| reason_delete_child p pre s tr t1 n1 v1 x v' e : segs = pre ++ [s] -> reaches t NRoot v pre tr t1 n1 v1 ->
    ~ children_locked tr n1 -> without t1 n1 v1 s x -> updated v (map snd tr) x v' -> objects t v' e ->
    reason t v segs (Delete p) e
| reason_reset_content p tr te n1 x e : ~ child_path t v segs -> reaches t NRoot v segs tr (TOpt te) n1 (VSome x) ->
    ~ locked tr n1 -> vetoed_with te x e -> reason t v segs (Delete p) e
| reason_reset_none p tr te n1 v1 e : ~ child_path t v segs -> reaches t NRoot v segs tr (TOpt te) n1 v1 ->
    ~ locked tr n1 -> (forall x, v1 = VSome x -> unvetoed_by te x) -> P (TOpt te) VNone = Some e ->
    reason t v segs (Delete p) e
| reason_reset p tr te n1 v1 v' e : ~ child_path t v segs -> reaches t NRoot v segs tr (TOpt te) n1 v1 ->
    ~ locked tr n1 -> (forall x, v1 = VSome x -> unvetoed_by te x) -> P (TOpt te) VNone = None ->
    updated v (map snd tr) VNone v' -> objects t v' e -> reason t v segs (Delete p) e.

End Reasons.

(* ------------------------------------------------------------------ *)
(** ** What successful requests do when validators tidy up single values *)

Section Landing.
Context {W : Type}.
Context (E : henv W).

(** The request about [segs] on [v] replaces the part at [loc] by [y]. *)
Inductive lands (t : ty) (v : val) (segs : list str) : request -> list step -> val -> Prop :=
| lands_put p j tr t1 n1 v1 x y : reaches t NRoot v segs tr t1 n1 v1 -> deser (hconv E) t1 j v1 = (x, None) ->
    tidied E t1 x y -> lands t v segs (Put p j) (map snd tr) y
| lands_patch p j tr t1 n1 v1 x y : reaches t NRoot v segs tr t1 n1 v1 -> patch (hconv E) t1 j v1 = (x, None) ->
    tidied E t1 x y -> lands t v segs (Patch p j) (map snd tr) y
| lands_post p j tr te n1 vs c c' : reaches t NRoot v segs tr (TSeq te) n1 (VSeq vs) ->
    deser (hconv E) te j (default_of te) = (c, None) -> tidied E te c c' ->
    lands t v segs (Post p j) (map snd tr) (VSeq (vs ++ [c']))
| lands_child p pre s tr t1 n1 v1 y : segs = pre ++ [s] -> reaches t NRoot v pre tr t1 n1 v1 -> without t1 n1 v1 s y ->
    lands t v segs (Delete p) (map snd tr) y
| lands_none p tr te n1 v1 : reaches t NRoot v segs tr (TOpt te) n1 v1 -> lands t v segs (Delete p) (map snd tr) VNone.

End Landing.
