(** Vocabulary for the resource properties: what a path refers to, which nodes a
    value has, which schemas name their elements well. *)
From Coq Require Import List NArith ZArith Arith Bool.
From Verif Require Import Base PathModel TrackerModel EnumModel SerialModel SerialSpec ResourceModel.
From Verif Require TextSpec TrackerSpec.
Import ListNotations.

Local Notation str := (list N) (only parsing).

(* ------------------------------------------------------------------ *)
(** ** What a path refers to *)

(** [t] is a sequence of [te]. *)
Definition elements (t te : ty) : Prop := t = TSeq te \/ exists k, t = TArr k te.

(** The text is a number below 2^64, possibly with leading zeros. *)
Definition index_name (s : str) (i : nat) : Prop :=
  TextSpec.decimal s /\ TextSpec.numeral s = N.of_nat i /\ (N.of_nat i < 2 ^ 64)%N.

(** The segment is a name of the element. *)
Definition matches (ck : ckey) (e : val) (s : str) : Prop :=
  exists k, key_of (ck_member ck) e = Some k /\
    match ck_match ck with Some f => f e k s = true | None => k = VStr s end.

(** The [i]-th element is the first one that the key [ck] matches, and the keys
    declared before [ck] match none. *)
Definition key_name (cks : list ckey) (vs : list val) (s : str) (ck : ckey) (i : nat) : Prop :=
  exists before after, cks = before ++ ck :: after /\
    (exists e, nth_error vs i = Some e /\ matches ck e s) /\
    (forall j e, j < i -> nth_error vs j = Some e -> ~ matches ck e s) /\
    (forall c e, In c before -> In e vs -> ~ matches c e s).

(** The nodes a path goes through, each with the step taken from it. *)
Notation trail := (list (nkind * step)) (only parsing).

(** From the node [n] of type [t] holding [v] the segments lead to the node [n']
    of type [t'] holding [v']. *)
Inductive reaches : ty -> nkind -> val -> list str -> trail -> ty -> nkind -> val -> Prop :=
| reach_here t n v : reaches t n v [] [] t n v
| reach_field fs n vs i a t v segs tr t' n' v' :
    nth_error fs i = Some (a, t) -> nth_error vs i = Some v ->
    (forall j b u, j < i -> nth_error fs j = Some (b, u) -> serialized_name b <> serialized_name a) ->
    reaches t (NField a) v segs tr t' n' v' ->
    reaches (TRec fs) n (VRec vs) (serialized_name a :: segs) ((n, SField i) :: tr) t' n' v'
| reach_some t n v s segs tr t' n' v' :
    reaches t (NElem None) v (s :: segs) tr t' n' v' ->
    reaches (TOpt t) n (VSome v) (s :: segs) ((n, SSome) :: tr) t' n' v'
| reach_entry t n m s v segs tr t' n' v' :
    In (s, v) m -> reaches t (NElem None) v segs tr t' n' v' ->
    reaches (TMap t) n (VMap m) (s :: segs) ((n, SKey s) :: tr) t' n' v'
| reach_index t te n vs s i v segs tr t' n' v' :
    elements t te -> node_child_keys n = [] -> index_name s i -> nth_error vs i = Some v ->
    reaches te (NElem None) v segs tr t' n' v' ->
    reaches t n (VSeq vs) (s :: segs) ((n, SIndex i) :: tr) t' n' v'
| reach_keyed t te n vs s ck i v segs tr t' n' v' :
    elements t te -> key_name (node_child_keys n) vs s ck i -> nth_error vs i = Some v ->
    reaches te (NElem (Some (ck_member ck))) v segs tr t' n' v' ->
    reaches t n (VSeq vs) (s :: segs) ((n, SIndex i) :: tr) t' n' v'.

(** In the object [v] the path [segs] refers to the value [v'] at [loc]. *)
Definition refers (t : ty) (v : val) (segs : list str) (loc : list step) (t' : ty) (v' : val) : Prop :=
  exists tr n', reaches t NRoot v segs tr t' n' v' /\ loc = map snd tr.

Definition resolves (t : ty) (v : val) (segs : list str) : Prop := exists loc t' v', refers t v segs loc t' v'.

(** The path refers to a read-only field, or passes through a field whose
    subtree is read-only. *)
Definition protected (t : ty) (v : val) (segs : list str) : Prop :=
  exists tr t' n' v', reaches t NRoot v segs tr t' n' v' /\
    ((exists a, n' = NField a /\ a_read_only a = true) \/
     (exists a s, In (NField a, s) tr /\ a_subtree_read_only a = true)).

(** The path refers to a field whose subtree is read-only. *)
Definition subtree_protected (t : ty) (v : val) (segs : list str) : Prop :=
  exists tr t' a v', reaches t NRoot v segs tr t' (NField a) v' /\ a_subtree_read_only a = true.

(** One location is the other or inside it. *)
Definition inside (loc loc' : list step) : Prop := exists rest, loc = loc' ++ rest.

(* ------------------------------------------------------------------ *)
(** ** Schemas *)

(** Something holds of every field that can be addressed. *)
Fixpoint every_field (P : attrs -> ty -> Prop) (t : ty) : Prop :=
  match t with
  | TOpt t' | TSeq t' | TArr _ t' | TMap t' => every_field P t'
  | TRec fs => all1 (fun f => P (fst f) (snd f) /\ every_field P (snd f)) fs
  | _ => True
  end.

(** Child keys are declared on sequences of structs and name members of the
    struct; without a matcher the member is a string. *)
Definition keys_ok (a : attrs) (t : ty) : Prop :=
  a_child_keys a = [] \/
  exists fs, elements t (TRec fs) /\
    forall ck, In ck (a_child_keys a) ->
      exists f, nth_error fs (ck_member ck) = Some f /\ (ck_match ck = None -> snd f = TStr).

(** The type compiles. *)
Definition schema (t : ty) : Prop := wf t /\ every_field keys_ok t.

(** A matcher looks at the key only. *)
Definition key_only (ck : ckey) : Prop :=
  forall f, ck_match ck = Some f -> forall e e' k s, f e k s = f e' k s.

(** A key has one name. *)
Definition one_name (ck : ckey) : Prop :=
  forall f, ck_match ck = Some f -> forall e k s s', f e k s = true -> f e k s' = true -> s = s'.

(** Every collection has at most one child key, whose matcher looks at the key
    only. *)
Definition steady : ty -> Prop :=
  every_field (fun a _ => length (a_child_keys a) <= 1 /\ forall ck, In ck (a_child_keys a) -> key_only ck).

Definition exactly_named : ty -> Prop :=
  every_field (fun a _ => forall ck, In ck (a_child_keys a) -> one_name ck).

(** No numeral in the path has a leading zero. *)
Definition canonical (segs : list str) : Prop :=
  forall s, In s segs -> TextSpec.decimal s -> forall d rest, s = d :: rest -> d = 48%N -> rest = [].

(** The types whose values have nothing that could be addressed in them. *)
Definition scalar (t : ty) : Prop :=
  match t with TRec _ | TOpt _ | TMap _ | TSeq _ | TArr _ _ => False | _ => True end.

(* ------------------------------------------------------------------ *)
(** ** Validity *)

(** The nodes in a value. *)
Inductive within : ty -> nkind -> val -> ty -> nkind -> val -> Prop :=
| within_self t n v : within t n v t n v
| within_field fs n vs i a t v t' n' v' :
    nth_error fs i = Some (a, t) -> nth_error vs i = Some v ->
    within t (NField a) v t' n' v' -> within (TRec fs) n (VRec vs) t' n' v'
| within_some t n v t' n' v' :
    within t (NElem None) v t' n' v' -> within (TOpt t) n (VSome v) t' n' v'
| within_entry t n m k v t' n' v' :
    In (k, v) m -> within t (NElem None) v t' n' v' -> within (TMap t) n (VMap m) t' n' v'
| within_element t te n vs v t' n' v' :
    elements t te -> In v vs -> within te (NElem None) v t' n' v' -> within t n (VSeq vs) t' n' v'.

Definition distinct_keys (k : nat) (vs : list val) : Prop :=
  forall i j x y kx, i <> j -> nth_error vs i = Some x -> nth_error vs j = Some y ->
    key_of k x = Some kx -> key_of k y <> Some kx.

(** The validators of all parts accept them, and the child keys of all keyed
    collections are unique. *)
Definition valid (E : env) (t : ty) (v : val) : Prop :=
  forall t' n' v', within t NRoot v t' n' v' ->
    hook E t' v' = None /\
    forall ck, In ck (node_child_keys n') -> exists vs, v' = VSeq vs /\ distinct_keys (ck_member ck) vs.

(* ------------------------------------------------------------------ *)
(** ** Requests *)

Definition path_of (q : request) : path_view :=
  match q with Get _ p | Put p _ | Post p _ | Patch p _ | Delete p => p end.

Definition modifying (q : request) : Prop := match q with Get _ _ => False | _ => True end.

(** The request is about the location [segs]. *)
Definition at_path (q : request) (segs : list str) : Prop := TrackerSpec.denotes (path_of q) segs.

(** Requests with well-formed paths. *)
Definition well_formed (q : request) : Prop := exists segs, at_path q segs.

(** The exceptions the program's validators throw are not undefined behaviour. *)
Definition sound_env (E : env) : Prop := user_exn E <> XUB /\ forall t v, hook E t v <> Some XUB.

(** The request asks to delete an optional collection. *)
Definition resets_collection (t : ty) (v : val) (q : request) : Prop :=
  exists p segs loc te v', q = Delete p /\ TrackerSpec.denotes p segs /\ refers t v segs loc (TOpt te) v' /\
    match te with TOpt _ | TMap _ | TSeq _ | TArr _ _ => True | _ => False end.

(** None of the requests does so when its turn comes. *)
Fixpoint keeps_collections (E : env) (t : ty) (r : resource) (qs : list request) : Prop :=
  match qs with
  | [] => True
  | q :: qs' => ~ resets_collection t (value r) q /\ keeps_collections E t (fst (perform E t r q)) qs'
  end.

(** The request's path has no numeral with leading zeros. *)
Definition canonical_request (q : request) : Prop := exists segs, at_path q segs /\ canonical segs.

(** [loc] is an element of a sequence and [loc'] is or is in a later element of
    the same sequence. *)
Definition later_element (loc loc' : list step) : Prop :=
  exists cloc i j rest, loc = cloc ++ [SIndex i] /\ i < j /\ loc' = cloc ++ SIndex j :: rest.

(** The children of the collection at [pre] have names of their own: it is a
    map, or it has a child key. *)
Definition named_children (t : ty) (v : val) (pre : list str) : Prop :=
  exists tr t' n' v', reaches t NRoot v pre tr t' n' v' /\ (node_child_keys n' <> [] \/ exists te, t' = TMap te).

(** No field collects extra members, and where the library checks the declared
    names are distinct. *)
Fixpoint extra_free (t : ty) : Prop :=
  match t with
  | TOpt t' | TSeq t' | TArr _ t' | TMap t' => extra_free t'
  | TTup ts => all1 extra_free ts
  | TRec fs =>
      (any_extra_or_flatten fs = true -> distinct_names t) /\
      all1 (fun f => a_extra (fst f) = false /\ extra_free (snd f)) fs
  | _ => True
  end.
