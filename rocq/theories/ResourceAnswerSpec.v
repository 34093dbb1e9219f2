(** What every request is answered, what it leaves behind and what it announces:
    one relation for each method. *)
From Coq Require Import List NArith ZArith Arith Bool.
From Verif Require Import Base PathModel TrackerModel EnumModel SerialModel SerialSpec SerialDocSpec ResourceModel ResourceSpec.
From Verif Require TrackerSpec.
Import ListNotations.

Local Notation str := (list N) (only parsing).

(** [v'] is [v] with [x] in the place [loc]. *)
Inductive updated : val -> list step -> val -> val -> Prop :=
| up_here v x : updated v [] x x
| up_field pre y post loc x y' : updated y loc x y' ->
    updated (VRec (pre ++ y :: post)) (SField (length pre) :: loc) x (VRec (pre ++ y' :: post))
| up_some y loc x y' : updated y loc x y' -> updated (VSome y) (SSome :: loc) x (VSome y')
| up_index pre y post loc x y' : updated y loc x y' ->
    updated (VSeq (pre ++ y :: post)) (SIndex (length pre) :: loc) x (VSeq (pre ++ y' :: post))
| up_key pre k y post loc x y' : ~ In k (map fst pre) -> updated y loc x y' ->
    updated (VMap (pre ++ (k, y) :: post)) (SKey k :: loc) x (VMap (pre ++ (k, y') :: post)).

(* ------------------------------------------------------------------ *)
(** ** Protection *)

(** What a trail ends at must not be replaced: a read-only field, something in a
    read-only subtree, or something in the member that names an element. *)
Definition locked (tr : list (nkind * step)) (n : nkind) : Prop :=
  (exists a, n = NField a /\ a_read_only a = true) \/
  (exists a s, In (NField a, s) tr /\ a_subtree_read_only a = true) \/
  (exists k, In (NElem (Some k), SField k) tr).

(** No child may be added to or removed from it. *)
Definition children_locked (tr : list (nkind * step)) (n : nkind) : Prop :=
  locked tr n \/ exists a, n = NField a /\ a_subtree_read_only a = true.

(** An element that was found by a key keeps the key. *)
Definition same_identity (n : nkind) (old new : val) : Prop :=
  forall k, n = NElem (Some k) -> exists key, key_of k old = Some key /\ key_of k new = Some key.

(* ------------------------------------------------------------------ *)
(** ** Validation *)

Definition node := (ty * nkind * val)%type.

Definition field_nodes (f : ty -> nkind -> val -> list node) :=
  fix go (fs : list (attrs * ty)) (vs : list val) : list node :=
    match fs, vs with
    | (a, t) :: fs', v :: vs' => f t (NField a) v ++ go fs' vs'
    | _, _ => []
    end.

(** The nodes of a value in the order of validation: every node before its
    children. *)
Fixpoint nodes (t : ty) (n : nkind) (v : val) {struct t} : list node :=
  (t, n, v) ::
  match t, v with
  | TOpt t', VSome v' => nodes t' (NElem None) v'
  | TRec fs, VRec vs => field_nodes nodes fs vs
  | TMap t', VMap m => flat_map (fun kv => nodes t' (NElem None) (snd kv)) m
  | TSeq t', VSeq vs | TArr _ t', VSeq vs => flat_map (nodes t' (NElem None)) vs
  | _, _ => []
  end.

(** The validator of the node throws, or two of its elements have the same key. *)
Definition complains (E : env) (x : node) (e : rexn) : Prop :=
  let '(t, n, v) := x in
  hook E t v = Some e \/
  (hook E t v = None /\ e = XDuplicate /\
   exists ck vs, In ck (node_child_keys n) /\ v = VSeq vs /\ ~ distinct_keys (ck_member ck) vs).

(** The first node to complain does so with [e]. *)
Definition objection (E : env) (t : ty) (v : val) (e : rexn) : Prop :=
  exists pre x post, nodes t NRoot v = pre ++ x :: post /\
    (forall y e', In y pre -> ~ complains E y e') /\ complains E x e.

(** The value itself, or what is in the optional, is refused. *)
Inductive vetoed (E : env) : ty -> val -> rexn -> Prop :=
| veto_here t v e : hook E t v = Some e -> vetoed E t v e
| veto_inside t v e : hook E (TOpt t) (VSome v) = None -> vetoed E t v e -> vetoed E (TOpt t) (VSome v) e.

Definition unvetoed (E : env) (t : ty) (v : val) : Prop := forall e, ~ vetoed E t v e.

(** An element with a key of the candidate is already there. *)
Definition taken (n : nkind) (vs : list val) (c : val) : Prop :=
  exists ck x key, In ck (node_child_keys n) /\ In x vs /\
    key_of (ck_member ck) x = Some key /\ key_of (ck_member ck) c = Some key.

(* ------------------------------------------------------------------ *)
(** ** Answers *)

(** The request fails with an answer, or succeeds with a status, a new object and
    one announcement. *)
Inductive result :=
| Refused (a : answer)
| Done (s : status) (v : val) (where_ : list str) (whole : bool).

Definition failed (s : status) : result := Refused (Answer s []).

(** How an exception is answered.  A delete has no document that could be wrong. *)
Definition response (deleting : bool) (e : rexn) : result :=
  match e with
  | XNotFound | XNotTraversable => failed s_not_found
  | XValidation | XDuplicate => failed s_conflict
  | XDeser => if deleting then Refused (Escapes XDeser) else failed s_bad_request
  | XOther => Refused (Escapes XOther)
  | XUB => Refused (Escapes XUB)
  end.

(** The exception a reader threw. *)
Definition thrown (E : env) (e : exn) : rexn :=
  match e with EDeser => XDeser | ELogic => XOther | EUser => user_exn E | EStuck => XUB end.

Section WithEnv.
Context (E : env).

(** The last steps of every change: the object with [x] at [loc] is kept if all
    its nodes agree. *)
Inductive committed (t : ty) (v : val) (loc : list step) (x : val) (deleting : bool)
  (s : status) (where_ : list str) (whole : bool) : result -> Prop :=
| commit_refused v' e : updated v loc x v' -> objection E t v' e ->
    committed t v loc x deleting s where_ whole (response deleting e)
| commit_done v' : updated v loc x v' -> valid E t v' ->
    committed t v loc x deleting s where_ whole (Done s v' where_ whole).

Definition nowhere (t : ty) (v : val) (segs : list str) : Prop := ~ resolves t v segs.

(** GET *)
Inductive got (skip : bool) (t : ty) (v : val) (segs : list str) : answer -> Prop :=
| got_nothing : nowhere t v segs -> got skip t v segs (Answer s_not_found [])
| got_document loc t1 v1 j : refers t v segs loc t1 v1 -> doc (conv E) skip t1 None v1 j ->
    got skip t v segs (Answer s_ok (accept j))
| got_unwritable loc t1 v1 : refers t v segs loc t1 v1 -> (forall j, ~ doc (conv E) skip t1 None v1 j) ->
    got skip t v segs (Escapes XOther).

(** PUT and PATCH, by the reading relation. *)
Inductive written (R : ty -> json -> val -> val -> option exn -> Prop) (t : ty) (v : val) (segs : list str) (j : json)
  : result -> Prop :=
| written_nowhere : nowhere t v segs -> written R t v segs j (failed s_not_found)
| written_locked tr t1 n1 v1 : reaches t NRoot v segs tr t1 n1 v1 -> locked tr n1 ->
    written R t v segs j (failed s_method_not_allowed)
| written_unreadable tr t1 n1 v1 x e : reaches t NRoot v segs tr t1 n1 v1 -> ~ locked tr n1 ->
    R t1 j v1 x (Some e) -> written R t v segs j (response false (thrown E e))
| written_renamed tr t1 n1 v1 x : reaches t NRoot v segs tr t1 n1 v1 -> ~ locked tr n1 ->
    R t1 j v1 x None -> ~ same_identity n1 v1 x -> written R t v segs j (failed s_method_not_allowed)
| written_tried tr t1 n1 v1 x whole res : reaches t NRoot v segs tr t1 n1 v1 -> ~ locked tr n1 ->
    R t1 j v1 x None -> same_identity n1 v1 x -> (whole = true <-> ~ scalar t1) ->
    committed t v (map snd tr) x false s_ok segs whole res -> written R t v segs j res.

(** POST *)
Inductive posted (t : ty) (v : val) (segs : list str) (j : json) : result -> Prop :=
| posted_nowhere : nowhere t v segs -> posted t v segs j (failed s_not_found)
| posted_locked tr t1 n1 v1 : reaches t NRoot v segs tr t1 n1 v1 -> children_locked tr n1 ->
    posted t v segs j (failed s_method_not_allowed)
| posted_elsewhere tr t1 n1 v1 : reaches t NRoot v segs tr t1 n1 v1 -> (forall te, t1 <> TSeq te) ->
    posted t v segs j (failed s_method_not_allowed)
| posted_unreadable tr te n1 vs c e : reaches t NRoot v segs tr (TSeq te) n1 (VSeq vs) -> ~ children_locked tr n1 ->
    reads (conv E) te j (default_of te) c (Some e) -> posted t v segs j (response false (thrown E e))
| posted_taken tr te n1 vs c : reaches t NRoot v segs tr (TSeq te) n1 (VSeq vs) -> ~ children_locked tr n1 ->
    reads (conv E) te j (default_of te) c None -> taken n1 vs c -> posted t v segs j (failed s_conflict)
| posted_vetoed tr te n1 vs c e : reaches t NRoot v segs tr (TSeq te) n1 (VSeq vs) -> ~ children_locked tr n1 ->
    reads (conv E) te j (default_of te) c None -> ~ taken n1 vs c -> vetoed E te c e ->
    posted t v segs j (response false e)
| posted_tried tr te n1 vs c res : reaches t NRoot v segs tr (TSeq te) n1 (VSeq vs) -> ~ children_locked tr n1 ->
    reads (conv E) te j (default_of te) c None -> ~ taken n1 vs c -> unvetoed E te c ->
    committed t v (map snd tr) (VSeq (vs ++ [c])) false s_created segs true res -> posted t v segs j res.

(** Children can be deleted from maps and vectors; an array has children too. *)
Definition collection (t : ty) : Prop := (exists te, t = TMap te) \/ exists te, elements t te.

(** The segment could be the name of a child: any number is for a sequence
    without child keys. *)
Definition child_name (n : nkind) (v : val) (s : str) : Prop :=
  (exists m x, v = VMap m /\ In (s, x) m) \/
  (exists vs ck i, v = VSeq vs /\ key_name (node_child_keys n) vs s ck i) \/
  (exists vs i, v = VSeq vs /\ node_child_keys n = [] /\ index_name s i).

(** The collection [v] without the child called [s]. *)
Inductive without : ty -> nkind -> val -> str -> val -> Prop :=
| without_entry te n pre s x post : ~ In s (map fst pre) -> ~ In s (map fst post) ->
    without (TMap te) n (VMap (pre ++ (s, x) :: post)) s (VMap (pre ++ post))
| without_keyed te n pre x post s ck : key_name (node_child_keys n) (pre ++ x :: post) s ck (length pre) ->
    without (TSeq te) n (VSeq (pre ++ x :: post)) s (VSeq (pre ++ post))
| without_indexed te n pre x post s : node_child_keys n = [] -> index_name s (length pre) ->
    without (TSeq te) n (VSeq (pre ++ x :: post)) s (VSeq (pre ++ post)).

(** The path is that of a child of a collection. *)
Definition child_path (t : ty) (v : val) (segs : list str) : Prop :=
  exists pre s tr t1 n1 v1, segs = pre ++ [s] /\ reaches t NRoot v pre tr t1 n1 v1 /\ collection t1.

(** DELETE *)
Inductive deleted (t : ty) (v : val) (segs : list str) : result -> Prop :=
(* a child of a collection *)
| deleted_unnamed pre s tr t1 n1 v1 : segs = pre ++ [s] -> reaches t NRoot v pre tr t1 n1 v1 -> collection t1 ->
    ~ child_name n1 v1 s -> deleted t v segs (failed s_not_found)
| deleted_kept pre s tr t1 n1 v1 : segs = pre ++ [s] -> reaches t NRoot v pre tr t1 n1 v1 -> collection t1 ->
    child_name n1 v1 s -> children_locked tr n1 \/ (exists k te, t1 = TArr k te) ->
    deleted t v segs (failed s_method_not_allowed)
| deleted_beyond pre s tr te n1 vs i : segs = pre ++ [s] -> reaches t NRoot v pre tr (TSeq te) n1 (VSeq vs) ->
    ~ children_locked tr n1 -> node_child_keys n1 = [] -> index_name s i -> length vs <= i ->
    deleted t v segs (failed s_not_found)
| deleted_tried pre s tr t1 n1 v1 x res : segs = pre ++ [s] -> reaches t NRoot v pre tr t1 n1 v1 ->
    ~ children_locked tr n1 -> without t1 n1 v1 s x ->
    committed t v (map snd tr) x true s_no_content pre true res -> deleted t v segs res
(* anything else *)
| deleted_nowhere : ~ child_path t v segs -> nowhere t v segs -> deleted t v segs (failed s_not_found)
| deleted_locked tr t1 n1 v1 : ~ child_path t v segs -> reaches t NRoot v segs tr t1 n1 v1 ->
    locked tr n1 \/ (forall te, t1 <> TOpt te) -> deleted t v segs (failed s_method_not_allowed)
| deleted_vetoed tr te n1 v1 e : ~ child_path t v segs -> reaches t NRoot v segs tr (TOpt te) n1 v1 -> ~ locked tr n1 ->
    ((exists x, v1 = VSome x /\ vetoed E te x e) \/
     ((forall x, v1 = VSome x -> unvetoed E te x) /\ hook E (TOpt te) VNone = Some e)) ->
    deleted t v segs (response true e)
| deleted_reset tr te n1 v1 whole res : ~ child_path t v segs -> reaches t NRoot v segs tr (TOpt te) n1 v1 -> ~ locked tr n1 ->
    (forall x, v1 = VSome x -> unvetoed E te x) -> hook E (TOpt te) VNone = None ->
    (whole = true <-> exists fs, te = TRec fs) ->
    committed t v (map snd tr) VNone true s_no_content segs whole res -> deleted t v segs res.

(** The request [q] about [segs] gets the answer [a] and leaves [v'], and [evs] is
    announced. *)
Definition left_with (v : val) (res : result) (a : answer) (v' : val) (evs : list TrackerSpec.event) : Prop :=
  match res with
  | Refused a' => a = a' /\ v' = v /\ evs = []
  | Done s w where_ whole => a = Answer s [] /\ v' = w /\ evs = [TrackerSpec.mkevent where_ whole]
  end.

Definition settled (t : ty) (v : val) (q : request) (segs : list str) (a : answer) (v' : val)
  (evs : list TrackerSpec.event) : Prop :=
  match q with
  | Get skip _ => got skip t v segs a /\ v' = v /\ evs = []
  | Put _ j => exists res, written (reads (conv E)) t v segs j res /\ left_with v res a v' evs
  | Patch _ j => exists res, written (patched (conv E)) t v segs j res /\ left_with v res a v' evs
  | Post _ j => exists res, posted t v segs j res /\ left_with v res a v' evs
  | Delete _ => exists res, deleted t v segs res /\ left_with v res a v' evs
  end.

(** A history of requests. *)
Inductive history (t : ty) : val -> list request -> list answer -> val -> list TrackerSpec.event -> Prop :=
| history_nil v : history t v [] [] v []
| history_cons v q segs a v1 evs qs l v2 evs' : at_path q segs -> settled t v q segs a v1 evs ->
    history t v1 qs l v2 evs' -> history t v (q :: qs) (a :: l) v2 (evs ++ evs').

End WithEnv.
