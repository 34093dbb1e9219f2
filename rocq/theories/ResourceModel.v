(** kl/resource_op.hpp, kl/resource_attributes.hpp and the [resource] of
    kl/resource.hpp:125-141: HTTP-like operations on a reflected object.

    Types, values and fields are those of SerialModel.  [TSeq] is [std::vector]
    or [std::deque] here: a list has no [at], and a range without one that has no
    child key is not modelled.  A child key is a reflected member and its
    [operator==] is taken to be equality of values, which is not so for floating
    point members.  The texts of conflict answers are not modelled.
    [validate_resource] is a function of the type and the value: one that
    modifies the value or depends on other state is not modelled.  Failing
    allocations are not modelled. *)
From Coq Require Import List NArith ZArith Arith Bool.
From Verif Require Import Base PathModel TrackerModel EnumModel SerialModel.
From Verif Require TextModel.
Import ListNotations.

Local Notation str := (list N) (only parsing).

(** Equality of values. *)
Fixpoint val_eqb (a b : val) {struct a} : bool :=
  match a, b with
  | VBool x, VBool y => Bool.eqb x y
  | VInt x, VInt y => Z.eqb x y
  | VDbl x, VDbl y => N.eqb x y
  | VFlt x, VFlt y => N.eqb x y
  | VStr x, VStr y => str_eqb x y
  | VNone, VNone => true
  | VSome x, VSome y => val_eqb x y
  | VSeq xs, VSeq ys | VRec xs, VRec ys =>
      (fix go (l m : list val) : bool :=
         match l, m with
         | [], [] => true
         | x :: l', y :: m' => val_eqb x y && go l' m'
         | _, _ => false
         end) xs ys
  | VMap xs, VMap ys =>
      (fix go (l m : list (str * val)) : bool :=
         match l, m with
         | [], [] => true
         | (k, x) :: l', (k', y) :: m' => str_eqb k k' && val_eqb x y && go l' m'
         | _, _ => false
         end) xs ys
  | _, _ => false
  end.

(* ------------------------------------------------------------------ *)
(** ** References into an object *)

(** A reference to a part of the root object, as the way to it. *)
Inductive step :=
| SField (i : nat)
| SSome
| SIndex (i : nat)
| SKey (k : str).

(** The referenced part. *)
Fixpoint get_at (v : val) (loc : list step) : option val :=
  match loc with
  | [] => Some v
  | s :: loc' =>
      match s, v with
      | SField i, VRec vs => match nth_error vs i with Some x => get_at x loc' | None => None end
      | SSome, VSome x => get_at x loc'
      | SIndex i, VSeq vs => match nth_error vs i with Some x => get_at x loc' | None => None end
      | SKey k, VMap m => match map_find k m with Some x => get_at x loc' | None => None end
      | _, _ => None
      end
  end.

Fixpoint set_nth (i : nat) (x : val) (l : list val) : list val :=
  match l, i with
  | [], _ => []
  | _ :: l', O => x :: l'
  | y :: l', S i' => y :: set_nth i' x l'
  end.

(** The object after assigning to the referenced part. *)
Fixpoint set_at (v : val) (loc : list step) (x : val) : val :=
  match loc with
  | [] => x
  | s :: loc' =>
      match s, v with
      | SField i, VRec vs =>
          match nth_error vs i with Some y => VRec (set_nth i (set_at y loc' x) vs) | None => v end
      | SSome, VSome y => VSome (set_at y loc' x)
      | SIndex i, VSeq vs =>
          match nth_error vs i with Some y => VSeq (set_nth i (set_at y loc' x) vs) | None => v end
      | SKey k, VMap m =>
          match map_find k m with Some y => VMap (map_assign k (set_at y loc' x) m) | None => v end
      | _, _ => v
      end
  end.

(* ------------------------------------------------------------------ *)
(** ** Nodes *)

(** 148-277 [field_node], [root_node], [element_node<T, ChildKeyPtr>]. *)
Inductive nkind :=
| NRoot
| NField (a : attrs)
| NElem (key : option nat).

(** [Node::has_attribute<...>()] *)
Definition node_read_only_attr (n : nkind) : bool := match n with NField a => a_read_only a | _ => false end.
Definition node_subtree_attr (n : nkind) : bool := match n with NField a => a_subtree_read_only a | _ => false end.

(** [node.visit_attributes<child_key_base_t>] *)
Definition node_child_keys (n : nkind) : list ckey := match n with NField a => a_child_keys a | _ => [] end.

(** 171-175, 211-215, 253-263 [is_immutable_child]; the address of the field is
    that of the key when it is the same member. *)
Definition is_immutable_child (n : nkind) (i : nat) : bool :=
  match n with NElem (Some k) => i =? k | _ => false end.

(** [element.*(attr.ptr)] *)
Definition key_of (i : nat) (v : val) : option val :=
  match v with VRec vs => nth_error vs i | _ => None end.

Definition same_key (i : nat) (v w : val) : bool :=
  match key_of i v, key_of i w with Some x, Some y => val_eqb x y | _, _ => false end.

(** 177-181, 217-221, 266-273 [preserves_identity] *)
Definition preserves_identity (n : nkind) (old candidate : val) : bool :=
  match n with NElem (Some k) => same_key k old candidate | _ => true end.

(** 27-61 [access_context] *)
Record access := mkaccess { subtree_read_only : bool; ctx_node_read_only : bool }.
Definition access0 := mkaccess false false.

Definition is_node_read_only (c : access) (n : nkind) : bool :=
  node_read_only_attr n || subtree_read_only c || ctx_node_read_only c.
Definition is_child_node_read_only (c : access) (n : nkind) : bool :=
  is_node_read_only c n || node_subtree_attr n.

(** 47-52 [update(node)] *)
Definition update (c : access) (n : nkind) : access :=
  mkaccess (subtree_read_only c || node_subtree_attr n) (ctx_node_read_only c).
(** 54-60 [update(node, field)] *)
Definition update_field (c : access) (n : nkind) (i : nat) : access :=
  let c' := update c n in
  mkaccess (subtree_read_only c') (ctx_node_read_only c' || is_immutable_child n i).

(** Exceptions of interest.  [XUB] stands for reaching undefined behaviour. *)
Inductive rexn := XNotFound | XNotTraversable | XValidation | XDuplicate | XDeser | XOther | XUB.

(** 106-119, 142-146 [key_matches]; the default needs a key convertible to a
    string view. *)
Definition key_matches (ck : ckey) (element : val) (segment : str) : bool :=
  match key_of (ck_member ck) element with
  | Some key =>
      match ck_match ck with
      | Some f => f element key segment
      | None => match key with VStr s => str_eqb s segment | _ => false end
      end
  | None => false
  end.

Fixpoint find_index {A} (p : A -> bool) (l : list A) : option nat :=
  match l with
  | [] => None
  | x :: l' => if p x then Some 0 else option_map S (find_index p l')
  end.

(** 579-599: the attributes in turn, for each the first element that matches. *)
Fixpoint find_keyed (cks : list ckey) (vs : list val) (segment : str) : option (ckey * nat) :=
  match cks with
  | [] => None
  | ck :: cks' =>
      match find_index (fun e => key_matches ck e segment) vs with
      | Some i => Some (ck, i)
      | None => find_keyed cks' vs segment
      end
  end.

(* ------------------------------------------------------------------ *)
(** ** Traversal *)

(** What the visitor is called with; [pl_val] is [node.value()], [pl_loc] says
    where in the root it is. *)
Record place := mkplace {
  pl_loc : list step;
  pl_ty : ty;
  pl_node : nkind;
  pl_val : val;
  pl_rest : path_view;
  pl_ctx : access
}.

Inductive found := Visit (p : place) | Fail (e : rexn).

Definition below (s : step) (f : found) : found :=
  match f with
  | Visit p => Visit (mkplace (s :: pl_loc p) (pl_ty p) (pl_node p) (pl_val p) (pl_rest p) (pl_ctx p))
  | Fail e => Fail e
  end.

(** 519-535: the first field with the name. *)
Definition visit_fields (f : nat -> attrs -> ty -> val -> found) (segment : str) :=
  fix go (i : nat) (fs : list (attrs * ty)) (vs : list val) : found :=
    match fs, vs with
    | [], [] => Fail XNotFound
    | (a, t) :: fs', v :: vs' =>
        if str_eqb segment (serialized_name a) then below (SField i) (f i a t v) else go (S i) fs' vs'
    | _, _ => Fail XUB
    end.

(** 505-638 [visit_node] *)
Fixpoint visit_node (t : ty) (n : nkind) (v : val) (path : path_view) (stop : nat) (c : access) {struct t} : found :=
  if view_size path =? stop then Visit (mkplace [] t n v path c)
  else
    match view_front path with
    | Ok segment =>
        match t, v with
        | TRec fs, VRec vs =>
            match drop_front path with
            | Ok path' =>
                visit_fields (fun i a t' v' => visit_node t' (NField a) v' path' stop (update_field c n i)) segment 0 fs vs
            | _ => Fail XUB
            end
        | TOpt t', VNone => Fail XNotFound
        | TOpt t', VSome v' => below SSome (visit_node t' (NElem None) v' path stop (update c n))
        | TMap t', VMap m =>
            match map_find segment m, drop_front path with
            | None, _ => Fail XNotFound
            | Some v', Ok path' => below (SKey segment) (visit_node t' (NElem None) v' path' stop (update c n))
            | _, _ => Fail XUB
            end
        | TSeq t', VSeq vs | TArr _ t', VSeq vs =>
            match drop_front path with
            | Ok path' =>
                match node_child_keys n with
                | [] =>
                    match TextModel.parse_index segment with
                    | None => Fail XNotFound
                    | Some i =>
                        match nth_error vs (N.to_nat i) with
                        | None => Fail XNotFound
                        | Some v' =>
                            below (SIndex (N.to_nat i)) (visit_node t' (NElem None) v' path' stop (update c n))
                        end
                    end
                | cks =>
                    match find_keyed cks vs segment with
                    | None => Fail XNotFound
                    | Some (ck, i) =>
                        match nth_error vs i with
                        | Some v' =>
                            below (SIndex i) (visit_node t' (NElem (Some (ck_member ck))) v' path' stop (update c n))
                        | None => Fail XUB
                        end
                    end
                end
            | _ => Fail XUB
            end
        | TBool, VBool _ | TInt _, VInt _ | TDouble, VDbl _ | TFloat, VFlt _ | TStr, VStr _
        | TTup _, VSeq _ | TEnum _, VInt _ | TSet _, VInt _ => Fail XNotTraversable
        | _, _ => Fail XUB
        end
    | _ => Fail XUB
    end.

(** 642-650 [visit_at_path] *)
Definition visit_at_path (t : ty) (object : val) (path : path_view) (stop : nat) : found :=
  visit_node t NRoot object path stop access0.

(* ------------------------------------------------------------------ *)
(** ** Validation *)

(** What the program supplies: [validate_resource] (member function or ADL, 84-104;
    [None] also when there is none), and which exception a serialization
    validator throws when it is not [deserialize_error]. *)
Record env := mkenv { hook : ty -> val -> option rexn; user_exn : rexn; conv : backend }.

(** The first exception of two statements. *)
Definition andthen (a b : option rexn) : option rexn := match a with Some e => Some e | None => b end.

Fixpoint first_exn {A} (f : A -> option rexn) (l : list A) : option rexn :=
  match l with
  | [] => None
  | x :: l' => andthen (f x) (first_exn f l')
  end.

(** 338-346: every pair of elements. *)
Fixpoint duplicate_keys (i : nat) (vs : list val) : bool :=
  match vs with
  | [] => false
  | x :: vs' => existsb (same_key i x) vs' || duplicate_keys i vs'
  end.

(** 331-349 [validate_unique_child_keys] *)
Definition validate_unique_child_keys (n : nkind) (v : val) : option rexn :=
  match node_child_keys n with
  | [] => None
  | cks =>
      match v with
      | VSeq vs => first_exn (fun ck => if duplicate_keys (ck_member ck) vs then Some XDuplicate else None) cks
      | _ => Some XUB
      end
  end.

(** 366-371: the fields. *)
Definition validate_fields (f : nkind -> ty -> val -> option rexn) :=
  fix go (fs : list (attrs * ty)) (vs : list val) : option rexn :=
    match fs, vs with
    | [], [] => None
    | (a, t) :: fs', v :: vs' => andthen (f (NField a) t v) (go fs' vs')
    | _, _ => Some XUB
    end.

Section WithEnv.
Context (E : env).

(** 351-386 [validate_node_tree]; 136-140 [validate_self] is the hook. *)
Fixpoint validate_node_tree (t : ty) (n : nkind) (v : val) {struct t} : option rexn :=
  andthen (hook E t v)
    (andthen (validate_unique_child_keys n v)
       match t, v with
       | TOpt t', VSome v' => validate_node_tree t' (NElem None) v'
       | TRec fs, VRec vs => validate_fields (fun n' t' v' => validate_node_tree t' n' v') fs vs
       | TMap t', VMap m => first_exn (fun kv => validate_node_tree t' (NElem None) (snd kv)) m
       | TSeq t', VSeq vs | TArr _ t', VSeq vs => first_exn (validate_node_tree t' (NElem None)) vs
       | _, _ => None
       end).

(** 388-392 [validate_tree] *)
Definition validate_tree (t : ty) (v : val) : option rexn := validate_node_tree t NRoot v.

(** 123-134 [validate_candidate] *)
Fixpoint validate_candidate (t : ty) (v : val) {struct t} : option rexn :=
  andthen (hook E t v)
    match t, v with
    | TOpt t', VSome v' => validate_candidate t' v'
    | _, _ => None
    end.

(** 459-469 [check_duplicate_child_key] *)
Definition check_duplicate_child_key (n : nkind) (vs : list val) (candidate : val) : option rexn :=
  first_exn (fun ck => if existsb (fun e => same_key (ck_member ck) e candidate) vs then Some XDuplicate else None)
    (node_child_keys n).

(* ------------------------------------------------------------------ *)
(** ** Operations *)

(** resource.hpp:125-141 *)
Record resource := mkresource { value : val; modifications : tracker }.
Definition make_resource (v : val) : resource := mkresource v tracker_init.

(** 697-706 *)
Inductive status := s_ok | s_created | s_no_content | s_bad_request | s_not_found | s_method_not_allowed | s_conflict.

(** 708-712 [operation_result], or the exception that leaves the call.  The body
    is what the dumper wrote. *)
Inductive answer := Answer (s : status) (body : list event) | Escapes (e : rexn).

Definition success (a : answer) : bool :=
  match a with Answer (s_ok | s_created | s_no_content) _ => true | _ => false end.

(** 301-307 [has_addressable_descendants_v] *)
Definition has_addressable_descendants (t : ty) : bool :=
  match t with TRec _ | TOpt _ | TMap _ | TSeq _ | TArr _ _ => true | _ => false end.

Definition is_reflectable (t : ty) : bool := match t with TRec _ => true | _ => false end.

(** 898-917, 953-972, 1002-1021: the handlers of put, post and patch. *)
Definition caught (e : rexn) : answer :=
  match e with
  | XNotFound | XNotTraversable => Answer s_not_found []
  | XValidation | XDuplicate => Answer s_conflict []
  | XDeser => Answer s_bad_request []
  | XOther | XUB => Escapes e
  end.

(** 1074-1089: the handlers of del. *)
Definition caught_del (e : rexn) : answer :=
  match e with
  | XNotFound | XNotTraversable => Answer s_not_found []
  | XValidation | XDuplicate => Answer s_conflict []
  | XDeser | XOther | XUB => Escapes e
  end.

(** 859-866: the handlers of get. *)
Definition caught_get (e : rexn) : answer :=
  match e with
  | XNotFound | XNotTraversable => Answer s_not_found []
  | _ => Escapes e
  end.

Definition rexn_of (e : exn) : rexn :=
  match e with EDeser => XDeser | ELogic => XOther | EUser => user_exn E | EStuck => XUB end.

(** Assign, validate the whole tree and commit; a [rollback_value] (397-429)
    or [pop_back_rollback] (431-457) puts [back] in its place when validation
    throws.  Then notify and answer. *)
Definition change (t : ty) (r : resource) (loc : list step) (new : val) (back : val -> val)
  (handler : rexn -> answer) (where_ : outcome path_view) (whole : bool) (s : status) : resource * answer :=
  let v1 := set_at (value r) loc new in
  match validate_tree t v1 with
  | Some e =>
      let v2 := match get_at v1 loc with Some x => set_at v1 loc (back x) | None => v1 end in
      (mkresource v2 (modifications r), handler e)
  | None =>
      match (match where_ with Ok p => notify_changed (modifications r) p whole | Throws => Throws | UB => UB end) with
      | Ok (m, _) => (mkresource v1 m, Answer s [])
      | _ => (mkresource v1 (modifications r), Escapes XUB)
      end
  end.

(** 850-866 [get]; the dumper is [serialization::dump]. *)
Definition get (skip : bool) (t : ty) (r : resource) (path : path_view) : answer :=
  match visit_at_path t (value r) path 0 with
  | Fail e => caught_get e
  | Visit p =>
      match dump (conv E) skip (pl_ty p) (pl_val p) with
      | (es, Ok _) => Answer s_ok es
      | (_, Throws) => Escapes XOther
      | (_, UB) => Escapes XUB
      end
  end.

(** 868-917 [put] and 974-1021 [patch]: [read] is deserialize or patch. *)
Definition put_or_patch (read : ty -> json -> val -> dres) (t : ty) (r : resource) (path : path_view) (j : json)
  : resource * answer :=
  match visit_at_path t (value r) path 0 with
  | Fail e => (r, caught e)
  | Visit p =>
      if is_node_read_only (pl_ctx p) (pl_node p) then (r, Answer s_method_not_allowed [])
      else
        match read (pl_ty p) j (pl_val p) with
        | (_, Some e) => (r, caught (rexn_of e))
        | (candidate, None) =>
            if negb (preserves_identity (pl_node p) (pl_val p) candidate) then (r, Answer s_method_not_allowed [])
            else change t r (pl_loc p) candidate (fun _ => pl_val p) caught (Ok path)
                   (has_addressable_descendants (pl_ty p)) s_ok
        end
  end.

Definition put := put_or_patch (deser (conv E)).
Definition patch_op := put_or_patch (patch (conv E)).

(** [pop_back] *)
Definition pop_back (v : val) : val := match v with VSeq vs => VSeq (removelast vs) | _ => v end.

(** 919-972 [post] *)
Definition post (t : ty) (r : resource) (path : path_view) (j : json) : resource * answer :=
  match visit_at_path t (value r) path 0 with
  | Fail e => (r, caught e)
  | Visit p =>
      if is_child_node_read_only (pl_ctx p) (pl_node p) then (r, Answer s_method_not_allowed [])
      else
        match pl_ty p, pl_val p with
        | TSeq te, VSeq vs =>
            match deser (conv E) te j (default_of te) with
            | (_, Some e) => (r, caught (rexn_of e))
            | (candidate, None) =>
                match andthen (check_duplicate_child_key (pl_node p) vs candidate) (validate_candidate te candidate) with
                | Some e => (r, caught e)
                | None => change t r (pl_loc p) (VSeq (vs ++ [candidate])) pop_back caught (Ok path) true s_created
                end
            end
        | TSeq _, _ => (r, Escapes XUB)
        | _, _ => (r, Answer s_method_not_allowed [])
        end
  end.

Fixpoint remove_nth (i : nat) (l : list val) : list val :=
  match l, i with
  | [], _ => []
  | _ :: l', O => l'
  | x :: l', S i' => x :: remove_nth i' l'
  end.

(** 740-746, 778-784, 824-830: erase from the collection. *)
Definition erase (t : ty) (r : resource) (path : path_view) (loc : list step) (old new : val) : resource * answer :=
  change t r loc new (fun _ => old) caught_del (drop_back path) true s_no_content.

(** 716-844 [delete_direct_child]; [None] when it returns false. *)
Definition delete_direct_child (t : ty) (r : resource) (path : path_view) (p : place) : option (resource * answer) :=
  match view_front (pl_rest p) with
  | Ok segment =>
      let ro := is_child_node_read_only (pl_ctx p) (pl_node p) in
      match pl_ty p, pl_val p with
      | TMap _, VMap m =>
          match map_find segment m with
          | None => Some (r, caught_del XNotFound)
          | Some _ =>
              if ro then Some (r, Answer s_method_not_allowed [])
              else Some (erase t r path (pl_loc p) (VMap m) (VMap (map_erase segment m)))
          end
      | TSeq _, VSeq vs | TArr _ _, VSeq vs =>
          let deletable := match pl_ty p with TSeq _ => true | _ => false end in
          match node_child_keys (pl_node p) with
          | [] =>
              match TextModel.parse_index segment with
              | None => Some (r, caught_del XNotFound)
              | Some i =>
                  if ro then Some (r, Answer s_method_not_allowed [])
                  else if deletable then
                    match nth_error vs (N.to_nat i) with
                    | None => Some (r, caught_del XNotFound)
                    | Some _ => Some (erase t r path (pl_loc p) (VSeq vs) (VSeq (remove_nth (N.to_nat i) vs)))
                    end
                  else Some (r, Answer s_method_not_allowed [])
              end
          | cks =>
              match find_keyed cks vs segment with
              | None => Some (r, caught_del XNotFound)
              | Some (_, i) =>
                  if ro then Some (r, Answer s_method_not_allowed [])
                  else if deletable then Some (erase t r path (pl_loc p) (VSeq vs) (VSeq (remove_nth i vs)))
                  else Some (r, Answer s_method_not_allowed [])
              end
          end
      | _, _ => None
      end
  | _ => Some (r, Escapes XUB)
  end.

(** 1040-1072: an optional is reset. *)
Definition reset_optional (t : ty) (r : resource) (path : path_view) : resource * answer :=
  match visit_at_path t (value r) path 0 with
  | Fail e => (r, caught_del e)
  | Visit p =>
      if is_node_read_only (pl_ctx p) (pl_node p) then (r, Answer s_method_not_allowed [])
      else
        match pl_ty p with
        | TOpt te =>
            match andthen (match pl_val p with VSome v => validate_candidate te v | _ => None end)
                          (validate_candidate (TOpt te) VNone) with
            | Some e => (r, caught_del e)
            | None => change t r (pl_loc p) VNone (fun _ => pl_val p) caught_del (Ok path) (is_reflectable te) s_no_content
            end
        | _ => (r, Answer s_method_not_allowed [])
        end
  end.

(** 1023-1089 [del] *)
Definition del (t : ty) (r : resource) (path : path_view) : resource * answer :=
  if view_empty path then reset_optional t r path
  else
    match visit_at_path t (value r) path 1 with
    | Fail e => (r, caught_del e)
    | Visit p =>
        match delete_direct_child t r path p with
        | Some res => res
        | None => reset_optional t r path
        end
    end.

(** A client. *)
Inductive request :=
| Get (skip : bool) (path : path_view)
| Put (path : path_view) (j : json)
| Post (path : path_view) (j : json)
| Patch (path : path_view) (j : json)
| Delete (path : path_view).

(** 1093-1121: the operation a request asks for. *)
Definition perform (t : ty) (r : resource) (q : request) : resource * answer :=
  match q with
  | Get skip path => (r, get skip t r path)
  | Put path j => put t r path j
  | Post path j => post t r path j
  | Patch path j => patch_op t r path j
  | Delete path => del t r path
  end.

Fixpoint perform_all (t : ty) (r : resource) (qs : list request) : resource * list answer :=
  match qs with
  | [] => (r, [])
  | q :: qs' =>
      let '(r1, a) := perform t r q in
      let '(r2, as_) := perform_all t r1 qs' in
      (r2, a :: as_)
  end.

End WithEnv.
