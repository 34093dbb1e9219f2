(** kl/resource_op.hpp again, with validators that are any functions: a
    [validate_resource] gets a reference that is not const (84-98) and the context
    of the request, so it may modify the part it validates and depend on, or
    change, other state [W].  Also the texts of the answers.

    Traversal, places and reading are those of ResourceModel.  A validator sees
    its own part only; one that makes a container move its elements to other
    storage while a rollback refers to them is not modelled, one that removes them
    is.  A validator returns a value of the same C++ type. *)
From Coq Require Import List NArith ZArith Arith Bool.
From Verif Require Import Base PathModel TrackerModel EnumModel SerialModel ResourceModel.
From Verif Require TextModel.
Import ListNotations.

Local Notation str := (list N) (only parsing).

(** Exceptions of interest, with what [what()] returns where it is used
    (resource.hpp:143-194). *)
Inductive hexn :=
| HNotFound | HNotTraversable
| HValidation (what : str)
| HDuplicate (what : str)
| HDeser | HOther | HUB.

(** resource.hpp:186-192 "duplicate child key" *)
Definition duplicate_text : str :=
  [100; 117; 112; 108; 105; 99; 97; 116; 101; 32; 99; 104; 105; 108; 100; 32; 107; 101; 121]%N.

(** The string made of a [const char*]: up to the first zero. *)
Fixpoint c_string (s : str) : str :=
  match s with
  | [] => []
  | c :: s' => if N.eqb c 0 then [] else c :: c_string s'
  end.

(** What [operation_result::body] is: made by the dumper of a get, or a text. *)
Inductive hbody := Dumped (es : list event) | Text (s : str).

(** 708-712 [operation_result], or the exception that leaves the call. *)
Inductive hanswer := HAnswer (s : status) (body : hbody) | HEscapes (e : hexn).

(** [operation_result{s, {}}] *)
Definition plain_answer (s : status) : hanswer := HAnswer s (Text []).

Definition hsuccess (a : hanswer) : bool :=
  match a with HAnswer (s_ok | s_created | s_no_content) _ => true | _ => false end.

(** 898-917, 953-972, 1002-1021: the handlers of put, post and patch. *)
Definition hcaught (e : hexn) : hanswer :=
  match e with
  | HNotFound | HNotTraversable => plain_answer s_not_found
  | HValidation m | HDuplicate m => HAnswer s_conflict (Text (c_string m))
  | HDeser => plain_answer s_bad_request
  | HOther | HUB => HEscapes e
  end.

(** 1074-1089: the handlers of del. *)
Definition hcaught_del (e : hexn) : hanswer :=
  match e with
  | HNotFound | HNotTraversable => plain_answer s_not_found
  | HValidation m | HDuplicate m => HAnswer s_conflict (Text (c_string m))
  | HDeser | HOther | HUB => HEscapes e
  end.

(** The exceptions of traversal (519-638). *)
Definition of_rexn (e : rexn) : hexn :=
  match e with
  | XNotFound => HNotFound
  | XNotTraversable => HNotTraversable
  | XValidation => HValidation []
  | XDuplicate => HDuplicate duplicate_text
  | XDeser => HDeser
  | XOther => HOther
  | XUB => HUB
  end.

(** 850-866: get validates nothing. *)
Definition of_answer (a : answer) : hanswer :=
  match a with Answer s es => HAnswer s (Dumped es) | Escapes e => HEscapes (of_rexn e) end.

Section Validators.
Context {W : Type}.

(** What the program supplies: [validate_resource] of every type (member function
    or ADL, 84-104; the one that does nothing when there is none), and what a
    serialization validator throws when it is not [deserialize_error]. *)
Record henv := mkhenv { hhook : ty -> W -> val -> W * val * option hexn; huser_exn : hexn; hconv : backend }.

Context (E : henv).

(** A loop over parts; it stops at the first exception. *)
Fixpoint each {A} (f : W -> A -> W * A * option hexn) (w : W) (l : list A) : W * list A * option hexn :=
  match l with
  | [] => (w, [], None)
  | x :: l' =>
      match f w x with
      | (w1, x1, Some e) => (w1, x1 :: l', Some e)
      | (w1, x1, None) => let '(w2, l2, e) := each f w1 l' in (w2, x1 :: l2, e)
      end
  end.

(** 331-349 [validate_unique_child_keys] *)
Definition hunique (n : nkind) (v : val) : option hexn :=
  match validate_unique_child_keys n v with Some e => Some (of_rexn e) | None => None end.

(** 366-371: the fields. *)
Definition each_field (f : nkind -> ty -> W -> val -> W * val * option hexn) :=
  fix go (w : W) (fs : list (attrs * ty)) (vs : list val) : W * list val * option hexn :=
    match fs, vs with
    | [], [] => (w, [], None)
    | (a, t) :: fs', v :: vs' =>
        match f (NField a) t w v with
        | (w1, v1, Some e) => (w1, v1 :: vs', Some e)
        | (w1, v1, None) => let '(w2, l2, e) := go w1 fs' vs' in (w2, v1 :: l2, e)
        end
    | _, _ => (w, vs, Some HUB)
    end.

(** 351-386 [validate_node_tree] *)
Fixpoint hvalidate (t : ty) (n : nkind) (w : W) (v : val) {struct t} : W * val * option hexn :=
  match hhook E t w v with
  | (w1, v1, Some e) => (w1, v1, Some e)
  | (w1, v1, None) =>
      match hunique n v1 with
      | Some e => (w1, v1, Some e)
      | None =>
          match t, v1 with
          | TOpt t', VSome x => let '(w2, x2, e) := hvalidate t' (NElem None) w1 x in (w2, VSome x2, e)
          | TRec fs, VRec vs =>
              let '(w2, vs2, e) := each_field (fun n' t' => hvalidate t' n') w1 fs vs in (w2, VRec vs2, e)
          | TMap t', VMap m =>
              let '(w2, m2, e) :=
                each (fun w' (kv : str * val) =>
                        let '(w3, x3, e3) := hvalidate t' (NElem None) w' (snd kv) in (w3, (fst kv, x3), e3)) w1 m in
              (w2, VMap m2, e)
          | TSeq t', VSeq vs | TArr _ t', VSeq vs =>
              let '(w2, vs2, e) := each (hvalidate t' (NElem None)) w1 vs in (w2, VSeq vs2, e)
          | _, _ => (w1, v1, None)
          end
      end
  end.

(** 388-392 [validate_tree] *)
Definition hvalidate_tree (t : ty) (w : W) (v : val) : W * val * option hexn := hvalidate t NRoot w v.

(** 123-134 [validate_candidate] *)
Fixpoint hcandidate (t : ty) (w : W) (v : val) {struct t} : W * val * option hexn :=
  match hhook E t w v with
  | (w1, v1, Some e) => (w1, v1, Some e)
  | (w1, v1, None) =>
      match t, v1 with
      | TOpt t', VSome x => let '(w2, x2, e) := hcandidate t' w1 x in (w2, VSome x2, e)
      | _, _ => (w1, v1, None)
      end
  end.

Definition hexn_of (e : exn) : hexn :=
  match e with EDeser => HDeser | ELogic => HOther | EUser => huser_exn E | EStuck => HUB end.

(** Assign, validate the whole tree and commit.  When validation throws, the
    rollback (397-429, 431-457) applies [back] to what is then at [loc]; that is
    undefined when nothing is there any more. *)
Definition hchange (t : ty) (w : W) (r : resource) (loc : list step) (new : val) (back : val -> option val)
  (handler : hexn -> hanswer) (where_ : outcome path_view) (whole : bool) (s : status) : W * resource * hanswer :=
  match hvalidate_tree t w (set_at (value r) loc new) with
  | (w1, v1, Some e) =>
      match get_at v1 loc with
      | Some x =>
          match back x with
          | Some y => (w1, mkresource (set_at v1 loc y) (modifications r), handler e)
          | None => (w1, mkresource v1 (modifications r), HEscapes HUB)
          end
      | None => (w1, mkresource v1 (modifications r), HEscapes HUB)
      end
  | (w1, v1, None) =>
      match (match where_ with Ok p => notify_changed (modifications r) p whole | Throws => Throws | UB => UB end) with
      | Ok (m, _) => (w1, mkresource v1 m, plain_answer s)
      | _ => (w1, mkresource v1 (modifications r), HEscapes HUB)
      end
  end.

(** 868-917 [put] and 974-1021 [patch]: [read] is deserialize or patch. *)
Definition hput_or_patch (read : ty -> json -> val -> dres) (t : ty) (w : W) (r : resource) (path : path_view) (j : json)
  : W * resource * hanswer :=
  match visit_at_path t (value r) path 0 with
  | Fail e => (w, r, hcaught (of_rexn e))
  | Visit p =>
      if is_node_read_only (pl_ctx p) (pl_node p) then (w, r, plain_answer s_method_not_allowed)
      else
        match read (pl_ty p) j (pl_val p) with
        | (_, Some e) => (w, r, hcaught (hexn_of e))
        | (candidate, None) =>
            if negb (preserves_identity (pl_node p) (pl_val p) candidate)
            then (w, r, plain_answer s_method_not_allowed)
            else hchange t w r (pl_loc p) candidate (fun _ => Some (pl_val p)) hcaught (Ok path)
                   (has_addressable_descendants (pl_ty p)) s_ok
        end
  end.

Definition hput := hput_or_patch (deser (hconv E)).
Definition hpatch := hput_or_patch (patch (hconv E)).

(** [pop_back]; undefined when there is no element. *)
Definition hpop_back (v : val) : option val :=
  match v with VSeq [] => None | VSeq vs => Some (VSeq (removelast vs)) | _ => None end.

(** 919-972 [post]: the candidate is validated, and perhaps modified, before it is
    appended. *)
Definition hpost (t : ty) (w : W) (r : resource) (path : path_view) (j : json) : W * resource * hanswer :=
  match visit_at_path t (value r) path 0 with
  | Fail e => (w, r, hcaught (of_rexn e))
  | Visit p =>
      if is_child_node_read_only (pl_ctx p) (pl_node p) then (w, r, plain_answer s_method_not_allowed)
      else
        match pl_ty p, pl_val p with
        | TSeq te, VSeq vs =>
            match deser (hconv E) te j (default_of te) with
            | (_, Some e) => (w, r, hcaught (hexn_of e))
            | (candidate, None) =>
                match check_duplicate_child_key (pl_node p) vs candidate with
                | Some e => (w, r, hcaught (of_rexn e))
                | None =>
                    match hcandidate te w candidate with
                    | (w1, _, Some e) => (w1, r, hcaught e)
                    | (w1, c1, None) =>
                        hchange t w1 r (pl_loc p) (VSeq (vs ++ [c1])) hpop_back hcaught (Ok path) true s_created
                    end
                end
            end
        | TSeq _, _ => (w, r, HEscapes HUB)
        | _, _ => (w, r, plain_answer s_method_not_allowed)
        end
  end.

(** 740-746, 778-784, 824-830: erase from the collection. *)
Definition herase (t : ty) (w : W) (r : resource) (path : path_view) (loc : list step) (old new : val)
  : W * resource * hanswer :=
  hchange t w r loc new (fun _ => Some old) hcaught_del (drop_back path) true s_no_content.

(** 716-844 [delete_direct_child]; [None] when it returns false. *)
Definition hdelete_direct_child (t : ty) (w : W) (r : resource) (path : path_view) (p : place)
  : option (W * resource * hanswer) :=
  match view_front (pl_rest p) with
  | Ok segment =>
      let ro := is_child_node_read_only (pl_ctx p) (pl_node p) in
      match pl_ty p, pl_val p with
      | TMap _, VMap m =>
          match map_find segment m with
          | None => Some (w, r, hcaught_del HNotFound)
          | Some _ =>
              if ro then Some (w, r, plain_answer s_method_not_allowed)
              else Some (herase t w r path (pl_loc p) (VMap m) (VMap (map_erase segment m)))
          end
      | TSeq _, VSeq vs | TArr _ _, VSeq vs =>
          let deletable := match pl_ty p with TSeq _ => true | _ => false end in
          match node_child_keys (pl_node p) with
          | [] =>
              match TextModel.parse_index segment with
              | None => Some (w, r, hcaught_del HNotFound)
              | Some i =>
                  if ro then Some (w, r, plain_answer s_method_not_allowed)
                  else if deletable then
                    match nth_error vs (N.to_nat i) with
                    | None => Some (w, r, hcaught_del HNotFound)
                    | Some _ => Some (herase t w r path (pl_loc p) (VSeq vs) (VSeq (remove_nth (N.to_nat i) vs)))
                    end
                  else Some (w, r, plain_answer s_method_not_allowed)
              end
          | cks =>
              match find_keyed cks vs segment with
              | None => Some (w, r, hcaught_del HNotFound)
              | Some (_, i) =>
                  if ro then Some (w, r, plain_answer s_method_not_allowed)
                  else if deletable then Some (herase t w r path (pl_loc p) (VSeq vs) (VSeq (remove_nth i vs)))
                  else Some (w, r, plain_answer s_method_not_allowed)
              end
          end
      | _, _ => None
      end
  | _ => Some (w, r, HEscapes HUB)
  end.

(** 1040-1072: an optional is reset.  Validators are run on a copy of it first. *)
Definition hreset_optional (t : ty) (w : W) (r : resource) (path : path_view) : W * resource * hanswer :=
  match visit_at_path t (value r) path 0 with
  | Fail e => (w, r, hcaught_del (of_rexn e))
  | Visit p =>
      if is_node_read_only (pl_ctx p) (pl_node p) then (w, r, plain_answer s_method_not_allowed)
      else
        match pl_ty p with
        | TOpt te =>
            let '(w1, e1) :=
              match pl_val p with
              | VSome v => let '(w1, _, e1) := hcandidate te w v in (w1, e1)
              | _ => (w, None)
              end in
            match e1 with
            | Some e => (w1, r, hcaught_del e)
            | None =>
                match hcandidate (TOpt te) w1 VNone with
                | (w2, _, Some e) => (w2, r, hcaught_del e)
                | (w2, c, None) =>
                    hchange t w2 r (pl_loc p) c (fun _ => Some (pl_val p)) hcaught_del (Ok path)
                      (is_reflectable te) s_no_content
                end
            end
        | _ => (w, r, plain_answer s_method_not_allowed)
        end
  end.

(** 1023-1089 [del] *)
Definition hdel (t : ty) (w : W) (r : resource) (path : path_view) : W * resource * hanswer :=
  if view_empty path then hreset_optional t w r path
  else
    match visit_at_path t (value r) path 1 with
    | Fail e => (w, r, hcaught_del (of_rexn e))
    | Visit p =>
        match hdelete_direct_child t w r path p with
        | Some res => res
        | None => hreset_optional t w r path
        end
    end.

(** 850-866 [get]; it uses nothing of the validators. *)
Definition hget (skip : bool) (t : ty) (r : resource) (path : path_view) : hanswer :=
  of_answer (get (mkenv (fun _ _ => None) XOther (hconv E)) skip t r path).

(** 1093-1121: the operation a request asks for. *)
Definition hperform (t : ty) (w : W) (r : resource) (q : request) : W * resource * hanswer :=
  match q with
  | Get skip path => (w, r, hget skip t r path)
  | Put path j => hput t w r path j
  | Post path j => hpost t w r path j
  | Patch path j => hpatch t w r path j
  | Delete path => hdel t w r path
  end.

Fixpoint hperform_all (t : ty) (w : W) (r : resource) (qs : list request) : W * resource * list hanswer :=
  match qs with
  | [] => (w, r, [])
  | q :: qs' =>
      let '(w1, r1, a) := hperform t w r q in
      let '(w2, r2, as_) := hperform_all t w1 r1 qs' in
      (w2, r2, a :: as_)
  end.

End Validators.
Arguments henv : clear implicits.
