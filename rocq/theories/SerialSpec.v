(** Vocabulary for the serialization properties: which types the library
    accepts at compile time, which values a type has, and the conditions under
    which a value survives being written and read back. *)
From Coq Require Import List NArith ZArith Arith Bool.
From Verif Require Import Base PathModel EnumModel EnumSpec ScalarModel SerialModel.
Import ListNotations.

Local Notation str := (list N) (only parsing).

(** Lists of the same length related element by element. *)
Definition all2 {A B} (P : A -> B -> Prop) :=
  fix go (l : list A) (m : list B) : Prop :=
    match l, m with
    | [], [] => True
    | x :: l', y :: m' => P x y /\ go l' m'
    | _, _ => False
    end.

Definition all3 {A B C} (P : A -> B -> C -> Prop) :=
  fix go (l : list A) (m : list B) (n : list C) : Prop :=
    match l, m, n with
    | [], [], [] => True
    | x :: l', y :: m', z :: n' => P x y z /\ go l' m' n'
    | _, _, _ => False
    end.

Definition all1 {A} (P : A -> Prop) :=
  fix go (l : list A) : Prop :=
    match l with [] => True | x :: l' => P x /\ go l' end.

(** Keys of a [std::map] in iteration order. *)
Fixpoint sorted_keys (kvs : list (str * val)) : Prop :=
  match kvs with
  | [] => True
  | (k, _) :: rest => (forall k', In k' (map fst rest) -> str_ltb k k' = true) /\ sorted_keys rest
  end.

(** [v] is a value of the type [t]. *)
Fixpoint typed (t : ty) (v : val) {struct t} : Prop :=
  match t, v with
  | TBool, VBool _ => True
  | TInt it, VInt z => of_type it z
  | TDouble, VDbl _ => True
  | TFloat, VFlt _ => True
  | TStr, VStr _ => True
  | TOpt _, VNone => True
  | TOpt t', VSome v' => typed t' v'
  | TSeq t', VSeq vs => all1 (typed t') vs
  | TArr n t', VSeq vs => length vs = n /\ all1 (typed t') vs
  | TMap t', VMap kvs => sorted_keys kvs /\ all1 (fun kv => typed t' (snd kv)) kvs
  | TTup ts, VSeq vs => all2 typed ts vs
  | TEnum e, VInt z => of_type (e_ity e) z
  | TSet e, VInt z => of_type (e_ity e) z
  | TRec fs, VRec vs => all2 (fun f => typed (snd f)) fs vs
  | _, _ => False
  end.

(** A reflected enum: values of the underlying type. *)
Definition enum_ok (e : enumty) : Prop :=
  int_type (e_ity e) /\ Forall (of_type (e_ity e)) (map fst (e_tab e)) /\
  (N.of_nat (length (e_tab e)) < 2 ^ 63)%N.

(** The canonical names a struct writes, through flattened members
    (serialize_field_names_validator, 267-331). *)
Definition ser_names_of (nested : ty -> list str) :=
  fix go (fs : list (attrs * ty)) : list str :=
    match fs with
    | [] => []
    | (a, t) :: fs' =>
        (if a_skip_ser a || a_extra a then []
         else if a_flatten a then nested t else [serialized_name a]) ++ go fs'
    end.
Fixpoint ser_names (t : ty) : list str :=
  match t with TRec fs => ser_names_of ser_names fs | _ => [] end.

(** The names a struct reads (deserialize_field_names_validator, 333-411). *)
Definition deser_names_of (nested : ty -> list str) :=
  fix go (fs : list (attrs * ty)) : list str :=
    match fs with
    | [] => []
    | (a, t) :: fs' =>
        (if a_skip_deser a || a_extra a then []
         else if a_flatten a then nested t else serialized_name a :: a_aliases a) ++ go fs'
    end.
Fixpoint deser_names (t : ty) : list str :=
  match t with TRec fs => deser_names_of deser_names fs | _ => [] end.

(** All the names a struct declares, and the number of its [extra_fields]
    members, both through flattened members. *)
Definition all_names_of (nested : ty -> list str) :=
  fix go (fs : list (attrs * ty)) : list str :=
    match fs with
    | [] => []
    | (a, t) :: fs' =>
        (if a_extra a then [] else if a_flatten a then nested t
         else serialized_name a :: a_aliases a) ++ go fs'
    end.
Fixpoint all_names (t : ty) : list str :=
  match t with TRec fs => all_names_of all_names fs | _ => [] end.

Definition extras_of (nested : ty -> nat) :=
  fix go (fs : list (attrs * ty)) : nat :=
    match fs with
    | [] => 0
    | (a, t) :: fs' => (if a_extra a then 1 else if a_flatten a then nested t else 0) + go fs'
    end.
Fixpoint extras (t : ty) : nat :=
  match t with TRec fs => extras_of extras fs | _ => 0 end.

Definition is_rec (t : ty) : Prop := match t with TRec _ => True | _ => False end.
Definition is_map (t : ty) : Prop := match t with TMap _ => True | _ => False end.
Definition is_opt (t : ty) : Prop := match t with TOpt _ => True | _ => False end.

(** The type compiles: integer types are those of C++, flattened fields are
    structs, extra fields are maps, initial and default values have the type of
    their field, and the two name checks pass (648-656, 902-912). *)
Definition field_ok (f : attrs * ty) : Prop :=
  typed (snd f) (a_init (fst f)) /\
  (forall d, a_default (fst f) = Some d -> typed (snd f) d) /\
  (a_flatten (fst f) = true -> is_rec (snd f)) /\
  (a_extra (fst f) = true -> is_map (snd f)).

Fixpoint wf (t : ty) : Prop :=
  match t with
  | TInt it => int_type it
  | TEnum e | TSet e => enum_ok e
  | TOpt t' | TSeq t' | TArr _ t' | TMap t' => wf t'
  | TTup ts => all1 wf ts
  | TRec fs =>
      all1 (fun f => wf (snd f)) fs /\ all1 field_ok fs /\
      NoDup (ser_names_of ser_names fs) /\ NoDup (deser_names_of deser_names fs)
  | _ => True
  end.

(** Zero is a value of every integer type, empty containers of every container
    type; the default of a struct is given by the initial values. *)

(* ------------------------------------------------------------------ *)
(** ** Round trip *)

(** Names do not clash and there is at most one [extra_fields] member: the
    run-time check of [reserved_field_names] (415-488), which the library
    makes only for structs with [flatten] or [extra_fields]. *)
Definition distinct_names (t : ty) : Prop := NoDup (all_names t) /\ extras t <= 1.

(** Every validator returns. *)
Definition accepted (a : attrs) (v : val) : Prop := forall f, In f (a_validators a) -> f v = Accept.

(** A field is left out of the document. *)
Definition omitted (skip : bool) (a : attrs) (v : val) : bool :=
  a_skip_ser a || skip_serialized_field skip a v.

(** [z] is the union of some reflected enumerators. *)
Definition union_of_values (e : enumty) (z : Z) : Prop :=
  exists l, incl l (map fst (e_tab e)) /\ z = fold_left Z.lor l 0%Z.

(** What must hold of one field for the value [v] to come back when the
    document is read into an object holding [w]; [sub] is the condition for the
    type of the field. *)
Definition field_rt (skip : bool) (sub : ty -> val -> val -> Prop) (names : list str)
  (f : attrs * ty) (v w : val) : Prop :=
  let '(a, t) := f in
  if a_skip_deser a then v = w
  else if a_extra a then
    match t, v with
    | TMap te, VMap kvs =>
        if a_skip_ser a then kvs = []
        else all1 (fun kv => ~ In (fst kv) names /\ skip_null_value skip (snd kv) = false /\
                             sub te (snd kv) (default_of te)) kvs
    | _, _ => False
    end
  else if a_flatten a then
    a_skip_ser a = false /\ extras t = 0 /\ sub t v w
  else if omitted skip a v then
    match a_default a with
    | Some d => v = d
    | None => if a_allow_missing a then v = w else is_opt t /\ v = VNone /\ accepted a v
    end
  else
    match v, a_default a with
    | VNone, Some d => v = d
    | _, _ => sub t v w /\ accepted a v
    end.

Section WithBackend.
Context (be : backend).

(** A floating point number is the same after writing and reading: a [float]
    goes through [double] in JSON, both through text in YAML. *)
Definition dbl_survives (b : N) : Prop :=
  match be with Json _ => True | Yaml ft => text_dbl ft (dbl_text ft b) = Some b end.
Definition flt_survives (b : N) : Prop :=
  match be with Json fp => narrow_fp fp (widen fp b) = b | Yaml ft => text_flt ft (flt_text ft b) = Some b end.

(** The conditions on a value [v] of type [t] that is written with
    [skip_null_fields = skip] and read back into an object holding [w]. *)
Fixpoint rt (skip : bool) (t : ty) (v w : val) {struct t} : Prop :=
  match t, v with
  | TDouble, VDbl b => dbl_survives b
  | TFloat, VFlt b => flt_survives b
  | TOpt _, VNone => True
  | TOpt t', VSome v' =>
      (* an engaged optional of an empty one is written as null *)
      v' <> VNone /\ rt skip t' v' (default_of t')
  | TSeq t', VSeq vs => all1 (fun x => rt skip t' x (default_of t')) vs
  | TArr _ t', VSeq vs =>
      match w with VSeq ws => all2 (rt skip t') vs ws | _ => False end
  | TMap t', VMap kvs =>
      all1 (fun kv => skip_null_value skip (snd kv) = false /\ rt skip t' (snd kv) (default_of t')) kvs
  | TTup ts, VSeq vs =>
      match w with VSeq ws => all3 (rt skip) ts vs ws | _ => False end
  | TEnum e, VInt z => In z (map fst (e_tab e)) /\ NoDup (map snd (e_tab e))
  | TSet e, VInt z => union_of_values e z /\ NoDup (map snd (e_tab e))
  | TRec fs, VRec vs =>
      match w with
      | VRec ws =>
          NoDup (all_names_of all_names fs) /\ extras_of extras fs <= 1 /\
          all3 (field_rt skip (rt skip) (all_names_of all_names fs)) fs vs ws
      | _ => False
      end
  | TBool, VBool _ | TInt _, VInt _ | TStr, VStr _ => True
  | _, _ => False
  end.

End WithBackend.

(* ------------------------------------------------------------------ *)
(** ** Documents *)

(** No object in the document has two members with the same name. *)
Fixpoint keys_unique (j : json) : Prop :=
  match j with
  | JArr js => all1 keys_unique js
  | JObj ms => NoDup (map fst ms) /\ all1 (fun m => keys_unique (snd m)) ms
  | _ => True
  end.

(** [j] is the first member called [n]. *)
Definition first_member (ms : list (str * json)) (n : str) (j : json) : Prop :=
  exists p q, ms = p ++ (n, j) :: q /\ ~ In n (map fst p).

Definition absent (ms : list (str * json)) (n : str) : Prop := ~ In n (map fst ms).

(** [j] is the member with the first of [names] that occurs at all. *)
Definition first_named (ms : list (str * json)) (names : list str) (j : json) : Prop :=
  exists before n after, names = before ++ n :: after /\ Forall (absent ms) before /\ first_member ms n j.

(** An ordinary field: it is read, it is not flattened and not the extra fields. *)
Definition ordinary (a : attrs) : Prop := a_skip_deser a = false /\ a_extra a = false /\ a_flatten a = false.

(** The names a field is looked up by, in order. *)
Definition lookup_names (a : attrs) : list str := serialized_name a :: a_aliases a.

(** What reading an ordinary field from an object does: [read] reads its type.
    The three cases of a missing field, the two of a present one. *)
Definition missing_policy (a : attrs) (read : json -> val -> dres) (v : val) (r : dres) : Prop :=
  match a_default a with
  | Some d => r = (d, None)
  | None => if a_allow_missing a then r = (v, None) else r = then_validate a (read JNull v)
  end.

Definition present_policy (a : attrs) (read : json -> val -> dres) (j : json) (v : val) (r : dres) : Prop :=
  match j, a_default a with
  | JNull, Some d => r = (d, None)
  | _, _ => r = then_validate a (read j v)
  end.

(** The fields are read one after the other and the first failure stops: the
    fields after it keep their values.  [P f v r]: reading field [f] into [v]
    gives [r]. *)
Fixpoint in_order (P : attrs * ty -> val -> dres -> Prop) (fs : list (attrs * ty)) (vs vs' : list val)
  (e : option exn) : Prop :=
  match fs, vs, vs' with
  | [], [], [] => e = None
  | f :: fs', v :: vs1, v' :: vs1' =>
      (P f v (v', None) /\ in_order P fs' vs1 vs1' e) \/
      (exists x, e = Some x /\ P f v (v', Some x) /\ vs1' = vs1)
  | _, _, _ => False
  end.

(** The map holds exactly the members that are not reserved, the first of each
    name, each read into a fresh element. *)
Definition collects (read : json -> val -> dres) (d : val) (names : list str) (ms : list (str * json))
  (m : list (str * val)) : Prop :=
  sorted_keys m /\
  forall k v, map_find k m = Some v <-> ~ In k names /\ exists j, first_member ms k j /\ read j d = (v, None).

(** Reading one field from an object. *)
Definition field_reads (read : ty -> json -> val -> dres) (names : list str) (ms : list (str * json))
  (f : attrs * ty) (v : val) (r : dres) : Prop :=
  let '(a, t) := f in
  if a_skip_deser a then r = (v, None)
  else if a_extra a then
    match t with
    | TMap te => exists m, fst r = VMap m /\ (snd r = None -> collects (read te) (default_of te) names ms m)
    | _ => False
    end
  else if a_flatten a then r = read t (JObj ms) v
  else (forall j, first_named ms (lookup_names a) j -> present_policy a (read t) j v r) /\
       (Forall (absent ms) (lookup_names a) -> missing_policy a (read t) v r).

(** Patching one field: an element of the extra fields that exists is patched,
    a missing member leaves the field alone. *)
Definition field_patches (pat : ty -> json -> val -> dres) (ms : list (str * json))
  (f : attrs * ty) (v : val) (r : dres) : Prop :=
  let '(a, t) := f in
  if a_skip_deser a then r = (v, None)
  else if a_extra a then exists m, fst r = VMap m
  else if a_flatten a then r = pat t (JObj ms) v
  else (forall j, first_named ms (lookup_names a) j -> present_policy a (pat t) j v r) /\
       (Forall (absent ms) (lookup_names a) -> r = (v, None)).

(* ------------------------------------------------------------------ *)
(** ** Validators *)

(** Every ordinary field of every struct inside [v] satisfies its validators. *)
Definition field_validated (sub : ty -> val -> Prop) (f : attrs * ty) (v : val) : Prop :=
  let '(a, t) := f in
  (a_extra a = false -> a_flatten a = false -> a_skip_deser a = false -> accepted a v) /\ sub t v.

Fixpoint validated (t : ty) (v : val) {struct t} : Prop :=
  match t, v with
  | TOpt t', VSome v' => validated t' v'
  | TSeq t', VSeq vs | TArr _ t', VSeq vs => all1 (validated t') vs
  | TMap t', VMap kvs => all1 (fun kv => validated t' (snd kv)) kvs
  | TTup ts, VSeq vs => all2 validated ts vs
  | TRec fs, VRec vs => all2 (field_validated validated) fs vs
  | TOpt _, VNone => True
  | TBool, _ | TInt _, _ | TDouble, _ | TFloat, _ | TStr, _ | TEnum _, _ | TSet _, _ => True
  | _, _ => False
  end.

(** The declared defaults and initial values satisfy the validators. *)
Fixpoint defaults_validated (t : ty) : Prop :=
  match t with
  | TOpt t' | TSeq t' | TArr _ t' | TMap t' => defaults_validated t'
  | TTup ts => all1 defaults_validated ts
  | TRec fs =>
      all1 (fun f => field_validated validated f (a_init (fst f)) /\
                     (forall d, a_default (fst f) = Some d -> field_validated validated f d) /\
                     defaults_validated (snd f)) fs
  | _ => True
  end.

(* ------------------------------------------------------------------ *)
(** ** Patch *)

(** What a document with the members [ms] leaves alone in a struct with the
    reserved names [names]: [v] before, [v'] after. *)
Definition field_kept (sub : ty -> val -> val -> Prop) (names : list str) (ms : list (str * json))
  (f : attrs * ty) (v v' : val) : Prop :=
  let '(a, t) := f in
  if a_skip_deser a then v' = v
  else if a_extra a then
    match v, v' with
    | VMap m, VMap m' => forall k, absent ms k \/ In k names -> map_find k m' = map_find k m
    | _, _ => False
    end
  else if a_flatten a then sub t v v'
  else Forall (absent ms) (lookup_names a) -> v' = v.

Fixpoint kept (ms : list (str * json)) (t : ty) (v v' : val) {struct t} : Prop :=
  match t, v, v' with
  | TRec fs, VRec vs, VRec vs' => all3 (field_kept (kept ms) (all_names t) ms) fs vs vs'
  | _, _, _ => False
  end.

Section Patching.
Context (be : backend).

(** The conditions under which patching [v] with its own document changes
    nothing: what is not written is not touched, so only the written parts
    matter. *)
Definition field_prt (skip : bool) (sub : ty -> val -> Prop) (f : attrs * ty) (v : val) : Prop :=
  let '(a, t) := f in
  if a_skip_deser a then True
  else if a_extra a then
    match t, v with
    | TMap te, VMap kvs => a_skip_ser a = true \/
        all1 (fun kv => skip_null_value skip (snd kv) = true \/ sub te (snd kv)) kvs
    | _, _ => False
    end
  else if a_flatten a then extras t = 0 /\ (a_skip_ser a = false -> sub t v)
  else if omitted skip a v then True
  else
    match v, a_default a with
    | VNone, Some d => v = d
    | _, _ => sub t v /\ accepted a v
    end.

Fixpoint prt (skip : bool) (t : ty) (v : val) {struct t} : Prop :=
  match t, v with
  | TOpt _, VNone => True
  | TOpt t', VSome v' => v' <> VNone /\ prt skip t' v'
  | TRec fs, VRec vs =>
      NoDup (all_names_of all_names fs) /\ extras_of extras fs <= 1 /\ all2 (field_prt skip (prt skip)) fs vs
  | _, _ => rt be skip t v v
  end.

End Patching.

(* ------------------------------------------------------------------ *)
(** ** When serialization succeeds *)

Definition field_writable (skip : bool) (sub : ty -> option (list str) -> val -> Prop) (names : list str)
  (f : attrs * ty) (v : val) : Prop :=
  let '(a, t) := f in
  omitted skip a v = true \/
  if a_extra a then
    match t, v with
    | TMap te, VMap kvs =>
        all1 (fun kv => ~ In (fst kv) names /\ (skip_null_value skip (snd kv) = true \/ sub te None (snd kv))) kvs
    | _, _ => False
    end
  else if a_flatten a then sub t (Some names) v
  else sub t None v.

(** No struct declares a name twice (where the library checks), and no extra
    key is a declared name.  [flat] is the set of names of the enclosing struct
    for a flattened one. *)
Fixpoint writable (skip : bool) (t : ty) (flat : option (list str)) (v : val) {struct t} : Prop :=
  match t, v with
  | TOpt t', VSome v' => writable skip t' None v'
  | TSeq t', VSeq vs | TArr _ t', VSeq vs => all1 (writable skip t' None) vs
  | TMap t', VMap kvs =>
      all1 (fun kv => skip_null_value skip (snd kv) = true \/ writable skip t' None (snd kv)) kvs
  | TTup ts, VSeq vs => all2 (fun t' => writable skip t' None) ts vs
  | TRec fs, VRec vs =>
      match flat with
      | Some names => all2 (field_writable skip (writable skip) names) fs vs
      | None =>
          (any_extra_or_flatten fs = true -> distinct_names t) /\
          all2 (field_writable skip (writable skip) (all_names t)) fs vs
      end
  | _, _ => True
  end.

(* ------------------------------------------------------------------ *)
(** ** Reading that ignores what was there *)

(** No field may be left as it was: every one is read, or has a default. *)
Fixpoint overwrites (t : ty) : Prop :=
  match t with
  | TOpt t' | TSeq t' | TArr _ t' | TMap t' => overwrites t'
  | TTup ts => all1 overwrites ts
  | TRec fs =>
      all1 (fun f => a_skip_deser (fst f) = false /\
                     (a_allow_missing (fst f) = false \/ a_default (fst f) <> None) /\ overwrites (snd f)) fs
  | _ => True
  end.
