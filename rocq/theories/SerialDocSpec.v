(** What a value looks like as a document and what reading or patching an
    object from a document does, as relations.  Nothing here refers to a helper
    of the model: only to types, values, documents and the attributes. *)
From Coq Require Import String List NArith ZArith Arith Bool.
From Verif Require Import Base EnumModel EnumSpec ScalarModel ScalarSpec SerialModel SerialSpec.
Import ListNotations.

Local Notation str := (list N) (only parsing).

(* ------------------------------------------------------------------ *)
(** ** Names *)

(** The name of a field in a document. *)
Definition wire_name (a : attrs) : str := match a_rename a with Some n => n | None => a_name a end.

(** All the names a field answers to. *)
Definition wire_names (a : attrs) : list str := wire_name a :: a_aliases a.

(** All the names a struct declares, through flattened members. *)
Definition declared_of (nested : ty -> list str) :=
  fix go (fs : list (attrs * ty)) : list str :=
    match fs with
    | [] => []
    | (a, t) :: fs' =>
        (if a_extra a then [] else if a_flatten a then nested t else wire_names a) ++ go fs'
    end.
Fixpoint declared (t : ty) : list str :=
  match t with TRec fs => declared_of declared fs | _ => [] end.

(** The names of a struct with a flattened or an extra field are checked. *)
Definition checked (fs : list (attrs * ty)) : Prop :=
  exists f, In f fs /\ (a_extra (fst f) = true \/ a_flatten (fst f) = true).
Definition sound_names (fs : list (attrs * ty)) : Prop :=
  checked fs -> NoDup (declared (TRec fs)) /\ extras (TRec fs) <= 1.

(* ------------------------------------------------------------------ *)
(** ** Enumerators *)

(** [s] is the name of the first enumerator of value [z], or the name for
    unknown values. *)
Definition named (e : enumty) (z : Z) (s : str) : Prop :=
  (exists p q, e_tab e = p ++ (z, s) :: q /\ ~ In z (map fst p)) \/
  (~ In z (map fst (e_tab e)) /\ s = e_unknown e).

(** [z] is the value of the first enumerator called [s]. *)
Definition enumerator (e : enumty) (s : str) (z : Z) : Prop :=
  exists p q, e_tab e = p ++ (z, s) :: q /\ ~ In s (map snd p).

(** Every flag of [x] is set in [z]. *)
Definition included (t : ity) (x z : Z) : Prop := forall i, i < ibits t -> flag x i -> flag z i.

(** [z] has exactly the flags of the members of [xs]. *)
Definition union (t : ity) (xs : list Z) (z : Z) : Prop :=
  of_type t z /\ forall i, i < ibits t -> (flag z i <-> exists x, In x xs /\ flag x i).

(** [ys] are the elements of [xs] that satisfy [P], in order. *)
Fixpoint picks {A} (P : A -> Prop) (xs ys : list A) : Prop :=
  match xs with
  | [] => ys = []
  | x :: xs' => (P x /\ exists ys', ys = x :: ys' /\ picks P xs' ys') \/ (~ P x /\ picks P xs' ys)
  end.

(* ------------------------------------------------------------------ *)
(** ** Writing *)

(** A field that is left out: never written, null and not wanted, or empty and
    not wanted. *)
Definition left_out (skip : bool) (a : attrs) (v : val) : Prop :=
  a_skip_ser a = true \/
  (v = VNone /\ a_emit_null a = false /\ (a_skip_if_null a = true \/ skip = true)) \/
  (a_skip_if_empty a = true /\ (v = VStr [] \/ v = VSeq [] \/ v = VMap [])).

(** The members of a map: null values are left out when [skip]. *)
Fixpoint map_doc (skip : bool) (P : val -> json -> Prop) (kvs : list (str * val)) (ms : list (str * json)) : Prop :=
  match kvs with
  | [] => ms = []
  | (k, v) :: kvs' =>
      (skip = true /\ v = VNone /\ map_doc skip P kvs' ms) \/
      (~ (skip = true /\ v = VNone) /\ exists j ms', ms = (k, j) :: ms' /\ P v j /\ map_doc skip P kvs' ms')
  end.

(** The members one field contributes to the object. *)
Definition field_doc (skip : bool) (P : ty -> option (list str) -> val -> json -> Prop) (names : list str)
  (f : attrs * ty) (v : val) (ms : list (str * json)) : Prop :=
  let '(a, t) := f in
  (left_out skip a v /\ ms = []) \/
  (~ left_out skip a v /\
   if a_extra a then
     match t, v with
     | TMap te, VMap kvs =>
         (forall k, In k (map fst kvs) -> ~ In k names) /\ map_doc skip (P te None) kvs ms
     | _, _ => False
     end
   else if a_flatten a then P t (Some names) v (JObj ms)
   else exists j, ms = [(wire_name a, j)] /\ P t None v j).

Section WithBackend.
Context (be : backend).

(** Booleans and numbers: values of their own in JSON, text in YAML. *)
Definition bool_doc (b : bool) (j : json) : Prop :=
  match be with
  | Json _ => j = JBool b
  | Yaml _ => j = JStr (codes (if b then "true" else "false")%string)
  end.
Definition int_doc (z : Z) (j : json) : Prop :=
  match be with Json _ => j = JInt z | Yaml _ => exists s, j = JStr s /\ decimal z s end.
Definition dbl_doc (b : N) (j : json) : Prop :=
  match be with Json _ => j = JDbl b | Yaml ft => j = JStr (dbl_text ft b) end.
Definition flt_doc (b : N) (j : json) : Prop :=
  match be with Json fp => j = JDbl (widen fp b) | Yaml ft => j = JStr (flt_text ft b) end.

(** [j] is the document of [v].  [outer] are the names declared by the struct
    into which this one is flattened. *)
Fixpoint doc (skip : bool) (t : ty) (outer : option (list str)) (v : val) (j : json) {struct t} : Prop :=
  match t, v with
  | TBool, VBool b => bool_doc b j
  | TInt _, VInt z => int_doc z j
  | TDouble, VDbl b => dbl_doc b j
  | TFloat, VFlt b => flt_doc b j
  | TStr, VStr s => j = JStr s
  | TOpt _, VNone => j = JNull
  | TOpt t', VSome v' => doc skip t' None v' j
  | TSeq t', VSeq vs | TArr _ t', VSeq vs => exists js, j = JArr js /\ all2 (doc skip t' None) vs js
  | TMap t', VMap kvs => exists ms, j = JObj ms /\ map_doc skip (doc skip t' None) kvs ms
  | TTup ts, VSeq vs => exists js, j = JArr js /\ all3 (fun t' => doc skip t' None) ts vs js
  | TEnum e, VInt z => exists s, j = JStr s /\ named e z s
  | TSet e, VInt z =>
      exists xs js, j = JArr js /\ picks (fun x => included (e_ity e) x z) (map fst (e_tab e)) xs /\
                    all2 (fun x j' => exists s, j' = JStr s /\ named e x s) xs js
  | TRec fs, VRec vs =>
      (outer = None -> sound_names fs) /\
      exists mss, j = JObj (concat mss) /\
        all3 (field_doc skip (doc skip) (match outer with Some n => n | None => declared t end)) fs vs mss
  | _, _ => False
  end.

(* ------------------------------------------------------------------ *)
(** ** Reading *)

(** [R v e] is the result: the object holds [v], exception [e] if any. *)
Definition refused (w v : val) (e : option exn) : Prop := v = w /\ e = Some EDeser.

(** Validators run in order and the first that throws decides. *)
Definition checks (a : attrs) (v : val) (e : option exn) : Prop :=
  (accepted a v /\ e = None) \/
  exists pre f post, a_validators a = pre ++ f :: post /\ Forall (fun g => g v = Accept) pre /\
    ((f v = Reject /\ e = Some EDeser) \/ (f v = Raise /\ e = Some EUser)).

(** Read and validate. *)
Definition read_checked (a : attrs) (P : val -> val -> option exn -> Prop) (w v : val) (e : option exn) : Prop :=
  (e <> None /\ P w v e) \/ (P w v None /\ checks a v e).

(** Documents missing at the end of an array are null. *)
Definition padded (js : list json) (n : nat) : list json := js ++ repeat JNull (n - length js).

(** Elements read in place one after the other; after a failure the rest stays. *)
Fixpoint in_turn {A} (P : A -> val -> val -> option exn -> Prop) (xs : list A) (ws vs : list val) (e : option exn) : Prop :=
  match xs, ws, vs with
  | [], [], [] => e = None
  | x :: xs', w :: ws', v :: vs' =>
      (P x w v None /\ in_turn P xs' ws' vs' e) \/ (e <> None /\ P x w v e /\ vs' = ws')
  | _, _, _ => False
  end.

Definition tuple_turn (P : ty -> json -> val -> val -> option exn -> Prop) :=
  fix go (ts : list ty) (js : list json) (ws vs : list val) (e : option exn) : Prop :=
    match ts, js, ws, vs with
    | [], [], [], [] => e = None
    | t :: ts', j :: js', w :: ws', v :: vs' =>
        (P t j w v None /\ go ts' js' ws' vs' e) \/ (e <> None /\ P t j w v e /\ vs' = ws')
    | _, _, _, _ => False
    end.

(** Elements appended; after a failure the elements before it are there. *)
Definition grown (P : json -> val -> option exn -> Prop) (js : list json) (vs : list val) (e : option exn) : Prop :=
  (e = None /\ all2 (fun j v => P j v None) js vs) \/
  (e <> None /\ exists pre j post w, js = pre ++ j :: post /\ all2 (fun j v => P j v None) pre vs /\ P j w e).

(** Members collected into a map: the first of each name stays.  Members after
    one that failed are not there. *)
Definition gathered (P : json -> val -> option exn -> Prop) (ms : list (str * json)) (m : list (str * val))
  (e : option exn) : Prop :=
  sorted_keys m /\
  exists good, (forall k j, In (k, j) good -> exists v, P j v None) /\
    (forall k v, In (k, v) m <-> exists j, first_member good k j /\ P j v None) /\
    ((e = None /\ ms = good) \/ (e <> None /\ exists k j post w, ms = good ++ (k, j) :: post /\ P j w e)).

(** The names in an enum set. *)
Definition set_read (en : enumty) (js : list json) (v : val) (e : option exn) : Prop :=
  exists good xs z, v = VInt z /\ all2 (fun j x => exists s, j = JStr s /\ enumerator en s x) good xs /\
    union (e_ity en) xs z /\
    ((e = None /\ js = good) \/
     (e = Some EDeser /\ exists j post, js = good ++ j :: post /\ forall s x, j = JStr s -> ~ enumerator en s x)).

Definition unreserved_members (names : list str) (ms ms' : list (str * json)) : Prop :=
  picks (fun m => ~ In (fst m) names) ms ms'.

(** One field of an object. *)
Definition field_read (P : ty -> json -> val -> val -> option exn -> Prop) (names : list str)
  (ms : list (str * json)) (f : attrs * ty) (w v : val) (e : option exn) : Prop :=
  let '(a, t) := f in
  if a_skip_deser a then v = w /\ e = None
  else if a_extra a then
    match t with
    | TMap te => exists ms' m, v = VMap m /\ unreserved_members names ms ms' /\
                   gathered (fun j v' => P te j (default_of te) v') ms' m e
    | _ => False
    end
  else if a_flatten a then P t (JObj ms) w v e
  else
    (exists j, first_named ms (wire_names a) j /\
       match j, a_default a with
       | JNull, Some d => v = d /\ e = None
       | _, _ => read_checked a (P t j) w v e
       end) \/
    (Forall (absent ms) (wire_names a) /\
       match a_default a with
       | Some d => v = d /\ e = None
       | None => if a_allow_missing a then v = w /\ e = None else read_checked a (P t JNull) w v e
       end).

Definition fields_turn (P : attrs * ty -> val -> val -> option exn -> Prop) :=
  fix go (fs : list (attrs * ty)) (ws vs : list val) (e : option exn) : Prop :=
    match fs, ws, vs with
    | [], [], [] => e = None
    | f :: fs', w :: ws', v :: vs' => (P f w v None /\ go fs' ws' vs' e) \/ (e <> None /\ P f w v e /\ vs' = ws')
    | _, _, _ => False
    end.

(** The fields of a struct from the elements of an array, null when there are
    not enough: fields that are not read take none, flattened and extra fields
    cannot be read this way. *)
Definition elements_turn (P : ty -> json -> val -> val -> option exn -> Prop) :=
  fix go (fs : list (attrs * ty)) (js : list json) (ws vs : list val) (e : option exn) : Prop :=
    match fs, ws, vs with
    | [], [], [] => e = None
    | (a, t) :: fs', w :: ws', v :: vs' =>
        if a_skip_deser a then v = w /\ go fs' js ws' vs' e
        else if a_extra a || a_flatten a then v = w /\ vs' = ws' /\ e = Some EDeser
        else
          let '(j, js') := match js with [] => (JNull, []) | j :: js' => (j, js') end in
          (read_checked a (P t j) w v None /\ go fs' js' ws' vs' e) \/
          (e <> None /\ read_checked a (P t j) w v e /\ vs' = ws')
    | _, _, _ => False
    end.

(** The number of fields that are read. *)
Fixpoint readable_fields (fs : list (attrs * ty)) : nat :=
  match fs with
  | [] => 0
  | (a, _) :: fs' => (if a_skip_deser a then 0 else 1) + readable_fields fs'
  end.

(** A boolean or a number read from a document.  JSON: integers only from
    integers, doubles from both.  YAML: from text. *)
Definition bool_read (j : json) (b : bool) : Prop :=
  match be with Json _ => j = JBool b | Yaml _ => exists s, j = JStr s /\ In s (spellings b) end.
Definition int_read (it : ity) (j : json) (z : Z) : Prop :=
  of_type it z /\
  match be with Json _ => j = JInt z | Yaml _ => exists s, j = JStr s /\ int_means (isigned it) s z end.
Definition dbl_read (j : json) (x : N) : Prop :=
  match be with
  | Json fp => j = JDbl x \/ exists z, j = JInt z /\ x = of_int fp z
  | Yaml ft => exists s, j = JStr s /\ text_dbl ft s = Some x
  end.
Definition flt_read (j : json) (x : N) : Prop :=
  match be with
  | Json fp => (exists y, j = JDbl y /\ x = narrow_fp fp y) \/ exists z, j = JInt z /\ x = narrow_fp fp (of_int fp z)
  | Yaml ft => exists s, j = JStr s /\ text_flt ft s = Some x
  end.

(** The value that was read is assigned, or there is none and the document is refused. *)
Definition leaf {A} (P : A -> Prop) (mk : A -> val) (w v : val) (e : option exn) : Prop :=
  (exists x, P x /\ v = mk x /\ e = None) \/ ((forall x, ~ P x) /\ refused w v e).

Fixpoint reads (t : ty) (j : json) (w v : val) (e : option exn) {struct t} : Prop :=
  match t with
  | TBool => leaf (bool_read j) VBool w v e
  | TInt it => leaf (int_read it j) VInt w v e
  | TDouble => leaf (dbl_read j) VDbl w v e
  | TFloat => leaf (flt_read j) VFlt w v e
  | TStr => match j with JStr s => v = VStr s /\ e = None | _ => refused w v e end
  | TOpt t' =>
      (j = JNull /\ v = VNone /\ e = None) \/
      (j <> JNull /\ ((e = None /\ exists v', v = VSome v' /\ reads t' j (default_of t') v' None) \/
                      (e <> None /\ v = w /\ exists v', reads t' j (default_of t') v' e)))
  | TSeq t' =>
      match j with
      | JArr js => exists vs, v = VSeq vs /\ grown (fun j' => reads t' j' (default_of t')) js vs e
      | _ => refused w v e
      end
  | TArr n t' =>
      match j, w with
      | JArr js, VSeq ws =>
          (n < length js /\ refused w v e) \/
          (length js <= n /\ exists vs, v = VSeq vs /\ in_turn (reads t') (padded js n) ws vs e)
      | _, _ => refused w v e
      end
  | TMap t' =>
      match j with
      | JObj ms => exists m, v = VMap m /\ gathered (fun j' => reads t' j' (default_of t')) ms m e
      | _ => refused w v e
      end
  | TTup ts =>
      match j, w with
      | JArr js, VSeq ws =>
          (length ts < length js /\ refused w v e) \/
          (length js <= length ts /\ exists vs, v = VSeq vs /\ tuple_turn reads ts (padded js (length ts)) ws vs e)
      | _, _ => refused w v e
      end
  | TEnum en =>
      (exists s z, j = JStr s /\ enumerator en s z /\ v = VInt z /\ e = None) \/
      ((forall s z, j = JStr s -> ~ enumerator en s z) /\ refused w v e)
  | TSet en => match j with JArr js => set_read en js v e | _ => refused w v e end
  | TRec fs =>
      match j, w with
      | JObj ms, VRec ws =>
          (~ sound_names fs /\ v = w /\ e = Some ELogic) \/
          (sound_names fs /\ exists vs, v = VRec vs /\
             fields_turn (field_read reads (declared (TRec fs)) ms) fs ws vs e)
      | JArr js, VRec ws =>
          (readable_fields fs < length js /\ refused w v e) \/
          (length js <= readable_fields fs /\ exists vs, v = VRec vs /\ elements_turn reads fs js ws vs e)
      | _, _ => refused w v e
      end
  end.

(* ------------------------------------------------------------------ *)
(** ** Patching *)

(** [m'] is [m] with the key [k] bound to [v]. *)
Definition bound (k : str) (v : val) (m m' : list (str * val)) : Prop :=
  sorted_keys m' /\ forall k' v', In (k', v') m' <-> (k' = k /\ v' = v) \/ (k' <> k /\ In (k', v') m).

(** The extra fields: members in order; an element that exists is patched in
    place, a new one is added only when it was read. *)
Fixpoint extras_patched (P : json -> val -> val -> option exn -> Prop) (d : val) (names : list str)
  (ms : list (str * json)) (m m' : list (str * val)) (e : option exn) : Prop :=
  match ms with
  | [] => m' = m /\ e = None
  | (k, j) :: ms' =>
      (In k names /\ extras_patched P d names ms' m m' e) \/
      (~ In k names /\
       ((exists w v, In (k, w) m /\
           ((P j w v None /\ exists m1, bound k v m m1 /\ extras_patched P d names ms' m1 m' e) \/
            (e <> None /\ P j w v e /\ bound k v m m'))) \/
        (~ In k (map fst m) /\ exists v,
           ((P j d v None /\ exists m1, bound k v m m1 /\ extras_patched P d names ms' m1 m' e) \/
            (e <> None /\ P j d v e /\ m' = m)))))
  end.

Definition field_patched (P : ty -> json -> val -> val -> option exn -> Prop) (names : list str)
  (ms : list (str * json)) (f : attrs * ty) (w v : val) (e : option exn) : Prop :=
  let '(a, t) := f in
  if a_skip_deser a then v = w /\ e = None
  else if a_extra a then
    match t, w with
    | TMap te, VMap m => exists m', v = VMap m' /\ extras_patched (P te) (default_of te) names ms m m' e
    | _, _ => False
    end
  else if a_flatten a then P t (JObj ms) w v e
  else
    (exists j, first_named ms (wire_names a) j /\
       match j, a_default a with
       | JNull, Some d => v = d /\ e = None
       | _, _ => read_checked a (P t j) w v e
       end) \/
    (Forall (absent ms) (wire_names a) /\ v = w /\ e = None).

Fixpoint patched (t : ty) (j : json) (w v : val) (e : option exn) {struct t} : Prop :=
  match t with
  | TOpt t' =>
      (j = JNull /\ v = VNone /\ e = None) \/
      (j <> JNull /\
       match w with
       | VSome w' => exists v', v = VSome v' /\ patched t' j w' v' e
       | _ => (e = None /\ exists v', v = VSome v' /\ patched t' j (default_of t') v' None) \/
              (e <> None /\ v = w /\ exists v', patched t' j (default_of t') v' e)
       end)
  | TRec fs =>
      match j, w with
      | JObj ms, VRec ws =>
          (~ sound_names fs /\ v = w /\ e = Some ELogic) \/
          (sound_names fs /\ exists vs, v = VRec vs /\
             fields_turn (field_patched patched (declared (TRec fs)) ms) fs ws vs e)
      | _, _ => reads t j w v e
      end
  | _ => reads t j w v e
  end.

End WithBackend.

(* ------------------------------------------------------------------ *)
(** ** Exceptions *)

(** Something that holds of every struct inside a type. *)
Fixpoint every_struct (Q : list (attrs * ty) -> Prop) (t : ty) : Prop :=
  match t with
  | TOpt t' | TSeq t' | TArr _ t' | TMap t' => every_struct Q t'
  | TTup ts => all1 (every_struct Q) ts
  | TRec fs => Q fs /\ all1 (fun f => every_struct Q (snd f)) fs
  | _ => True
  end.

(** The validators throw nothing but deserialization errors. *)
Definition polite (fs : list (attrs * ty)) : Prop :=
  forall a t f v, In (a, t) fs -> In f (a_validators a) -> f v <> Raise.
