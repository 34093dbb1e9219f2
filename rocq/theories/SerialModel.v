(** Serialization: kl/detail/serialization.hpp with the JSON backend of
    kl/json.hpp and src/json.cpp and the YAML backend of kl/yaml.hpp and
    src/yaml.cpp, kl/serialization_fwd.hpp and kl/serialization_attributes.hpp.
    The two differ in how booleans and numbers are written and read, see
    [backend].

    The C++ is a family of overloads selected by type, so the model has a type
    of type descriptions [ty], a type of values [val] and functions over both.
    Not modelled: user-defined [serializer<T>] and ADL overloads, [json::view] and
    [yaml::view], [string_view], the texts of error messages, allocators, and map keys other
    than [std::string].  A non-reflectable enum is written and read as its
    underlying integer, so it is described by [TInt].  A class that reflects
    base class fields is described by the list of fields in the order
    [reflect_object] visits them.

    A value that does not have the described type cannot occur in C++; where a
    function meets one it returns [UB] or [EStuck], and SerialProps proves that
    this does not happen on values of the described type. *)
From Coq Require Import List NArith ZArith Arith Bool.
From Verif Require Import Base PathModel EnumModel ScalarModel.
Import ListNotations.
Local Open Scope outcome_scope.

Local Notation str := (list N) (only parsing).

(* ------------------------------------------------------------------ *)
(** ** Documents *)

(** [rapidjson::Value].  A number is an integer (any of IsInt, IsInt64, IsUint,
    IsUint64) or a double, the latter given by its 64 bits.  Object members are
    in document order and may repeat a name.

    A [YAML::Node] is [JNull], a scalar [JStr], a sequence [JArr] or a map [JObj];
    a parsed map may repeat a key too, [operator[]] finds the first.  Nodes are
    references in yaml-cpp; here they are trees: nodes that contain themselves
    through an alias are not modelled, nor maps with keys that are not scalars, nor
    passing an undefined node. *)
Inductive json :=
| JNull
| JBool (b : bool)
| JInt (z : Z)
| JDbl (bits : N)
| JStr (s : str)
| JArr (js : list json)
| JObj (ms : list (str * json)).

(** FindMember: the first member with the name. *)
Fixpoint find_member (name : str) (ms : list (str * json)) : option json :=
  match ms with
  | [] => None
  | (k, j) :: ms' => if str_eqb k name then Some j else find_member name ms'
  end.

(** json.hpp:158-164 [at(ConstObject, name)]; yaml.hpp:112-116. *)
Definition at_field (ms : list (str * json)) (name : str) : json :=
  match find_member name ms with Some j => j | None => JNull end.

(** json.hpp:490-493 [has_field], yaml.hpp:393-396; only called on objects. *)
Definition has_field (ms : list (str * json)) (name : str) : bool :=
  match find_member name ms with Some _ => true | None => false end.

(** json.hpp:151-156 [at(ConstArray, idx)]; yaml.hpp:104-107. *)
Definition at_index (js : list json) (i : nat) : json :=
  match nth_error js i with Some j => j | None => JNull end.

Definition is_null (j : json) : bool := match j with JNull => true | _ => false end.

(* ------------------------------------------------------------------ *)
(** ** Values and types *)

(** Values of the described C++ types.  Vectors, arrays, tuples and pairs are
    [VSeq]; enums, enum sets and integers are [VInt]; maps are their elements
    in iteration order. *)
Inductive val :=
| VBool (b : bool)
| VInt (z : Z)
| VDbl (bits : N)
| VFlt (bits : N)
| VStr (s : str)
| VNone
| VSome (v : val)
| VSeq (vs : list val)
| VMap (kvs : list (str * val))
| VRec (vs : list val).

(** What calling a validator does: return, throw [deserialize_error], or throw
    something else. *)
Inductive verdict := Accept | Reject | Raise.

(** [child_key<Ptr>] (resource_attributes.hpp:5-11, 19-21): the member of the
    element it points to, as the index of a reflected field, and the ADL overload
    of [resource_key_matches] if there is one, as a function of the element, its
    key and the path segment. *)
Record ckey := mkckey { ck_member : nat; ck_match : option (val -> val -> str -> bool) }.

(** The attributes of a reflected field (serialization_attributes.hpp,
    resource_attributes.hpp), its name, and the value it has in a
    value-initialised object.  [a_default] is the first [default_value]
    attribute, the only one used.  Validators are taken to be functions of the
    value: one that modifies the field or other state is not modelled. *)
Record attrs := mkattrs {
  a_name : str;
  a_rename : option str;
  a_aliases : list str;
  a_skip_ser : bool;
  a_skip_deser : bool;
  a_emit_null : bool;
  a_skip_if_null : bool;
  a_skip_if_empty : bool;
  a_allow_missing : bool;
  a_default : option val;
  a_validators : list (val -> verdict);
  a_flatten : bool;
  a_extra : bool;
  a_init : val;
  a_read_only : bool;
  a_subtree_read_only : bool;
  a_child_keys : list ckey
}.

(** A reflected enum: its underlying type, its table and the string
    [reflect_enum_unknown_name] gives. *)
Record enumty := mkenumty { e_ity : ity; e_tab : table; e_unknown : str }.

Inductive ty :=
| TBool
| TInt (t : ity)
| TDouble
| TFloat
| TStr
| TOpt (t : ty)
| TSeq (t : ty)                       (* growable range: vector, deque, list *)
| TArr (n : nat) (t : ty)             (* std::array<T, n> *)
| TMap (t : ty)                       (* std::map<std::string, T> *)
| TTup (ts : list ty)                 (* std::tuple, std::pair *)
| TEnum (e : enumty)
| TSet (e : enumty)                   (* enum_set *)
| TRec (fs : list (attrs * ty)).      (* reflected struct *)

(** [T element{}] *)
Fixpoint default_of (t : ty) : val :=
  match t with
  | TBool => VBool false
  | TInt _ => VInt 0
  | TDouble => VDbl 0
  | TFloat => VFlt 0
  | TStr => VStr []
  | TOpt _ => VNone
  | TSeq _ => VSeq []
  | TArr n t' => VSeq (repeat (default_of t') n)
  | TMap _ => VMap []
  | TTup ts => VSeq (map default_of ts)
  | TEnum _ => VInt 0
  | TSet _ => VInt 0
  | TRec fs => VRec (map (fun f => a_init (fst f)) fs)
  end.

(** Conversions between the arithmetic types of JSON numbers and the two
    floating point types, given by their bits: [static_cast<double>] of an
    integer, of a float, and [static_cast<float>] of a double. *)
Record fpconv := mkfpconv { of_int : Z -> N; widen : N -> N; narrow_fp : N -> N }.

(** Which backend: JSON, with the conversions of numbers, or YAML, with those
    between floating point numbers and text. *)
Inductive backend := Json (fp : fpconv) | Yaml (ft : fptext).

(** Iteration order of [std::map<std::string, T>]: lexicographic on unsigned bytes. *)
Fixpoint str_ltb (a b : str) : bool :=
  match a, b with
  | _, [] => false
  | [], _ :: _ => true
  | x :: a', y :: b' => if (x <? y)%N then true else if (y <? x)%N then false else str_ltb a' b'
  end.

(** [map::find] *)
Fixpoint map_find (k : str) (m : list (str * val)) : option val :=
  match m with
  | [] => None
  | (k', v) :: m' => if str_eqb k' k then Some v else map_find k m'
  end.

Fixpoint map_insert (k : str) (v : val) (m : list (str * val)) : list (str * val) :=
  match m with
  | [] => [(k, v)]
  | (k', v') :: m' => if str_ltb k k' then (k, v) :: m else (k', v') :: map_insert k v m'
  end.

(** [map::emplace]: an existing element stays. *)
Definition map_emplace (k : str) (v : val) (m : list (str * val)) : list (str * val) :=
  match map_find k m with Some _ => m | None => map_insert k v m end.

(** Assignment to [it->second] of the element with key [k]. *)
Fixpoint map_assign (k : str) (v : val) (m : list (str * val)) : list (str * val) :=
  match m with
  | [] => []
  | (k', v') :: m' => if str_eqb k' k then (k', v) :: m' else (k', v') :: map_assign k v m'
  end.

Definition map_erase (k : str) (m : list (str * val)) : list (str * val) :=
  filter (fun kv => negb (str_eqb (fst kv) k)) m.

(* ------------------------------------------------------------------ *)
(** ** Attribute helpers *)

(** 71-78 [serialized_name] *)
Definition serialized_name (a : attrs) : str :=
  match a_rename a with Some n => n | None => a_name a end.

(** serialization_fwd.hpp:14-32 [is_null_value] *)
Definition is_null_value (v : val) : bool := match v with VNone => true | _ => false end.

(** serialization_fwd.hpp:40-65 [is_empty_value]: [value.empty()]; other types
    do not compile. *)
Definition is_empty_value (v : val) : bool :=
  match v with
  | VStr [] | VSeq [] | VMap [] => true
  | _ => false
  end.

(** json.hpp:71-75, 92-96, 120-124 [skip_null_value]; [skip] is [skip_null_fields_]. *)
Definition skip_null_value (skip : bool) (v : val) : bool := skip && is_null_value v.

(** 80-89 [skip_null_field] *)
Definition skip_null_field (skip : bool) (a : attrs) (v : val) : bool :=
  if a_emit_null a then false
  else if a_skip_if_null a then is_null_value v
  else skip_null_value skip v.

(** 91-98 [skip_empty_field] *)
Definition skip_empty_field (a : attrs) (v : val) : bool :=
  if a_skip_if_empty a then is_empty_value v else false.

(** 100-104 [skip_serialized_field] *)
Definition skip_serialized_field (skip : bool) (a : attrs) (v : val) : bool :=
  skip_null_field skip a v || skip_empty_field a v.

Definition in_set (s : str) (names : list str) : bool := existsb (str_eqb s) names.

(** 435-441 [add_name]: insert, throwing on a duplicate. *)
Definition add_name (name : str) (st : list str * nat) : outcome (list str * nat) :=
  let '(names, extras) := st in
  if in_set name names then Throws else Ok (names ++ [name], extras).

Fixpoint add_names (l : list str) (st : list str * nat) : outcome (list str * nat) :=
  match l with
  | [] => Ok st
  | n :: l' => st' <- add_name n st ;; add_names l' st'
  end.

(** 415-453 [collect_field_reserved_names], over all the fields of a struct;
    [nested] does the fields of a flattened one. *)
Definition collect_fields (nested : ty -> list str * nat -> outcome (list str * nat)) :=
  fix go (fs : list (attrs * ty)) (st : list str * nat) : outcome (list str * nat) :=
    match fs with
    | [] => Ok st
    | (a, t) :: fs' =>
        st' <- (if a_extra a then
                  let '(names, extras) := st in
                  if 1 <? S extras then Throws else Ok (names, S extras)
                else if a_flatten a then nested t st
                else add_names (serialized_name a :: a_aliases a) st) ;;
        go fs' st'
    end.

Fixpoint collect_reserved (t : ty) (st : list str * nat) : outcome (list str * nat) :=
  match t with
  | TRec fs => collect_fields collect_reserved fs st
  | _ => Ok st
  end.

(** ctti.hpp:383-402 [has_any_attribute<Reflectable, extra_fields_t, flatten_t>] *)
Definition any_extra_or_flatten (fs : list (attrs * ty)) : bool :=
  existsb (fun f => a_extra (fst f) || a_flatten (fst f)) fs.

(** 455-488 [reserved_field_names]; the null pointer it returns when there is no
    such attribute is the empty set here, it is never looked at. *)
Definition reserved_field_names (fs : list (attrs * ty)) : outcome (list str) :=
  if any_extra_or_flatten fs then
    st <- collect_fields collect_reserved fs ([], 0) ;; Ok (fst st)
  else Ok [].

(* ------------------------------------------------------------------ *)
(** ** serialize *)

Definition omap {A B} (f : A -> B) (m : outcome A) : outcome B := x <- m ;; Ok (f x).

Fixpoint mapm {A B} (f : A -> outcome B) (l : list A) : outcome (list B) :=
  match l with
  | [] => Ok []
  | x :: l' => y <- f x ;; ys <- mapm f l' ;; Ok (y :: ys)
  end.

(** 725-730: members of a map, skipping null values. *)
Fixpoint map_members (skip : bool) (f : val -> outcome json) (kvs : list (str * val))
  : outcome (list (str * json)) :=
  match kvs with
  | [] => Ok []
  | (k, v) :: kvs' =>
      if skip_null_value skip v then map_members skip f kvs'
      else j <- f v ;; ms <- map_members skip f kvs' ;; Ok ((k, j) :: ms)
  end.

(** 585-597: the extra fields; the key is checked before the value is looked at. *)
Fixpoint extra_members (skip : bool) (names : list str) (f : val -> outcome json) (kvs : list (str * val))
  : outcome (list (str * json)) :=
  match kvs with
  | [] => Ok []
  | (k, v) :: kvs' =>
      if in_set k names then Throws
      else if skip_null_value skip v then extra_members skip names f kvs'
      else j <- f v ;; ms <- extra_members skip names f kvs' ;; Ok ((k, j) :: ms)
  end.

Definition members_of (j : json) : outcome (list (str * json)) :=
  match j with JObj ms => Ok ms | _ => UB end.

(** 782-793 [serialize_tuple] *)
Definition ser_tuple (f : ty -> val -> outcome json) :=
  fix go (ts : list ty) (vs : list val) : outcome (list json) :=
    match ts, vs with
    | [], [] => Ok []
    | t :: ts', v :: vs' => j <- f t v ;; js <- go ts' vs' ;; Ok (j :: js)
    | _, _ => UB
    end.

(** 569-612 [add_reflected_fields]; [f t None] serializes a value of type [t],
    [f t (Some names)] gives the members of a flattened struct as an object. *)
Definition ser_fields (skip : bool) (f : ty -> option (list str) -> val -> outcome json) (names : list str) :=
  fix go (fs : list (attrs * ty)) (vs : list val) : outcome (list (str * json)) :=
    match fs, vs with
    | [], [] => Ok []
    | (a, t) :: fs', v :: vs' =>
        if a_skip_ser a || skip_serialized_field skip a v then go fs' vs'
        else
          ms <- (if a_extra a then
                   match t, v with
                   | TMap te, VMap kvs => extra_members skip names (f te None) kvs
                   | _, _ => UB
                   end
                 else if a_flatten a then
                   match t with
                   | TRec _ => j <- f t (Some names) v ;; members_of j
                   | _ => UB
                   end
                 else j <- f t None v ;; Ok [(serialized_name a, j)]) ;;
          rest <- go fs' vs' ;;
          Ok (ms ++ rest)
    | _, _ => UB
    end.

Section WithBackend.
Context (be : backend).

(** json.hpp:611-667, yaml.hpp:476-491: booleans and numbers. *)
Definition enc_bool (b : bool) : json :=
  match be with Json _ => JBool b | Yaml _ => JStr (bool_text b) end.
Definition enc_int (z : Z) : json :=
  match be with Json _ => JInt z | Yaml _ => JStr (int_text z) end.
Definition enc_dbl (b : N) : json :=
  match be with Json _ => JDbl b | Yaml ft => JStr (dbl_text ft b) end.
Definition enc_flt (b : N) : json :=
  match be with Json fp => JDbl (widen fp b) | Yaml ft => JStr (flt_text ft b) end.

(** 569-612 [add_reflected_fields] and 717-813 [serialize_adl]; json.hpp:611-667 and
    yaml.hpp:476-515 for the simple types.  [add_field] of YAML (370-375) assigns
    to the member if there is one; SerialProps shows that there is none.  [flat] is the set of reserved names when the struct
    is being flattened into another one (600), [None] otherwise; the members
    of a flattened struct are returned as an object and spliced. *)
Fixpoint ser (skip : bool) (t : ty) (flat : option (list str)) (v : val) {struct t} : outcome json :=
  match t, v with
  | TBool, VBool b => Ok (enc_bool b)
  | TInt _, VInt z => Ok (enc_int z)
  | TDouble, VDbl b => Ok (enc_dbl b)
  | TFloat, VFlt b => Ok (enc_flt b)
  | TStr, VStr s => Ok (JStr s)
  | TOpt _, VNone => Ok JNull
  | TOpt t', VSome v' => ser skip t' None v'
  | TSeq t', VSeq vs => omap JArr (mapm (ser skip t' None) vs)
  | TArr _ t', VSeq vs => omap JArr (mapm (ser skip t' None) vs)
  | TMap t', VMap kvs => omap JObj (map_members skip (ser skip t' None) kvs)
  | TTup ts, VSeq vs => omap JArr (ser_tuple (fun t' => ser skip t' None) ts vs)
  | TEnum e, VInt z => omap JStr (to_string (e_ity e) (e_tab e) z (e_unknown e))
  | TSet e, VInt z =>
      omap JArr
        (mapm (fun x => omap JStr (to_string (e_ity e) (e_tab e) x (e_unknown e)))
              (filter (es_test (e_ity e) z) (values (e_tab e))))
  | TRec fs, VRec vs =>
      names <- (match flat with Some names => Ok names | None => reserved_field_names fs end) ;;
      omap JObj (ser_fields skip (ser skip) names fs vs)
  | _, _ => UB
  end.

Definition serialize (skip : bool) (t : ty) (v : val) : outcome json := ser skip t None v.

(* ------------------------------------------------------------------ *)
(** ** dump *)

(** Calls on the rapidjson writer.  The four integer calls write the decimal
    number, so they are one event.  For the [YAML::Emitter] a scalar is the event
    with its text: [BeginMap], [EndMap], [BeginSeq], [EndSeq], [Key] with the key
    and [Null] are the others. *)
Inductive event :=
| EvNull
| EvBool (b : bool)
| EvInt (z : Z)
| EvDbl (bits : N)
| EvStr (s : str)
| EvStartObj
| EvKey (s : str)
| EvEndObj
| EvStartArr
| EvEndArr.

(** What was written, and how it ended. *)
Definition written := (list event * outcome unit)%type.

Definition wseq (a : written) (b : written) : written :=
  match a with
  | (es, Ok _) => let '(es', r) := b in (es ++ es', r)
  | _ => a
  end.

Definition wev (e : event) : written := ([e], Ok tt).
Definition wnil : written := ([], Ok tt).
Definition wfail (o : outcome unit) : written := ([], o).
Definition wout {A} (o : outcome A) (k : A -> written) : written :=
  match o with Ok a => k a | Throws => wfail Throws | UB => wfail UB end.

Fixpoint wall {A} (f : A -> written) (l : list A) : written :=
  match l with
  | [] => wnil
  | x :: l' => wseq (f x) (wall f l')
  end.

Fixpoint dump_extra (skip : bool) (names : list str) (f : val -> written) (kvs : list (str * val)) : written :=
  match kvs with
  | [] => wnil
  | (k, v) :: kvs' =>
      if in_set k names then wfail Throws
      else wseq (if skip_null_value skip v then wnil else wseq (wev (EvKey k)) (f v))
                (dump_extra skip names f kvs')
  end.

(** 682-690 [dump_tuple] *)
Definition dump_tuple (f : ty -> val -> written) :=
  fix go (ts : list ty) (vs : list val) : written :=
    match ts, vs with
    | [], [] => wnil
    | t :: ts', v :: vs' => wseq (f t v) (go ts' vs')
    | _, _ => wfail UB
    end.

(** 529-567 [dump_reflected_fields] *)
Definition dump_fields (skip : bool) (f : ty -> option (list str) -> val -> written) (names : list str) :=
  fix go (fs : list (attrs * ty)) (vs : list val) : written :=
    match fs, vs with
    | [], [] => wnil
    | (a, t) :: fs', v :: vs' =>
        wseq
          (if a_skip_ser a || skip_serialized_field skip a v then wnil
           else if a_extra a then
             match t, v with
             | TMap te, VMap kvs => dump_extra skip names (f te None) kvs
             | _, _ => wfail UB
             end
           else if a_flatten a then
             match t with TRec _ => f t (Some names) v | _ => wfail UB end
           else wseq (wev (EvKey (serialized_name a))) (f t None v))
          (go fs' vs')
    | _, _ => wfail UB
    end.

(** json.hpp:533-609, yaml.hpp:416-466: booleans and numbers.  The emitter of
    yaml-cpp is taken to write the text [YAML::Node{value}] would hold. *)
Definition dump_bool (b : bool) : written :=
  wev (match be with Json _ => EvBool b | Yaml _ => EvStr (bool_text b) end).
Definition dump_int (z : Z) : written :=
  wev (match be with Json _ => EvInt z | Yaml _ => EvStr (int_text z) end).
Definition dump_dbl (b : N) : written :=
  wev (match be with Json _ => EvDbl b | Yaml ft => EvStr (dbl_text ft b) end).
Definition dump_flt (b : N) : written :=
  wev (match be with Json fp => EvDbl (widen fp b) | Yaml ft => EvStr (flt_text ft b) end).

(** 614-715 [dump_adl]; json.hpp:533-609, yaml.hpp:300-345 and 416-466 for
    the simple types.  [flat] as in [ser]: a flattened struct writes no
    StartObject and EndObject (551). *)
Fixpoint dmp (skip : bool) (t : ty) (flat : option (list str)) (v : val) {struct t} : written :=
  match t, v with
  | TBool, VBool b => dump_bool b
  | TInt _, VInt z => dump_int z
  | TDouble, VDbl b => dump_dbl b
  | TFloat, VFlt b => dump_flt b
  | TStr, VStr s => wev (EvStr s)
  | TOpt _, VNone => wev EvNull
  | TOpt t', VSome v' => dmp skip t' None v'
  | TSeq t', VSeq vs =>
      wseq (wev EvStartArr) (wseq (wall (dmp skip t' None) vs) (wev EvEndArr))
  | TArr _ t', VSeq vs =>
      wseq (wev EvStartArr) (wseq (wall (dmp skip t' None) vs) (wev EvEndArr))
  | TMap t', VMap kvs =>
      wseq (wev EvStartObj)
        (wseq (wall (fun kv => if skip_null_value skip (snd kv) then wnil
                               else wseq (wev (EvKey (fst kv))) (dmp skip t' None (snd kv))) kvs)
              (wev EvEndObj))
  | TTup ts, VSeq vs =>
      wseq (wev EvStartArr) (wseq (dump_tuple (fun t' => dmp skip t' None) ts vs) (wev EvEndArr))
  | TEnum e, VInt z =>
      wout (to_string (e_ity e) (e_tab e) z (e_unknown e)) (fun s => wev (EvStr s))
  | TSet e, VInt z =>
      wseq (wev EvStartArr)
        (wseq (wall (fun x => if es_test (e_ity e) z x
                              then wout (to_string (e_ity e) (e_tab e) x (e_unknown e))
                                        (fun s => wev (EvStr s))
                              else wnil) (values (e_tab e)))
              (wev EvEndArr))
  | TRec fs, VRec vs =>
      match flat with
      | Some names => dump_fields skip (dmp skip) names fs vs
      | None =>
          wseq (wev EvStartObj)
            (wseq (wout (reserved_field_names fs) (fun names => dump_fields skip (dmp skip) names fs vs))
                  (wev EvEndObj))
      end
  | _, _ => wfail UB
  end.

Definition dump (skip : bool) (t : ty) (v : val) : written := dmp skip t None v.

(** [rapidjson::Value::Accept(writer)], [emitter << node]: the calls that write a
    document. *)
Fixpoint accept (j : json) : list event :=
  match j with
  | JNull => [EvNull]
  | JBool b => [EvBool b]
  | JInt z => [EvInt z]
  | JDbl b => [EvDbl b]
  | JStr s => [EvStr s]
  | JArr js => EvStartArr :: flat_map accept js ++ [EvEndArr]
  | JObj ms => EvStartObj :: flat_map (fun m => EvKey (fst m) :: accept (snd m)) ms ++ [EvEndObj]
  end.

(* ------------------------------------------------------------------ *)
(** ** deserialize *)

(** Exceptions: [deserialize_error], [std::logic_error], one thrown by user code. *)
Inductive exn := EDeser | ELogic | EUser | EStuck.

(** The object after the call and the exception that left it, if any. *)
Definition dres := (val * option exn)%type.

Definition i32 := mkity true 32.
Definition u32 := mkity false 32.
Definition i64 := mkity true 64.
Definition u64 := mkity false 64.
Definition fits (t : ity) (z : Z) : bool := ((ity_min t <=? z) && (z <=? ity_max t))%Z.

(** json.cpp:25-31 [expect_integral] and the getters; rapidjson sets the flags
    of a number by its value. *)
Definition integral (j : json) : option Z :=
  match j with
  | JInt z => if fits i32 z || fits i64 z || fits u32 z || fits u64 z then Some z else None
  | _ => None
  end.

(** json.hpp:520-526 [narrow] *)
Definition narrow (target source : ity) (z : Z) : option Z :=
  if (wrap source (wrap target z) =? z)%Z then Some (wrap target z) else None.

(** json.hpp:679-722: [bool] is a separate overload. *)
Definition json_int (t : ity) (j : json) : option Z :=
  match integral j with
  | None => None
  | Some z =>
      if isigned t then
        if ibits t <? 64 then if fits i32 z then narrow t i32 z else None
        else if fits i64 z then Some z else None
      else
        if ibits t <? 64 then if fits u32 z then narrow t u32 z else None
        else if fits u64 z then Some z else None
  end.

(** json.hpp:725-730; [expect_number] and GetDouble. *)
Definition get_double (fp : fpconv) (j : json) : option N :=
  match j with JInt z => Some (of_int fp z) | JDbl b => Some b | _ => None end.

(** yaml.cpp:24-31 [expect_scalar] *)
Definition scalar (j : json) : option str := match j with JStr s => Some s | _ => None end.

Definition through {A} (f : str -> option A) (s : option str) : option A :=
  match s with Some s' => f s' | None => None end.

(** json.hpp:669-730, yaml.hpp:528-542: booleans and numbers; [None] is a
    [deserialize_error]. *)
Definition dec_bool (j : json) : option bool :=
  match be with
  | Json _ => match j with JBool b => Some b | _ => None end
  | Yaml _ => through text_bool (scalar j)
  end.
Definition dec_int (t : ity) (j : json) : option Z :=
  match be with Json _ => json_int t j | Yaml _ => through (text_int t) (scalar j) end.
Definition dec_dbl (j : json) : option N :=
  match be with Json fp => get_double fp j | Yaml ft => through (text_dbl ft) (scalar j) end.
Definition dec_flt (j : json) : option N :=
  match be with
  | Json fp => match get_double fp j with Some b => Some (narrow_fp fp b) | None => None end
  | Yaml ft => through (text_flt ft) (scalar j)
  end.

(** Assigns what was read. *)
Definition take {A} (f : A -> val) (r : option A) (out : val) : dres :=
  match r with Some x => (f x, None) | None => (out, Some EDeser) end.

(** 857-871: growable range, elements read into [T{}] and pushed. *)
Fixpoint seq_loop (f : json -> val -> dres) (d : val) (js : list json) (out : list val) : list val * option exn :=
  match js with
  | [] => (out, None)
  | j :: js' =>
      match f j d with
      | (v, None) => seq_loop f d js' (out ++ [v])
      | (_, Some e) => (out, Some e)
      end
  end.

(** 883-898: fixed-size range, elements read in place. *)
Fixpoint arr_loop (f : json -> val -> dres) (js : list json) (i : nat) (vs : list val) : list val * option exn :=
  match vs with
  | [] => ([], None)
  | v :: vs' =>
      match f (at_index js i) v with
      | (v', None) => let '(r, e) := arr_loop f js (S i) vs' in (v' :: r, e)
      | (v', Some e) => (v' :: vs', Some e)
      end
  end.

(** 825-842: map; the key is a string, so reading it cannot fail. *)
Fixpoint map_loop (f : json -> val -> dres) (d : val) (ms : list (str * json)) (out : list (str * val))
  : list (str * val) * option exn :=
  match ms with
  | [] => (out, None)
  | (k, j) :: ms' =>
      match f j d with
      | (v, None) => map_loop f d ms' (map_emplace k v out)
      | (_, Some e) => (out, Some e)
      end
  end.

(** 925-949: extra fields, members with reserved names ignored. *)
Fixpoint extra_loop (f : json -> val -> dres) (d : val) (names : list str) (ms : list (str * json))
  (out : list (str * val)) : list (str * val) * option exn :=
  match ms with
  | [] => (out, None)
  | (k, j) :: ms' =>
      if in_set k names then extra_loop f d names ms' out
      else
        match f j d with
        | (v, None) => extra_loop f d names ms' (map_emplace k v out)
        | (_, Some e) => (out, Some e)
        end
  end.

(** 170-187 [validate_field] *)
Fixpoint validate (vals : list (val -> verdict)) (v : val) : option exn :=
  match vals with
  | [] => None
  | f :: vals' =>
      match f v with
      | Accept => validate vals' v
      | Reject => Some EDeser
      | Raise => Some EUser
      end
  end.

Definition then_validate (a : attrs) (r : dres) : dres :=
  match r with
  | (v, None) => (v, validate (a_validators a) v)
  | (v, Some e) => (v, Some e)
  end.

(** 206-225 [resolve_field_name] *)
Definition resolve_field_name (ms : list (str * json)) (a : attrs) : option str :=
  if has_field ms (serialized_name a) then Some (serialized_name a)
  else find (has_field ms) (a_aliases a).

(** 959-977: an ordinary field of an object. *)
Definition read_field (a : attrs) (f : json -> val -> dres) (ms : list (str * json)) (v : val) : dres :=
  match resolve_field_name ms a with
  | None =>
      match a_default a with
      | Some d => (d, None)
      | None =>
          if a_allow_missing a then (v, None)
          else then_validate a (f (at_field ms (serialized_name a)) v)
      end
  | Some name =>
      let node := at_field ms name in
      match is_null node, a_default a with
      | true, Some d => (d, None)
      | _, _ => then_validate a (f node v)
      end
  end.

(** 490-500 [sequence_deserializable_field_count] *)
Definition sequence_field_count (fs : list (attrs * ty)) : nat :=
  length (filter (fun f => negb (a_skip_deser (fst f))) fs).

(** 1081-1086 [deserialize_tuple] *)
Definition deser_tuple (f : ty -> json -> val -> dres) (js : list json) :=
  fix go (ts : list ty) (i : nat) (vs : list val) : list val * option exn :=
    match ts, vs with
    | [], [] => ([], None)
    | t :: ts', v :: vs' =>
        match f t (at_index js i) v with
        | (v', None) => let '(r, e) := go ts' (S i) vs' in (v' :: r, e)
        | (v', Some e) => (v' :: vs', Some e)
        end
    | _, _ => (vs, Some EStuck)
    end.

(** 1071-1075: an enum set, values are or'ed in. *)
Fixpoint set_loop (e : enumty) (js : list json) (acc : Z) : Z * option exn :=
  match js with
  | [] => (acc, None)
  | JStr s :: js' =>
      match from_string (e_tab e) s with
      | Some x => set_loop e js' (es_or (e_ity e) acc x)
      | None => (acc, Some EDeser)
      end
  | _ :: _ => (acc, Some EDeser)
  end.

(** 915-986: the fields of a struct from the members of an object. *)
Definition deser_members (f : ty -> json -> val -> dres) (names : list str) (ms : list (str * json)) :=
  fix go (fs : list (attrs * ty)) (vs : list val) : list val * option exn :=
    match fs, vs with
    | [], [] => ([], None)
    | (a, t) :: fs', v :: vs' =>
        let '(v', e) :=
          if a_skip_deser a then (v, None)
          else if a_extra a then
            match t with
            | TMap te =>
                let '(m, e) := extra_loop (f te) (default_of te) names ms [] in (VMap m, e)
            | _ => (v, Some EStuck)
            end
          else if a_flatten a then f t (JObj ms) v
          else read_field a (f t) ms v in
        match e with
        | None => let '(r, e') := go fs' vs' in (v' :: r, e')
        | Some _ => (v' :: vs', e)
        end
    | _, _ => (vs, Some EStuck)
    end.

(** 996-1025: the fields of a struct from the elements of an array. *)
Definition deser_elements (f : ty -> json -> val -> dres) (js : list json) :=
  fix go (fs : list (attrs * ty)) (i : nat) (vs : list val) : list val * option exn :=
    match fs, vs with
    | [], [] => ([], None)
    | (a, t) :: fs', v :: vs' =>
        if a_skip_deser a then let '(r, e') := go fs' i vs' in (v :: r, e')
        else if a_extra a || a_flatten a then (v :: vs', Some EDeser)
        else
          match then_validate a (f t (at_index js i) v) with
          | (v', None) => let '(r, e') := go fs' (S i) vs' in (v' :: r, e')
          | (v', Some e) => (v' :: vs', Some e)
          end
    | _, _ => (vs, Some EStuck)
    end.

(** 815-1118 [deserialize_adl]; json.hpp:669-762, yaml.hpp:526-573 for the simple
    types. *)
Fixpoint deser (t : ty) (j : json) (out : val) {struct t} : dres :=
  match t with
  | TBool => take VBool (dec_bool j) out
  | TInt it => take VInt (dec_int it j) out
  | TDouble => take VDbl (dec_dbl j) out
  | TFloat => take VFlt (dec_flt j) out
  | TStr => match j with JStr s => (VStr s, None) | _ => (out, Some EDeser) end
  | TOpt t' =>
      if is_null j then (VNone, None)
      else
        match deser t' j (default_of t') with
        | (v, None) => (VSome v, None)
        | (_, Some e) => (out, Some e)
        end
  | TSeq t' =>
      match j with
      | JArr js => let '(vs, e) := seq_loop (deser t') (default_of t') js [] in (VSeq vs, e)
      | _ => (out, Some EDeser)
      end
  | TArr _ t' =>
      match j, out with
      | JArr js, VSeq vs =>
          if length vs <? length js then (out, Some EDeser)
          else let '(r, e) := arr_loop (deser t') js 0 vs in (VSeq r, e)
      | JArr _, _ => (out, Some EStuck)
      | _, _ => (out, Some EDeser)
      end
  | TMap t' =>
      match j with
      | JObj ms => let '(m, e) := map_loop (deser t') (default_of t') ms [] in (VMap m, e)
      | _ => (out, Some EDeser)
      end
  | TTup ts =>
      match j, out with
      | JArr js, VSeq vs =>
          if length ts <? length js then (out, Some EDeser)
          else
            let '(r, e) := deser_tuple deser js ts 0 vs in (VSeq r, e)
      | JArr _, _ => (out, Some EStuck)
      | _, _ => (out, Some EDeser)
      end
  | TEnum e =>
      match j with
      | JStr s => match from_string (e_tab e) s with Some z => (VInt z, None) | None => (out, Some EDeser) end
      | _ => (out, Some EDeser)
      end
  | TSet e =>
      match j with
      | JArr js =>
          let '(z, ex) := set_loop e js es_empty in (VInt z, ex)
      | _ => (out, Some EDeser)
      end
  | TRec fs =>
      match j, out with
      | JObj ms, VRec vs =>
          match reserved_field_names fs with
          | Ok names =>
              let '(r, e) := deser_members deser names ms fs vs in (VRec r, e)
          | _ => (out, Some ELogic)
          end
      | JArr js, VRec vs =>
          if sequence_field_count fs <? length js then (out, Some EDeser)
          else
            let '(r, e) := deser_elements deser js fs 0 vs in (VRec r, e)
      | JObj _, _ | JArr _, _ => (out, Some EStuck)
      | _, _ => (out, Some EDeser)
      end
  end.

(* ------------------------------------------------------------------ *)
(** ** patch *)

(** 1151-1187: extra fields; an existing element is patched in place. *)
Fixpoint patch_extra_loop (f : json -> val -> dres) (d : val) (names : list str) (ms : list (str * json))
  (out : list (str * val)) : list (str * val) * option exn :=
  match ms with
  | [] => (out, None)
  | (k, j) :: ms' =>
      if in_set k names then patch_extra_loop f d names ms' out
      else
        match map_find k out with
        | Some v =>
            match f j v with
            | (v', None) => patch_extra_loop f d names ms' (map_assign k v' out)
            | (v', Some e) => (map_assign k v' out, Some e)
            end
        | None =>
            match f j d with
            | (v, None) => patch_extra_loop f d names ms' (map_emplace k v out)
            | (_, Some e) => (out, Some e)
            end
        end
  end.

(** 1195-1203: an ordinary field. *)
Definition patch_field (a : attrs) (f : json -> val -> dres) (ms : list (str * json)) (v : val) : dres :=
  match resolve_field_name ms a with
  | None => (v, None)
  | Some name =>
      let node := at_field ms name in
      match is_null node, a_default a with
      | true, Some d => (d, None)
      | _, _ => then_validate a (f node v)
      end
  end.

(** 1140-1215: the fields of a struct. *)
Definition patch_members (f : ty -> json -> val -> dres) (names : list str) (ms : list (str * json)) :=
  fix go (fs : list (attrs * ty)) (vs : list val) : list val * option exn :=
    match fs, vs with
    | [], [] => ([], None)
    | (a, t) :: fs', v :: vs' =>
        let '(v', e) :=
          if a_skip_deser a then (v, None)
          else if a_extra a then
            match t, v with
            | TMap te, VMap m =>
                let '(m', e) := patch_extra_loop (f te) (default_of te) names ms m in (VMap m', e)
            | _, _ => (v, Some EStuck)
            end
          else if a_flatten a then f t (JObj ms) v
          else patch_field a (f t) ms v in
        match e with
        | None => let '(r, e') := go fs' vs' in (v' :: r, e')
        | Some _ => (v' :: vs', e)
        end
    | _, _ => (vs, Some EStuck)
    end.

(** 1120-1242 [patch_adl]; other types have no patch overload and fall back to
    [deserialize] (serialization.hpp:126-136). *)
Fixpoint patch (t : ty) (j : json) (out : val) {struct t} : dres :=
  match t with
  | TOpt t' =>
      if is_null j then (VNone, None)
      else
        match out with
        | VSome v => let '(v', e) := patch t' j v in (VSome v', e)
        | VNone =>
            match patch t' j (default_of t') with
            | (v, None) => (VSome v, None)
            | (_, Some e) => (out, Some e)
            end
        | _ => (out, Some EStuck)
        end
  | TRec fs =>
      match j, out with
      | JObj ms, VRec vs =>
          match reserved_field_names fs with
          | Ok names =>
              let '(r, e) := patch_members patch names ms fs vs in (VRec r, e)
          | _ => (out, Some ELogic)
          end
      | _, _ => deser t j out
      end
  | _ => deser t j out
  end.

End WithBackend.
