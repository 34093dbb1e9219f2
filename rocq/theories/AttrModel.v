(** The attributes of a field as the serialization and resource code asks for them:
    the helper functions of kl/detail/serialization.hpp (62-265) over the list of
    attribute objects of a field, and the checks of field names at compile time
    (266-411).  SerialModel has the same helpers over a record [attrs] with one component per
    attribute; AttrProps relates the two. *)
From Coq Require Import List NArith Arith Bool.
From Verif Require Import Base PathModel ScalarModel SerialModel ReflectModel.
Import ListNotations.
Local Open Scope outcome_scope.

Local Notation str := (list N) (only parsing).

(** What an attribute object holds in its subobject of one class: [rename_t::name],
    the names of [aliases_t] (serialization_attributes.hpp:58-84, at most 8),
    [default_value_t::value], [validate_t::validator], [child_key_t::ptr]. *)
Inductive payload :=
| PNone
| PName (s : str)
| PNames (l : list str)
| PValue (v : val)
| PValidator (f : val -> verdict)
| PKey (k : ckey).

(** A field: its name and its attributes. *)
Record srcfield := mksrc { s_name : str; s_attrs : list (attribute payload) }.

Definition name_in (a : attribute payload) : str :=
  match at_data a CRename with PName s => s | _ => [] end.
Definition aliases_in (a : attribute payload) : list str :=
  match at_data a CAliases with PNames l => l | _ => [] end.
Definition key_in (a : attribute payload) : list ckey :=
  match at_data a CChildKeyBase with PKey k => [k] | _ => [] end.

(** serialization_attributes.hpp:28-56 [is_default_value], [is_validate]: only the
    specialisations of the template themselves, not classes derived from them. *)
Definition is_default_value (a : attribute payload) : option val :=
  match cls_id (at_class a) with
  | CDefault n => match at_data a (CDefault n) with PValue v => Some v | _ => None end
  | _ => None
  end.
Definition is_validate (a : attribute payload) : option (val -> verdict) :=
  match cls_id (at_class a) with
  | CValidate n => match at_data a (CValidate n) with PValidator f => Some f | _ => None end
  | _ => None
  end.

(** serialization.hpp:71-78 *)
Definition f_serialized_name (f : srcfield) : outcome str :=
  if has CRename (s_attrs f) then
    match get CRename (s_attrs f) with
    | Some a => Ok (name_in a)
    | None => UB
    end
  else Ok (s_name f).

(** 80-104 *)
Definition f_skip_null_field (skip : bool) (f : srcfield) (v : val) : bool :=
  if has CEmitNull (s_attrs f) then false
  else if has CSkipIfNull (s_attrs f) then is_null_value v
  else skip_null_value skip v.

Definition f_skip_empty_field (f : srcfield) (v : val) : bool :=
  if has CSkipIfEmpty (s_attrs f) then is_empty_value v else false.

Definition f_skip_serialized_field (skip : bool) (f : srcfield) (v : val) : bool :=
  f_skip_null_field skip f v || f_skip_empty_field f v.

(** 143-168 [apply_default_value]: the field's value [v] afterwards, and whether a
    default was applied. *)
Definition apply_default_value (f : srcfield) (v : val) : val * bool :=
  fold_left (fun (st : val * bool) (a : attribute payload) =>
               match is_default_value a with
               | Some d => if snd st then st else (d, true)
               | None => st
               end) (visit_attributes (s_attrs f)) (v, false).

(** 170-188 [validate_field] *)
Fixpoint f_validate_attrs (l : list (attribute payload)) (v : val) : option exn :=
  match l with
  | [] => None
  | a :: l' =>
      match is_validate a with
      | Some g =>
          match g v with
          | Accept => f_validate_attrs l' v
          | Reject => Some EDeser
          | Raise => Some EUser
          end
      | None => f_validate_attrs l' v
      end
  end.
Definition f_validate_field (f : srcfield) (v : val) : option exn := f_validate_attrs (visit_attributes (s_attrs f)) v.

(** 190-204 [apply_missing_field_policy], [apply_null_field_policy] *)
Definition apply_missing_field_policy (f : srcfield) (v : val) : val * bool :=
  let '(v', applied) := apply_default_value f v in
  (v', if negb applied && has CAllowMissing (s_attrs f) then true else applied).
Definition apply_null_field_policy (f : srcfield) (v : val) : val * bool := apply_default_value f v.

(** 206-225 [resolve_field_name] *)
Definition f_resolve_field_name (ms : list (str * json)) (f : srcfield) : outcome (option str) :=
  canonical <- f_serialized_name f ;;
  if has_field ms canonical then Ok (Some canonical)
  else if has CAliases (s_attrs f) then
    match get CAliases (s_attrs f) with
    | Some a => Ok (find (has_field ms) (aliases_in a))
    | None => UB
    end
  else Ok None.

Definition f_then_validate (f : srcfield) (r : dres) : dres :=
  match r with
  | (v, None) => (v, f_validate_field f v)
  | (v, Some e) => (v, Some e)
  end.

(** 959-977: an ordinary field read from the members of an object; [rd] reads its type. *)
Definition f_read_field (f : srcfield) (rd : json -> val -> dres) (ms : list (str * json)) (v : val) : outcome dres :=
  name <- f_resolve_field_name ms f ;;
  match name with
  | None =>
      let '(v', applied) := apply_missing_field_policy f v in
      if applied then Ok (v', None)
      else canonical <- f_serialized_name f ;; Ok (f_then_validate f (rd (at_field ms canonical) v'))
  | Some n =>
      let node := at_field ms n in
      if is_null node then
        let '(v', applied) := apply_null_field_policy f v in
        if applied then Ok (v', None) else Ok (f_then_validate f (rd node v'))
      else Ok (f_then_validate f (rd node v))
  end.

(** 1195-1203: an ordinary field patched. *)
Definition f_patch_field (f : srcfield) (pt : json -> val -> dres) (ms : list (str * json)) (v : val) : outcome dres :=
  name <- f_resolve_field_name ms f ;;
  match name with
  | None => Ok (v, None)
  | Some n =>
      let node := at_field ms n in
      if is_null node then
        let '(v', applied) := apply_null_field_policy f v in
        if applied then Ok (v', None) else Ok (f_then_validate f (pt node v'))
      else Ok (f_then_validate f (pt node v))
  end.

(** 443-457: the names an ordinary field reserves. *)
Definition f_reserved_names (f : srcfield) : outcome (list str) :=
  canonical <- f_serialized_name f ;;
  if has CAliases (s_attrs f) then
    match get CAliases (s_attrs f) with
    | Some a => Ok (canonical :: aliases_in a)
    | None => UB
    end
  else Ok [canonical].

(** resource_op.hpp:462-470, 572-590: the child keys, in the order they are visited. *)
Definition f_child_keys (f : srcfield) : list ckey := flat_map key_in (visit_attributes_of CChildKeyBase (s_attrs f)).

(** 227-233 [validator_attribute_filter] *)
Definition validator_attribute_filter : attribute_filter :=
  AnyAttribute [CRename; CAliases; CFlatten; CExtra; CSkipSer; CSkipDeser].

(* ------------------------------------------------------------------ *)
(** ** Field names at compile time *)

(** 256-265 [cstring_equal]: the characters up to the terminating zero, which ends the list. *)
Fixpoint cstring_equal (a b : str) : bool :=
  match a with
  | [] => (hd 0 b =? 0)%N
  | x :: a' =>
      if (negb (x =? 0) && (x =? hd 0 b))%N then cstring_equal a' (tl b)
      else (x =? hd 0 b)%N
  end.

(** 236-254 [cstr_name_set::push_unique]: was the name added, and the names then.
    [Throws] is the overflow, which is not a constant expression. *)
Definition push_unique (cap : nat) (name : str) (data : list str) : outcome (bool * list str) :=
  if existsb (fun d => cstring_equal d name) data then Ok (false, data)
  else if cap <=? length data then Throws
  else Ok (true, data ++ [name]).

(** 278-308 *)
Definition ser_count_of (nested : ty -> nat) :=
  fix go (fs : list (attrs * ty)) : nat :=
    match fs with
    | [] => 0
    | (a, t) :: fs' =>
        (if a_skip_ser a || a_extra a then 0 else if a_flatten a then nested t else 1) + go fs'
    end.
Fixpoint ser_field_count (t : ty) : nat :=
  match t with TRec fs => ser_count_of ser_field_count fs | _ => 0 end.

(** 310-331 *)
Definition ser_collect_of (cap : nat) (nested : ty -> list str -> outcome (bool * list str)) :=
  fix go (fs : list (attrs * ty)) (result : bool) (buf : list str) : outcome (bool * list str) :=
    match fs with
    | [] => Ok (result, buf)
    | (a, t) :: fs' =>
        if a_skip_ser a || a_extra a then go fs' result buf
        else
          r <- (if a_flatten a then nested t buf else push_unique cap (serialized_name a) buf) ;;
          go fs' (if fst r then result else false) (snd r)
    end.
Fixpoint ser_collect (cap : nat) (t : ty) (buf : list str) : outcome (bool * list str) :=
  match t with TRec fs => ser_collect_of cap (ser_collect cap) fs true buf | _ => Ok (true, buf) end.

(** 272-276 [serialize_field_names_validator::validate] *)
Definition serialize_names_ok (t : ty) : outcome bool :=
  r <- ser_collect (ser_field_count t) t [] ;; Ok (fst r).

(** serialization_attributes.hpp:60 *)
Definition max_aliases : nat := 8.

(** 344-380.  A field with [aliases()] without names is taken to have no aliases. *)
Definition deser_count_of (nested : ty -> nat) :=
  fix go (fs : list (attrs * ty)) : nat :=
    match fs with
    | [] => 0
    | (a, t) :: fs' =>
        (if a_skip_deser a || a_extra a then 0 else if a_flatten a then nested t
         else match a_aliases a with [] => 1 | _ => 1 + max_aliases end) + go fs'
    end.
Fixpoint deser_field_count (t : ty) : nat :=
  match t with TRec fs => deser_count_of deser_field_count fs | _ => 0 end.

(** 398-409: the canonical name and the aliases of one field. *)
Fixpoint push_all (cap : nat) (l : list str) (result : bool) (buf : list str) : outcome (bool * list str) :=
  match l with
  | [] => Ok (result, buf)
  | n :: l' => r <- push_unique cap n buf ;; push_all cap l' (if fst r then result else false) (snd r)
  end.

(** 382-412 *)
Definition deser_collect_of (cap : nat) (nested : ty -> list str -> outcome (bool * list str)) :=
  fix go (fs : list (attrs * ty)) (result : bool) (buf : list str) : outcome (bool * list str) :=
    match fs with
    | [] => Ok (result, buf)
    | (a, t) :: fs' =>
        if a_skip_deser a || a_extra a then go fs' result buf
        else if a_flatten a then
          r <- nested t buf ;; go fs' (if fst r then result else false) (snd r)
        else
          r <- push_all cap (serialized_name a :: a_aliases a) result buf ;;
          go fs' (fst r) (snd r)
    end.
Fixpoint deser_collect (cap : nat) (t : ty) (buf : list str) : outcome (bool * list str) :=
  match t with TRec fs => deser_collect_of cap (deser_collect cap) fs true buf | _ => Ok (true, buf) end.

(** 338-343 [deserialize_field_names_validator::validate] *)
Definition deserialize_names_ok (t : ty) : outcome bool :=
  r <- deser_collect (deser_field_count t) t [] ;; Ok (fst r).
