(** Structs whose fields are reached through accessors: ctti.hpp:150-179 [accessor_field], 288-303
    [runtime_field_factory::accessor], reflect_struct.hpp:208-213, and what
    detail/serialization.hpp does with [field.value()] of such fields.

    The object is a value of SerialModel.  An accessor that returns a reference is a function from the object to
    the place it refers to, evaluated at every call of [value()]; one that returns by
    value is a function of the object.  The types of the fields are those of SerialModel, so
    a struct with accessors inside another one is not modelled, nor are references to
    something outside the object, accessors that throw or change the object, and
    [value()] of a const object giving a reference that is not const. *)
From Coq Require Import List NArith ZArith Arith Bool.
From Verif Require Import Base PathModel SerialModel.
Import ListNotations.
Local Open Scope outcome_scope.

Local Notation str := (list N) (only parsing).

(** A member of a struct, an element of a sequence; what an optional holds. *)
Inductive step := Sub (i : nat) | Deref.
Definition place := list step.

(** The value at a place; [None]: there is no such object (an empty optional, an index past the end). *)
Fixpoint load (v : val) (p : place) : option val :=
  match p with
  | [] => Some v
  | Sub i :: p' =>
      match v with
      | VRec vs | VSeq vs => match nth_error vs i with Some x => load x p' | None => None end
      | _ => None
      end
  | Deref :: p' => match v with VSome x => load x p' | _ => None end
  end.

(** The object after an assignment to a place. *)
Fixpoint store (v : val) (p : place) (x : val) : option val :=
  match p with
  | [] => Some x
  | Sub i :: p' =>
      match v with
      | VRec vs =>
          match nth_error vs i with
          | Some y => option_map (fun y' => VRec (upd vs i y')) (store y p' x)
          | None => None
          end
      | VSeq vs =>
          match nth_error vs i with
          | Some y => option_map (fun y' => VSeq (upd vs i y')) (store y p' x)
          | None => None
          end
      | _ => None
      end
  | Deref :: p' => match v with VSome y => option_map VSome (store y p' x) | _ => None end
  end.

(** ctti.hpp:154-179: the callable, by what it returns ([decltype(auto)], 169-173). *)
Inductive accessor :=
| Place (sel : val -> place)
| Value (f : val -> val).

(** 297-302: a field with its attributes, its [value_type] (158-159) and its accessor. *)
Record afield := mkafield { af_attrs : attrs; af_type : ty; af_where : accessor }.

(** What [reflect_type] knows (197-215, 235-249): names, attributes and types, no accessors. *)
Definition described (fs : list afield) : list (attrs * ty) := map (fun f => (af_attrs f, af_type f)) fs.

(** 169-173 [value] *)
Definition value (o : val) (f : afield) : option val :=
  match af_where f with Place sel => load o (sel o) | Value g => Some (g o) end.

(* ------------------------------------------------------------------ *)
(** ** Writing *)

(** detail/serialization.hpp:569-612 [add_reflected_fields]; [value()] is called once for every
    field that is not skipped. *)
Definition acc_ser_fields (skip : bool) (f : ty -> option (list str) -> val -> outcome json) (names : list str) (o : val) :=
  fix go (fs : list afield) : outcome (list (str * json)) :=
    match fs with
    | [] => Ok []
    | fd :: fs' =>
        let a := af_attrs fd in
        let t := af_type fd in
        if a_skip_ser a then go fs'
        else
          match value o fd with
          | None => UB
          | Some v =>
              if skip_serialized_field skip a v then go fs'
              else
                ms <- (if a_extra a then
                         match t, v with
                         | TMap te, VMap kvs => extra_members skip names (f te None) kvs
                         | _, _ => UB
                         end
                       else if a_flatten a then
                         match t with
                         | TRec _ => j <- f t (Some names) v ;; members_of j
                         | _ => UB
                         end
                       else j <- f t None v ;; Ok [(serialized_name a, j)]) ;;
                rest <- go fs' ;;
                Ok (ms ++ rest)
          end
    end.

(** 758-769 [serialize_adl] for a reflectable type *)
Definition acc_serialize (be : backend) (skip : bool) (fs : list afield) (o : val) : outcome json :=
  names <- reserved_field_names (described fs) ;;
  omap JObj (acc_ser_fields skip (ser be skip) names o fs).

(* ------------------------------------------------------------------ *)
(** ** Reading *)

(** The object and the exception; undefined behaviour (a reference to nothing); not compiled, as
    a value does not bind to [T&]. *)
Inductive areads := Did (o : val) (e : option exn) | Undef | Rejected.

Definition athen (r : areads) (k : val -> areads) : areads :=
  match r with Did o None => k o | _ => r end.

(** [f] applied to the object [value()] refers to *)
Definition on_value (fd : afield) (f : val -> dres) (o : val) : areads :=
  match af_where fd with
  | Value _ => Rejected
  | Place sel =>
      match load o (sel o) with
      | None => Undef
      | Some v =>
          let '(v', e) := f v in
          match store o (sel o) v' with Some o' => Did o' e | None => Undef end
      end
  end.

(** 170-187 [validate_field]: [value()] is called again for every validator. *)
Definition acc_validate (fd : afield) (o : val) : areads :=
  match a_validators (af_attrs fd) with
  | [] => Did o None
  | vals =>
      match value o fd with
      | None => Undef
      | Some v => Did o (validate vals v)
      end
  end.

(** 959-977 *)
Definition acc_read_field (fd : afield) (f : json -> val -> dres) (ms : list (str * json)) (o : val) : areads :=
  let a := af_attrs fd in
  match resolve_field_name ms a with
  | None =>
      match a_default a with
      | Some d => on_value fd (fun _ => (d, None)) o
      | None =>
          if a_allow_missing a then Did o None
          else athen (on_value fd (f (at_field ms (serialized_name a))) o) (acc_validate fd)
      end
  | Some name =>
      let node := at_field ms name in
      match is_null node, a_default a with
      | true, Some d => on_value fd (fun _ => (d, None)) o
      | _, _ => athen (on_value fd (f node) o) (acc_validate fd)
      end
  end.

(** 915-986 *)
Definition acc_members (f : ty -> json -> val -> dres) (names : list str) (ms : list (str * json)) :=
  fix go (fs : list afield) (o : val) : areads :=
    match fs with
    | [] => Did o None
    | fd :: fs' =>
        let a := af_attrs fd in
        let t := af_type fd in
        athen
          (if a_skip_deser a then Did o None
           else if a_extra a then
             match t with
             | TMap te =>
                 on_value fd (fun _ => let '(m, e) := extra_loop (f te) (default_of te) names ms [] in (VMap m, e)) o
             | _ => on_value fd (fun v => (v, Some EStuck)) o
             end
           else if a_flatten a then on_value fd (f t (JObj ms)) o
           else acc_read_field fd (f t) ms o)
          (go fs')
    end.

(** 996-1025 *)
Definition acc_elements (f : ty -> json -> val -> dres) (js : list json) :=
  fix go (fs : list afield) (i : nat) (o : val) : areads :=
    match fs with
    | [] => Did o None
    | fd :: fs' =>
        let a := af_attrs fd in
        if a_skip_deser a then go fs' i o
        else if a_extra a || a_flatten a then Did o (Some EDeser)
        else athen (athen (on_value fd (f (af_type fd) (at_index js i)) o) (acc_validate fd)) (go fs' (S i))
    end.

(** Every field that is read is a reference: [deserialize(T& out, ...)] takes [field.value()] (955, 965, 976, 1014). *)
Definition reading_compiles (fs : list afield) : bool :=
  forallb (fun f => a_skip_deser (af_attrs f) || match af_where f with Place _ => true | Value _ => false end) fs.

(** 900-1037 [deserialize_adl] for a reflectable type *)
Definition acc_deser (be : backend) (fs : list afield) (j : json) (o : val) : areads :=
  if negb (reading_compiles fs) then Rejected
  else match j with
  | JObj ms =>
      match reserved_field_names (described fs) with
      | Ok names => acc_members (deser be) names ms fs o
      | _ => Did o (Some ELogic)
      end
  | JArr js =>
      if sequence_field_count (described fs) <? length js then Did o (Some EDeser)
      else acc_elements (deser be) js fs 0 o
  | _ => Did o (Some EDeser)
  end.

(** 1195-1203 *)
Definition acc_patch_field (fd : afield) (f : json -> val -> dres) (ms : list (str * json)) (o : val) : areads :=
  let a := af_attrs fd in
  match resolve_field_name ms a with
  | None => Did o None
  | Some name =>
      let node := at_field ms name in
      match is_null node, a_default a with
      | true, Some d => on_value fd (fun _ => (d, None)) o
      | _, _ => athen (on_value fd (f node) o) (acc_validate fd)
      end
  end.

(** 1140-1215 *)
Definition acc_patch_members (f : ty -> json -> val -> dres) (names : list str) (ms : list (str * json)) :=
  fix go (fs : list afield) (o : val) : areads :=
    match fs with
    | [] => Did o None
    | fd :: fs' =>
        let a := af_attrs fd in
        let t := af_type fd in
        athen
          (if a_skip_deser a then Did o None
           else if a_extra a then
             on_value fd (fun v =>
               match t, v with
               | TMap te, VMap m =>
                   let '(m', e) := patch_extra_loop (f te) (default_of te) names ms m in (VMap m', e)
               | _, _ => (v, Some EStuck)
               end) o
           else if a_flatten a then on_value fd (f t (JObj ms)) o
           else acc_patch_field fd (f t) ms o)
          (go fs')
    end.

(** 1120-1218 [patch_adl] for a reflectable type *)
Definition acc_patch (be : backend) (fs : list afield) (j : json) (o : val) : areads :=
  if negb (reading_compiles fs) then Rejected
  else match j with
  | JObj ms =>
      match reserved_field_names (described fs) with
      | Ok names => acc_patch_members (patch be) names ms fs o
      | _ => Did o (Some ELogic)
      end
  | _ => acc_deser be fs j o
  end.
