(** Where the parts of JSON trees are, and for how long: kl/json.hpp:40-57 ([view]), 82-127 (contexts), 130-163 ([at]), 165-252 (builders),
    417-505 (tree backend), 610-665 ([serialize_adl]), 735-765 ([deserialize_adl]), 838-915; kl/detail/serialization.hpp:570-612,
    717-813, 817-1117.

    Memory is made of regions: one for the literals of the program (0), one for each arena ([rapidjson::Document] or context), one for each
    string or variable. A region is live or not; using what is in one that is not is undefined.

    RapidJSON: [GenericValue]'s constructors from a string and an allocator copy the text, into the value itself if it is short (at
    most [limit] bytes, 13 on 64-bit machines), those without allocator keep the pointer; copying a value into an allocator copies all but
    the texts that are only pointed to ([copyConstStrings = false]); arrays and objects that are not empty have a buffer.

    Left out: numbers and errors other than the wrong kind of value (SerialModel), attributes of fields, tuples and arrays for structures,
    growth of arrays that already have views to their elements. *)
From Coq Require Import List Arith Bool.
From Verif Require Import Base.
Import ListNotations.

Notation region := nat (only parsing).
Notation str := (list nat) (only parsing).
Definition statics : region := 0.

(** ** Values *)

Inductive text :=
| Short (s : str)                  (* in the value *)
| Copied (r : region) (s : str)    (* in an arena *)
| Const (r : region) (s : str).    (* only pointed to *)
Inductive value :=
| Null
| Scalar (n : nat)
| Str (t : text)
| Arr (buffer : option region) (l : list value)
| Obj (buffer : option region) (l : list (text * value)).

(** What there is to read. *)
Inductive tree := T_null | T_scalar (n : nat) | T_str (s : str) | T_arr (l : list tree) | T_obj (l : list (str * tree)).

(** Whether a function of elements fails for one. *)
Definition mapo {A B} (f : A -> outcome B) : list A -> outcome (list B) :=
  fix go l := match l with [] => Ok [] | x :: l' => obind (f x) (fun y => obind (go l') (fun ys => Ok (y :: ys))) end.

Section Live.
Variable live : region -> bool.
Definition at_region {A} (r : region) (x : A) : outcome A := if live r then Ok x else UB.
Definition at_buffer {A} (b : option region) (x : A) : outcome A := match b with Some r => at_region r x | None => Ok x end.

Definition read_text (t : text) : outcome str := match t with Short s => Ok s | Copied r s | Const r s => at_region r s end.
Fixpoint read (v : value) : outcome tree :=
  match v with
  | Null => Ok T_null
  | Scalar n => Ok (T_scalar n)
  | Str t => obind (read_text t) (fun s => Ok (T_str s))
  | Arr b l => obind (at_buffer b tt) (fun _ => obind (mapo read l) (fun ts => Ok (T_arr ts)))
  | Obj b l => obind (at_buffer b tt) (fun _ =>
      obind (mapo (fun e => obind (read_text (fst e)) (fun s => obind (read (snd e)) (fun t => Ok (s, t)))) l) (fun ts => Ok (T_obj ts)))
  end.

(** ** Serialization *)

Variable limit : nat.
Variable arena : region.
Definition copy_text (s : str) : text := if Nat.leb (length s) limit then Short s else Copied arena s.
Definition buffer_for {A} (l : list A) : option region := match l with [] => None | _ => Some arena end.
(** [rapidjson::Value{v, allocator}] *)
Definition deep_text (t : text) : outcome text :=
  match t with
  | Short s => Ok (Short s)
  | Copied r s => obind (at_region r s) (fun s => Ok (copy_text s))
  | Const r s => Ok (Const r s)
  end.
Fixpoint deep (v : value) : outcome value :=
  match v with
  | Null => Ok Null
  | Scalar n => Ok (Scalar n)
  | Str t => obind (deep_text t) (fun t => Ok (Str t))
  | Arr b l => obind (at_buffer b tt) (fun _ => obind (mapo deep l) (fun l => Ok (Arr (buffer_for l) l)))
  | Obj b l => obind (at_buffer b tt) (fun _ =>
      obind (mapo (fun e => obind (deep_text (fst e)) (fun s => obind (deep (snd e)) (fun t => Ok (s, t)))) l) (fun l => Ok (Obj (buffer_for l) l)))
  end.
End Live.

(** How members get their names. *)
Inductive how :=
| Key             (* keys of maps that are [std::string]: 445-452 *)
| Pointer_key     (* keys of maps that are [const char*]: 438-443 *)
| Name            (* fields: names or [rename], 438-443 *)
| Added           (* 208-215 *)
| Added_dynamic.  (* 217-235 *)
Definition copies (h : how) : bool := match h with Key | Added_dynamic => true | _ => false end.
(** serialization.hpp:80-88, 728; builders write every member *)
Definition may_skip (h : how) : bool := match h with Key | Pointer_key | Name => true | _ => false end.

Inductive object :=
| O_null                                             (* [std::nullopt], [nullptr] *)
| O_scalar (n : nat)
| O_text (r : region) (s : str)                      (* [std::string], [std::string_view], [const char*]: 642-661 *)
| O_ref (r : region) (s : str)                       (* [rapidjson::Value::StringRefType]: 621-628 *)
| O_seq (l : list object)                            (* also [to_array(ctx).add(...)] *)
| O_object (l : list (how * (region * str) * object)) (* structures, maps, [to_object(ctx).add(...)] *)
| O_view (v : option value)                          (* [json::view] *)
| O_made (v : value).                                (* a [rapidjson::Value] from elsewhere, moved into a builder or returned by a hook *)

Definition is_null (o : object) : bool := match o with O_null => true | _ => false end.

Section Serialize.
Variable live : region -> bool.
Variables (limit : nat) (skip : bool) (arena : region).

Definition skipped (h : how) (o : object) : bool := skip && may_skip h && is_null o.
Definition name_text (h : how) (n : region * str) : outcome text :=
  if copies h then obind (at_region live (fst n) (snd n)) (fun s => Ok (copy_text limit arena s)) else Ok (Const (fst n) (snd n)).
Fixpoint serialize (o : object) : outcome value :=
  match o with
  | O_null => Ok Null
  | O_scalar n => Ok (Scalar n)
  | O_text r s => obind (at_region live r s) (fun s => Ok (Str (copy_text limit arena s)))
  | O_ref r s => Ok (Str (Const r s))
  | O_seq l => obind (mapo serialize l) (fun l => Ok (Arr (buffer_for arena l) l))
  | O_object l =>
      obind ((fix go l :=
        match l with
        | [] => Ok []
        | e :: l' =>
            if skipped (fst (fst e)) (snd e) then go l'
            else
              obind (serialize (snd e)) (fun v => obind (name_text (fst (fst e)) (snd (fst e))) (fun t => obind (go l') (fun l => Ok ((t, v) :: l))))
        end) l) (fun l => Ok (Obj (buffer_for arena l) l))
  | O_view None => UB                                (* 44, 47: a null pointer *)
  | O_view (Some v) => deep live limit arena v
  | O_made v => Ok v
  end.
End Serialize.

(** [parse]: RapidJSON copies every text. *)
Fixpoint parsed (limit : nat) (arena : region) (t : tree) : value :=
  match t with
  | T_null => Null
  | T_scalar n => Scalar n
  | T_str s => Str (copy_text limit arena s)
  | T_arr l => Arr (buffer_for arena l) (map (parsed limit arena) l)
  | T_obj l => Obj (buffer_for arena l) (map (fun e => (copy_text limit arena (fst e), parsed limit arena (snd e))) l)
  end.

(** ** Deserialization *)

Inductive type :=
| D_scalar | D_string
| D_string_view                       (* 745-755 *)
| D_view                              (* 757-761 *)
| D_seq (t : type) | D_map (t : type) | D_optional (t : type)
| D_struct (l : list (str * type)).
Inductive result :=
| R_scalar (n : nat) | R_none
| R_string (s : str)                  (* owns its bytes *)
| R_string_view (r : region) (s : str)
| R_view (r : region) (v : value)     (* points to [v], which is in region [r] *)
| R_seq (l : list result) | R_map (l : list (str * result)) | R_struct (l : list result).

Fixpoint str_eqb (a b : str) : bool :=
  match a, b with [], [] => true | x :: a', y :: b' => Nat.eqb x y && str_eqb a' b' | _, _ => false end.
Section Deserialize.
Variable live : region -> bool.

(** Where the bytes of a text are, if the value is in region [c]. *)
Definition bytes_at (c : region) (t : text) : region := match t with Short _ => c | Copied r _ | Const r _ => r end.
Definition chars (t : text) : str := match t with Short s | Copied _ s | Const _ s => s end.
Definition cell_of (b : option region) : region := match b with Some r => r | None => statics end.

(** 146-163, 422-436: the first member of that name, or the static null value *)
Fixpoint find_field (c : region) (n : str) (l : list (text * value)) : outcome (region * value) :=
  match l with
  | [] => Ok (statics, Null)
  | (t, v) :: l' => obind (read_text live t) (fun s => if str_eqb s n then Ok (c, v) else find_field c n l')
  end.

(** [v] is in region [c]. *)
Fixpoint deserialize (ty : type) (c : region) (v : value) : outcome result :=
  match ty with
  | D_view => Ok (R_view c v)                                            (* the pointer; nothing is read *)
  | _ =>
  obind (at_region live c tt) (fun _ =>
  match ty, v with
  | D_scalar, Scalar n => Ok (R_scalar n)
  | D_string, Str t => obind (read_text live t) (fun s => Ok (R_string s))
  | D_string_view, Str t => Ok (R_string_view (bytes_at c t) (chars t))
  | D_seq ty, Arr b l => obind (mapo (deserialize ty (cell_of b)) l) (fun l => Ok (R_seq l))
  | D_map ty, Obj b l =>
      obind (at_buffer live b tt) (fun _ =>
      obind (mapo (fun e => obind (read_text live (fst e)) (fun s => obind (deserialize ty (cell_of b) (snd e)) (fun r => Ok (s, r)))) l)
        (fun l => Ok (R_map l)))
  | D_optional ty, Null => Ok R_none
  | D_optional ty, _ => deserialize ty c v
  | D_struct fs, Obj b l =>
      obind (at_buffer live b tt) (fun _ =>
      obind (mapo (fun f => obind (find_field (cell_of b) (fst f) l) (fun p => deserialize (snd f) (fst p) (snd p))) fs) (fun l => Ok (R_struct l)))
  | _, _ => Throws
  end)
  end.
End Deserialize.

(** Using what was read. *)
Section Use.
Variable live : region -> bool.
Fixpoint use (r : result) : outcome unit :=
  match r with
  | R_scalar _ | R_none | R_string _ => Ok tt
  | R_string_view r _ => at_region live r tt
  | R_view c v => obind (at_region live c tt) (fun _ => obind (read live v) (fun _ => Ok tt))
  | R_seq l | R_struct l => obind (mapo use l) (fun _ => Ok tt)
  | R_map l => obind (mapo (fun e => use (snd e)) l) (fun _ => Ok tt)
  end.
End Use.
