(** What [deserialize_error::what()] says.  The functions of SerialModel once more,
    with the message of the exception: its first line is the cause, and every
    [catch (deserialize_error& ex)] on the way out adds a line
    (src/serialization_error.cpp:7-11).  SerialMsgProofs shows that the object and the
    exception are those of SerialModel.

    The name [ctti::name] gives to a struct and the messages of validators are
    left open.  A [std::pair] reads as a tuple of two: the text for a sequence of
    more than two elements (1105) is given as the one of tuples (1093). *)
From Coq Require Import String Ascii List NArith ZArith Arith Bool.
From Verif Require Import Base PathModel EnumModel ScalarModel SerialModel.
Import ListNotations.
Local Open Scope list_scope.

Local Notation str := (list N) (only parsing).

Fixpoint bytes (s : string) : str :=
  match s with
  | EmptyString => []
  | String a s' => N_of_ascii a :: bytes s'
  end.

(* ------------------------------------------------------------------ *)
(** ** Lines *)

Inductive doing := Deserializing | Patching.

Inductive cause :=
| CExpected (what got : str)       (* json.cpp:25-71, yaml.cpp:24-49 *)
| CNeither (got : str)             (* 1029-1030 *)
| CLossy                           (* json.hpp:513-516 *)
| CBadConversion                   (* yaml.hpp:535-541: the text is yaml-cpp's *)
| CNoEnumerator (text : str)       (* 1055 *)
| CTooLongRange | CTooLongStruct | CTooLongTuple   (* 881, 993, 1093 *)
| CExtraInSequence | CFlattenInSequence            (* 1007-1008, 1012-1013 *)
| CValidator.                      (* thrown by a validator *)

Inductive line :=
| LField (d : doing) (name : str)
| LExtra (d : doing) (name : str)
| LElement (i : nat)
| LType (d : doing) (name : str).

(** A [deserialize_error] with its lines after the first, or another exception. *)
Inductive report := Error (c : cause) (ls : list line) | LogicError | UserError | Stuck.

(** serialization_error.cpp:7-11 [add], in a [catch (deserialize_error& ex)]. *)
Definition add (l : line) (r : report) : report :=
  match r with Error c ls => Error c (ls ++ [l]) | _ => r end.

Definition kind_of_report (r : report) : exn := match r with Error _ _ => EDeser | LogicError => ELogic | UserError => EUser | Stuck => EStuck end.

Definition xres := (val * option report)%type.

Definition catch (l : line) (r : option report) : option report :=
  match r with Some x => Some (add l x) | None => None end.

(* ------------------------------------------------------------------ *)
(** ** Text *)

Definition doing_text (d : doing) : str :=
  match d with Deserializing => bytes "deserializing" | Patching => bytes "patching" end.

Definition line_text (l : line) : str :=
  match l with
  | LField d n => bytes "error when " ++ doing_text d ++ bytes " field " ++ n
  | LExtra d n => bytes "error when " ++ doing_text d ++ bytes " extra field " ++ n
  | LElement i => bytes "error when deserializing element " ++ int_text (Z.of_nat i)
  | LType d n => bytes "error when " ++ doing_text d ++ bytes " type " ++ n
  end.

Section WithText.
Context (conversion reason : str).

Definition cause_text (c : cause) : str :=
  match c with
  | CExpected what got => bytes "type must be " ++ what ++ bytes " but is a " ++ got
  | CNeither got => bytes "type must be a sequence or map but is a " ++ got
  | CLossy => bytes "value cannot be losslessly stored in the variable"
  | CBadConversion => conversion
  | CNoEnumerator t => bytes "invalid enum value: " ++ t
  | CTooLongRange => bytes "sequence size is greater than declared range field count"
  | CTooLongStruct => bytes "sequence size is greater than declared struct's field count"
  | CTooLongTuple => bytes "sequence size is greater than declared tuple field count"
  | CExtraInSequence => bytes "extra_fields fields are not supported in sequence deserialization"
  | CFlattenInSequence => bytes "flatten fields are not supported in sequence deserialization"
  | CValidator => reason
  end.

(** The text a [const char*] into a string points to. *)
Fixpoint c_string (s : str) : str :=
  match s with
  | [] => []
  | x :: s' => if (x =? 0)%N then [] else x :: c_string s'
  end.

(** serialization_error.cpp:7-11: [messages_], a new line before every added message;
    [add] takes a [const char*]. *)
Definition messages (c : cause) (ls : list line) : str :=
  fold_left (fun m l => (m ++ [10%N]) ++ c_string (line_text l)) ls (cause_text c).

(** serialization_error.hpp:22 [what] *)
Definition what_text (c : cause) (ls : list line) : str := c_string (messages c ls).

End WithText.

(* ------------------------------------------------------------------ *)
(** ** deserialize *)

Section WithBackend.
Context (be : backend) (tname : list (attrs * ty) -> str).

(** json.cpp:20-23, yaml.cpp:19-22 [type_name] *)
Definition kind_name (j : json) : str :=
  match be, j with
  | Json _, JNull => bytes "kNullType"
  | Json _, JBool false => bytes "kFalseType"
  | Json _, JBool true => bytes "kTrueType"
  | Json _, (JInt _ | JDbl _) => bytes "kNumberType"
  | Json _, JStr _ => bytes "kStringType"
  | Json _, JArr _ => bytes "kArrayType"
  | Json _, JObj _ => bytes "kObjectType"
  | Yaml _, JNull => bytes "Null"
  | Yaml _, JArr _ => bytes "Sequence"
  | Yaml _, JObj _ => bytes "Map"
  | Yaml _, _ => bytes "Scalar"
  end.

Definition expected (wj wy : string) (j : json) : cause :=
  CExpected (bytes (match be with Json _ => wj | Yaml _ => wy end)) (kind_name j).

(** Why a scalar was refused: json.hpp:679-745, yaml.hpp:528-550. *)
Definition why_leaf (wj : string) (ok : json -> bool) (j : json) : cause :=
  match be with
  | Json _ => if ok j then CLossy else expected wj wj j
  | Yaml _ => match j with JStr _ => CBadConversion | _ => expected wj "a scalar" j end
  end.

Definition is_integral (j : json) : bool := match integral j with Some _ => true | None => false end.

Definition xtake {A} (f : A -> val) (c : cause) (r : option A) (out : val) : xres :=
  match r with Some x => (f x, None) | None => (out, Some (Error c [])) end.

Definition fail (out : val) (c : cause) : xres := (out, Some (Error c [])).

(** 857-871 *)
Fixpoint xseq_loop (f : json -> val -> xres) (d : val) (js : list json) (out : list val)
  : list val * option report :=
  match js with
  | [] => (out, None)
  | j :: js' =>
      match f j d with
      | (v, None) => xseq_loop f d js' (out ++ [v])
      | (_, Some r) => (out, Some (add (LElement (length out)) r))
      end
  end.

(** 883-898 *)
Fixpoint xarr_loop (f : json -> val -> xres) (js : list json) (i : nat) (vs : list val)
  : list val * option report :=
  match vs with
  | [] => ([], None)
  | v :: vs' =>
      match f (at_index js i) v with
      | (v', None) => let '(r, e) := xarr_loop f js (S i) vs' in (v' :: r, e)
      | (v', Some x) => (v' :: vs', Some (add (LElement i) x))
      end
  end.

(** 825-842 *)
Fixpoint xmap_loop (f : json -> val -> xres) (d : val) (ms : list (str * json)) (out : list (str * val))
  : list (str * val) * option report :=
  match ms with
  | [] => (out, None)
  | (k, j) :: ms' =>
      match f j d with
      | (v, None) => xmap_loop f d ms' (map_emplace k v out)
      | (_, Some r) => (out, Some (add (LField Deserializing k) r))
      end
  end.

(** 925-949 *)
Fixpoint xextra_loop (f : json -> val -> xres) (d : val) (names : list str) (ms : list (str * json))
  (out : list (str * val)) : list (str * val) * option report :=
  match ms with
  | [] => (out, None)
  | (k, j) :: ms' =>
      if in_set k names then xextra_loop f d names ms' out
      else
        match f j d with
        | (v, None) => xextra_loop f d names ms' (map_emplace k v out)
        | (_, Some r) => (out, Some (add (LExtra Deserializing k) r))
        end
  end.

(** 170-187 [validate_field] *)
Fixpoint xvalidate (vals : list (val -> verdict)) (v : val) : option report :=
  match vals with
  | [] => None
  | f :: vals' =>
      match f v with
      | Accept => xvalidate vals' v
      | Reject => Some (Error CValidator [])
      | Raise => Some UserError
      end
  end.

Definition xthen_validate (a : attrs) (r : xres) : xres :=
  match r with
  | (v, None) => (v, xvalidate (a_validators a) v)
  | (v, Some e) => (v, Some e)
  end.

(** 959-977 *)
Definition xread_field (a : attrs) (f : json -> val -> xres) (ms : list (str * json)) (v : val) : xres :=
  match resolve_field_name ms a with
  | None =>
      match a_default a with
      | Some d => (d, None)
      | None =>
          if a_allow_missing a then (v, None)
          else xthen_validate a (f (at_field ms (serialized_name a)) v)
      end
  | Some name =>
      let node := at_field ms name in
      match is_null node, a_default a with
      | true, Some d => (d, None)
      | _, _ => xthen_validate a (f node v)
      end
  end.

(** 1081-1086 *)
Definition xdeser_tuple (f : ty -> json -> val -> xres) (js : list json) :=
  fix go (ts : list ty) (i : nat) (vs : list val) : list val * option report :=
    match ts, vs with
    | [], [] => ([], None)
    | t :: ts', v :: vs' =>
        match f t (at_index js i) v with
        | (v', None) => let '(r, e) := go ts' (S i) vs' in (v' :: r, e)
        | (v', Some e) => (v' :: vs', Some e)
        end
    | _, _ => (vs, Some Stuck)
    end.

(** 1071-1075, with 1037-1056 for the elements *)
Definition why_string (j : json) : cause := expected "a string" "a scalar" j.

Fixpoint xset_loop (e : enumty) (js : list json) (acc : Z) : Z * option report :=
  match js with
  | [] => (acc, None)
  | JStr s :: js' =>
      match from_string (e_tab e) s with
      | Some x => xset_loop e js' (es_or (e_ity e) acc x)
      | None => (acc, Some (Error (CNoEnumerator s) []))
      end
  | j :: _ => (acc, Some (Error (why_string j) []))
  end.

(** 915-986 *)
Definition xdeser_members (f : ty -> json -> val -> xres) (names : list str) (ms : list (str * json)) :=
  fix go (fs : list (attrs * ty)) (vs : list val) : list val * option report :=
    match fs, vs with
    | [], [] => ([], None)
    | (a, t) :: fs', v :: vs' =>
        let '(v', e) :=
          if a_skip_deser a then (v, None)
          else if a_extra a then
            match t with
            | TMap te =>
                let '(m, e) := xextra_loop (f te) (default_of te) names ms [] in (VMap m, e)
            | _ => (v, Some Stuck)
            end
          else
            let '(v', e) := if a_flatten a then f t (JObj ms) v else xread_field a (f t) ms v in
            (v', catch (LField Deserializing (a_name a)) e) in
        match e with
        | None => let '(r, e') := go fs' vs' in (v' :: r, e')
        | Some _ => (v' :: vs', e)
        end
    | _, _ => (vs, Some Stuck)
    end.

(** 996-1025 *)
Definition xdeser_elements (f : ty -> json -> val -> xres) (js : list json) :=
  fix go (fs : list (attrs * ty)) (i : nat) (vs : list val) : list val * option report :=
    match fs, vs with
    | [], [] => ([], None)
    | (a, t) :: fs', v :: vs' =>
        if a_skip_deser a then let '(r, e') := go fs' i vs' in (v :: r, e')
        else if a_extra a then (v :: vs', Some (add (LElement i) (Error CExtraInSequence [])))
        else if a_flatten a then (v :: vs', Some (add (LElement i) (Error CFlattenInSequence [])))
        else
          match xthen_validate a (f t (at_index js i) v) with
          | (v', None) => let '(r, e') := go fs' (S i) vs' in (v' :: r, e')
          | (v', Some e) => (v' :: vs', Some (add (LElement i) e))
          end
    | _, _ => (vs, Some Stuck)
    end.

(** 815-1118; the function-try-block of a struct (904-1038) adds the last line. *)
Fixpoint xdeser (t : ty) (j : json) (out : val) {struct t} : xres :=
  match t with
  | TBool => xtake VBool (why_leaf "a boolean" (fun _ => false) j) (dec_bool be j) out
  | TInt it => xtake VInt (why_leaf "an integral" is_integral j) (dec_int be it j) out
  | TDouble => xtake VDbl (why_leaf "a number" (fun _ => false) j) (dec_dbl be j) out
  | TFloat => xtake VFlt (why_leaf "a number" (fun _ => false) j) (dec_flt be j) out
  | TStr => match j with JStr s => (VStr s, None) | _ => fail out (why_string j) end
  | TOpt t' =>
      if is_null j then (VNone, None)
      else
        match xdeser t' j (default_of t') with
        | (v, None) => (VSome v, None)
        | (_, Some e) => (out, Some e)
        end
  | TSeq t' =>
      match j with
      | JArr js => let '(vs, e) := xseq_loop (xdeser t') (default_of t') js [] in (VSeq vs, e)
      | _ => fail out (expected "an array" "a sequence" j)
      end
  | TArr _ t' =>
      match j, out with
      | JArr js, VSeq vs =>
          if length vs <? length js then fail out CTooLongRange
          else let '(r, e) := xarr_loop (xdeser t') js 0 vs in (VSeq r, e)
      | JArr _, _ => (out, Some Stuck)
      | _, _ => fail out (expected "an array" "a sequence" j)
      end
  | TMap t' =>
      match j with
      | JObj ms => let '(m, e) := xmap_loop (xdeser t') (default_of t') ms [] in (VMap m, e)
      | _ => fail out (expected "an object" "a map" j)
      end
  | TTup ts =>
      match j, out with
      | JArr js, VSeq vs =>
          if length ts <? length js then fail out CTooLongTuple
          else let '(r, e) := xdeser_tuple xdeser js ts 0 vs in (VSeq r, e)
      | JArr _, _ => (out, Some Stuck)
      | _, _ => fail out (expected "an array" "a sequence" j)
      end
  | TEnum e =>
      match j with
      | JStr s =>
          match from_string (e_tab e) s with
          | Some z => (VInt z, None)
          | None => fail out (CNoEnumerator s)
          end
      | _ => fail out (why_string j)
      end
  | TSet e =>
      match j with
      | JArr js => let '(z, ex) := xset_loop e js es_empty in (VInt z, ex)
      | _ => fail out (expected "an array" "a sequence" j)
      end
  | TRec fs =>
      let '(v, e) :=
        match j, out with
        | JObj ms, VRec vs =>
            match reserved_field_names fs with
            | Ok names => let '(r, e) := xdeser_members xdeser names ms fs vs in (VRec r, e)
            | _ => (out, Some LogicError)
            end
        | JArr js, VRec vs =>
            if sequence_field_count fs <? length js then fail out CTooLongStruct
            else let '(r, e) := xdeser_elements xdeser js fs 0 vs in (VRec r, e)
        | JObj _, _ | JArr _, _ => (out, Some Stuck)
        | _, _ => fail out (CNeither (kind_name j))
        end in
      (v, catch (LType Deserializing (tname fs)) e)
  end.

(* ------------------------------------------------------------------ *)
(** ** patch *)

(** 1151-1187 *)
Fixpoint xpatch_extra_loop (f : json -> val -> xres) (d : val) (names : list str) (ms : list (str * json))
  (out : list (str * val)) : list (str * val) * option report :=
  match ms with
  | [] => (out, None)
  | (k, j) :: ms' =>
      if in_set k names then xpatch_extra_loop f d names ms' out
      else
        match map_find k out with
        | Some v =>
            match f j v with
            | (v', None) => xpatch_extra_loop f d names ms' (map_assign k v' out)
            | (v', Some r) => (map_assign k v' out, Some (add (LExtra Patching k) r))
            end
        | None =>
            match f j d with
            | (v, None) => xpatch_extra_loop f d names ms' (map_emplace k v out)
            | (_, Some r) => (out, Some (add (LExtra Patching k) r))
            end
        end
  end.

(** 1195-1203 *)
Definition xpatch_field (a : attrs) (f : json -> val -> xres) (ms : list (str * json)) (v : val) : xres :=
  match resolve_field_name ms a with
  | None => (v, None)
  | Some name =>
      let node := at_field ms name in
      match is_null node, a_default a with
      | true, Some d => (d, None)
      | _, _ => xthen_validate a (f node v)
      end
  end.

(** 1140-1215 *)
Definition xpatch_members (f : ty -> json -> val -> xres) (names : list str) (ms : list (str * json)) :=
  fix go (fs : list (attrs * ty)) (vs : list val) : list val * option report :=
    match fs, vs with
    | [], [] => ([], None)
    | (a, t) :: fs', v :: vs' =>
        let '(v', e) :=
          if a_skip_deser a then (v, None)
          else if a_extra a then
            match t, v with
            | TMap te, VMap m =>
                let '(m', e) := xpatch_extra_loop (f te) (default_of te) names ms m in (VMap m', e)
            | _, _ => (v, Some Stuck)
            end
          else
            let '(v', e) := if a_flatten a then f t (JObj ms) v else xpatch_field a (f t) ms v in
            (v', catch (LField Patching (a_name a)) e) in
        match e with
        | None => let '(r, e') := go fs' vs' in (v' :: r, e')
        | Some _ => (v' :: vs', e)
        end
    | _, _ => (vs, Some Stuck)
    end.

(** 1120-1242 *)
Fixpoint xpatch (t : ty) (j : json) (out : val) {struct t} : xres :=
  match t with
  | TOpt t' =>
      if is_null j then (VNone, None)
      else
        match out with
        | VSome v => let '(v', e) := xpatch t' j v in (VSome v', e)
        | VNone =>
            match xpatch t' j (default_of t') with
            | (v, None) => (VSome v, None)
            | (_, Some e) => (out, Some e)
            end
        | _ => (out, Some Stuck)
        end
  | TRec fs =>
      let '(v, e) :=
        match j, out with
        | JObj ms, VRec vs =>
            match reserved_field_names fs with
            | Ok names => let '(r, e) := xpatch_members xpatch names ms fs vs in (VRec r, e)
            | _ => (out, Some LogicError)
            end
        | _, _ => xdeser t j out
        end in
      (v, catch (LType Patching (tname fs)) e)
  | _ => xdeser t j out
  end.

End WithBackend.
