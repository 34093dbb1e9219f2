(** Documents made and taken apart by hand: [to_array], [to_object], [from_array],
    [from_object] (json.hpp:167-350) and [to_sequence], [to_map], [from_sequence],
    [from_map] (yaml.hpp:116-263), on the types of SerialModel.

    Not modelled: overloads that take a ready [rapidjson::Value] or [YAML::Node], and keys of YAML
    maps that are not text. *)
From Coq Require Import String List NArith ZArith Arith Bool.
From Verif Require Import Base PathModel ScalarModel SerialModel SerialMsgModel.
Import ListNotations.
Local Open Scope list_scope.

Local Notation str := (list N) (only parsing).

Section Build.
Context (be : backend) (skip : bool).

(* ------------------------------------------------------------------ *)
(** ** Arrays *)

(** What the builder holds; [None]: a [rapidjson::Value] that was moved from, which
    is null. *)
Definition astate := option (list json).

(** json.hpp:171-174, yaml.hpp:120-123 *)
Definition new_array : astate := Some [].

(** json.hpp:176-186, yaml.hpp:125-135: the builder afterwards, and how the call ended.  [PushBack]
    on a null value is undefined. *)
Definition add_element (t : ty) (v : val) (s : astate) : astate * outcome unit :=
  match serialize be skip t v with
  | Ok j =>
      match s with
      | Some js => (Some (js ++ [j]), Ok tt)
      | None => (None, UB)
      end
  | Throws => (s, Throws)
  | UB => (s, UB)
  end.

(** json.hpp:188-189: the value is moved out.  yaml.hpp:137-138: a [YAML::Node] has no move constructor, and a
    copy is another reference to the same node, so the builder keeps it. *)
Definition done_array (s : astate) : json * astate :=
  match s with
  | Some js => (JArr js, match be with Json _ => None | Yaml _ => s end)
  | None => (JNull, None)
  end.

(** Calls on one builder, and what the documents returned by [done] hold after all of
    them: those of YAML are the builder's node. *)
Inductive acall := AAdd (t : ty) (v : val) | ADone.

Fixpoint array_calls (l : list acall) (s : astate) : outcome (astate * list json) :=
  match l with
  | [] => Ok (s, [])
  | AAdd t v :: l' =>
      match add_element t v s with
      | (s', Ok _) => array_calls l' s'
      | (_, Throws) => Throws
      | (_, UB) => UB
      end
  | ADone :: l' =>
      let '(j, s') := done_array s in
      match array_calls l' s' with
      | Ok (s'', js) => Ok (s'', match be, s'' with Yaml _, Some es => JArr es | _, _ => j end :: js)
      | Throws => Throws
      | UB => UB
      end
  end.

(* ------------------------------------------------------------------ *)
(** ** Objects *)

(** A [std::string_view] into the buffer [b]: the first [n] of its characters.  A memory gives the contents of
    the buffers that exist. *)
Record view := mkview { v_buffer : nat; v_size : nat }.
Definition memory := nat -> option str.

Definition read_view (m : memory) (w : view) : outcome str :=
  match m (v_buffer w) with
  | Some s => if v_size w <=? length s then Ok (firstn (v_size w) s) else UB
  | None => UB
  end.

(** The name of a member: a copy, or the view. *)
Inductive name := Copied (s : str) | Viewed (w : view).

Definition ostate := option (list (name * json)).

Definition new_object : ostate := Some [].

(** yaml-cpp: [node[key] = value] replaces the value of a key that is there. *)
Fixpoint set_member (n : str) (j : json) (ms : list (name * json)) : list (name * json) :=
  match ms with
  | [] => [(Copied n, j)]
  | (Copied n', j') :: ms' => if str_eqb n n' then (Copied n', j) :: ms' else (Copied n', j') :: set_member n j ms'
  | x :: ms' => x :: set_member n j ms'
  end.

(** json.hpp:210-250: [add] keeps the view ([dynamic] is false), [add_dynamic_name] copies the text;
    [AddMember] does not look for the name.  yaml.hpp:155-166. *)
Definition add_member (dynamic : bool) (m : memory) (w : view) (t : ty) (v : val) (s : ostate) : ostate * outcome unit :=
  match serialize be skip t v with
  | Ok j =>
      match be with
      | Json _ =>
          match (if dynamic then match read_view m w with Ok n => Ok (Copied n) | Throws => Throws | UB => UB end else Ok (Viewed w)), s with
          | Ok n, Some ms => (Some (ms ++ [(n, j)]), Ok tt)
          | _, _ => (s, UB)
          end
      | Yaml _ =>
          match read_view m w, s with
          | Ok n, Some ms => (Some (set_member n j ms), Ok tt)
          | _, _ => (s, UB)
          end
      end
  | Throws => (s, Throws)
  | UB => (s, UB)
  end.

(** json.hpp:252-253, yaml.hpp:168-169 *)
Definition done_object (s : ostate) : option (list (name * json)) := s.

(** The members as they are found when the memory is [m]. *)
Fixpoint members (m : memory) (ms : list (name * json)) : outcome (list (str * json)) :=
  match ms with
  | [] => Ok []
  | (n, j) :: ms' =>
      match (match n with Copied s => Ok s | Viewed w => read_view m w end), members m ms' with
      | Ok s, Ok r => Ok ((s, j) :: r)
      | _, _ => UB
      end
  end.

(** The value of one [add] or [add_dynamic_name]. *)
Record entry := mkentry { e_dynamic : bool; e_view : view; e_type : ty; e_value : val }.

(** A chain [to_object(ctx).add(...)....add(...).done()] run in the memory [m], and the document when
    the memory is [m']. *)
Fixpoint add_members (m : memory) (es : list entry) (s : ostate) : outcome ostate :=
  match es with
  | [] => Ok s
  | e :: es' =>
      match add_member (e_dynamic e) m (e_view e) (e_type e) (e_value e) s with
      | (s', Ok _) => add_members m es' s'
      | (_, Throws) => Throws
      | (_, UB) => UB
      end
  end.

Definition build_object (m m' : memory) (es : list entry) : outcome json :=
  match add_members m es new_object with
  | Ok s =>
      match done_object s with
      | Some ms => match members m' ms with Ok r => Ok (JObj r) | _ => UB end
      | None => Ok JNull
      end
  | Throws => Throws
  | UB => UB
  end.

End Build.

(* ------------------------------------------------------------------ *)
(** ** Taking apart *)

Section Extract.
Context (be : backend) (tname : list (attrs * ty) -> str).

(** json.hpp:260-272, yaml.hpp:176-188: the constructor, then the calls [extract(name, out)] of a chain, on the
    variables [vs].  A name is a [const char*]. *)
Fixpoint extract_members (ms : list (str * json)) (fs : list (str * ty)) (vs : list val) : list val * option report :=
  match fs, vs with
  | (n, t) :: fs', v :: vs' =>
      match xdeser be tname t (at_field ms (c_string n)) v with
      | (v', None) => let '(r, e) := extract_members ms fs' vs' in (v' :: r, e)
      | (v', Some e) => (v' :: vs', Some (add (LField Deserializing (c_string n)) e))
      end
  | _, _ => (vs, None)
  end.

Definition from_object (j : json) (fs : list (str * ty)) (vs : list val) : list val * option report :=
  match j with
  | JObj ms => extract_members ms fs vs
  | _ => (vs, Some (Error (expected be "an object"%string "a map"%string j) []))
  end.

(** json.hpp:300-333, yaml.hpp:216-249: [extract(out, index)] and [extract(out)]; the index is an
    [unsigned] of 32 bits. *)
Definition next_index (i : N) : N := ((i + 1) mod 2 ^ 32)%N.

Definition extract_element (js : list json) (t : ty) (at_ : option N) (i : N) (v : val) : val * N * option report :=
  let i := match at_ with Some k => k | None => i end in
  match xdeser be tname t (at_index js (N.to_nat i)) v with
  | (v', None) => (v', next_index i, None)
  | (v', Some e) => (v', i, Some (add (LElement (N.to_nat i)) e))
  end.

Fixpoint extract_elements (js : list json) (ts : list (ty * option N)) (i : N) (vs : list val) : list val * N * option report :=
  match ts, vs with
  | (t, k) :: ts', v :: vs' =>
      match extract_element js t k i v with
      | (v', i', None) => let '(r, i'', e) := extract_elements js ts' i' vs' in (v' :: r, i'', e)
      | (v', i', Some e) => (v' :: vs', i', Some e)
      end
  | _, _ => (vs, i, None)
  end.

Definition from_array (j : json) (ts : list (ty * option N)) (vs : list val) : list val * N * option report :=
  match j with
  | JArr js => extract_elements js ts 0 vs
  | _ => (vs, 0%N, Some (Error (expected be "an array"%string "a sequence"%string j) []))
  end.

End Extract.
