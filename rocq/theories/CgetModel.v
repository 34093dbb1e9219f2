(** Reading at a path through fields whose accessor returns by value: resource_op.hpp:506-660 ([visit_node], [visit_at_path]), 661-683
    ([dump_at_path], [serialize_at_path]), 848-862 ([get]); ctti.hpp:150-179 ([accessor_field]), 325-334 ([reflect_object]).

    [node.value()] of such a field is a temporary, which lives to the end of the full expression.  [visit_node] goes on to a field of
    a structure within the call of [reflect_object] (519) and to an element that is found by key within a range-based [for] over the
    temporary (581), but takes the element of an index (612-621) by a reference that a lambda returns.  [put], [post], [patch] and [delete] do not
    compile for such fields ([rollback_value] takes an lvalue), nor does [get] if one is an optional or a map (553, 565 take lvalues).

    Members are numbered; accessors that return references are members.  Left out: accessors that throw, that return const objects by
    value or that have effects, access contexts (not used by [get]), keys of a type other than a string ([DispModel]). *)
From Coq Require Import List NArith Arith Bool.
From Verif Require Import Base.
Import ListNotations.

Notation str := (list N) (only parsing).

Inductive val :=
| VLeaf (n : N)
| VStruct (members : list val)
| VNone
| VSome (v : val)
| VMap (l : list (str * val))
| VSeq (l : list val).

(** What a field refers to. *)
Inductive source :=
| Member (i : nat)
| Computed (f : val -> val).

Inductive ty :=
| Leaf
| Opt (t : ty)
| Map (t : ty)
| Seq (t : ty)
| Struct (fields : list (str * source * list (val -> str -> bool) * ty)).  (* name, source, [child_key] attributes *)

(** An object that lives, a function call that makes it, or a reference to one that is gone. *)
Inductive node := Stable (v : val) | Temp (v : val) | Gone.

Definition same (a b : str) : bool := if list_eq_dec N.eq_dec a b then true else false.

(** The field of an object that lives. *)
Definition field_of (object : val) (s : source) : option node :=
  match s with
  | Member i => match object with VStruct ms => option_map Stable (nth_error ms i) | _ => None end
  | Computed f => Some (Temp (f object))
  end.

(** 576-594: the first element that an attribute matches, attribute by attribute. *)
Definition by_key (keys : list (val -> str -> bool)) (l : list val) (segment : str) : option val :=
  fold_right (fun k rest => match find (fun x => k x segment) l with Some x => Some x | None => rest end) None keys.

Section Visit.
(** resource_op.hpp:470-484. *)
Context (parse_index : str -> option nat).

Fixpoint visit (t : ty) (keys : list (val -> str -> bool)) (n : node) (p : list str) {struct t} : outcome val :=
  match p with
  | [] => match n with Stable v | Temp v => Ok v | Gone => UB end
  | segment :: p' =>
      match t with
      | Leaf => Throws
      | Struct fields =>
          (fix go (fs : list (str * source * list (val -> str -> bool) * ty)) : outcome val :=
             match fs with
             | [] => Throws
             | (name, s, ks, t') :: fs' =>
                 if same name segment then
                   match n with
                   | Gone => UB
                   | Stable v | Temp v => match field_of v s with Some c => visit t' ks c p' | None => Throws end
                   end
                 else go fs'
             end) fields
      | Opt t' =>
          match n with
          | Gone => UB
          | Stable (VSome v) => visit t' [] (Stable v) p
          | _ => Throws
          end
      | Map t' =>
          match n with
          | Gone => UB
          | Stable (VMap l) =>
              match find (fun e => same (fst e) segment) l with Some e => visit t' [] (Stable (snd e)) p' | None => Throws end
          | _ => Throws
          end
      | Seq t' =>
          match keys with
          | _ :: _ =>
              match n with
              | Gone => UB
              | Stable (VSeq l) | Temp (VSeq l) =>
                  match by_key keys l segment with Some v => visit t' [] (Stable v) p' | None => Throws end
              | _ => Throws
              end
          | [] =>
              match parse_index segment with
              | None => Throws
              | Some i =>
                  match n with
                  | Gone => UB
                  | Stable (VSeq l) => match nth_error l i with Some v => visit t' [] (Stable v) p' | None => Throws end
                  | Temp (VSeq l) => match nth_error l i with Some v => visit t' [] Gone p' | None => Throws end
                  | _ => Throws
                  end
              end
          end
      end
  end.

(** 848-852, with what the dumper is given. *)
Definition get (t : ty) (root : val) (p : list str) : outcome val := visit t [] (Stable root) p.
End Visit.
