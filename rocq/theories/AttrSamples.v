(** Fields and structs used in the examples of AttrProps. *)
From Coq Require Import String List NArith ZArith.
From Verif Require Import PathModel ScalarSpec SerialModel SerialSamples ReflectModel ReflectSamples AttrModel.
Import ListNotations.
Local Open Scope string_scope.
Local Open Scope list_scope.

Definition aliases (l : list string) : attribute payload :=
  mkattribute (Cls CAliases []) (fun _ => PNames (map codes l)).
Definition rename (s : string) : attribute payload := mkattribute (Cls CRename []) (fun _ => PName (codes s)).
Definition default_value (z : Z) : attribute payload := mkattribute (Cls (CDefault 0) []) (fun _ => PValue (VInt z)).
Definition validate (f : val -> verdict) : attribute payload := mkattribute (Cls (CValidate 0) []) (fun _ => PValidator f).
Definition skip : attribute payload := mkattribute c_skip (fun _ => PNone).

(** [struct documented_default : default_value_t<int> {}] *)
Definition c_derived_default := Cls (CUser 4) [(false, true, Cls (CDefault 0) [])].
Definition derived_default (z : Z) : attribute payload := mkattribute c_derived_default (fun _ => PValue (VInt z)).

(** [rename("width"), aliases("w"), aliases("breadth"), default_value(1), default_value(2), validate(...)] *)
Definition width : srcfield :=
  mksrc (codes "w_") [rename "width"; aliases ["w"; "wd"]; aliases ["breadth"]; default_value 1; default_value 2; validate at_most_100].

Definition height : srcfield := mksrc (codes "height") [derived_default 3].

(** The record for [width]. *)
Definition width_attrs : attrs :=
  mkattrs (codes "w_") (Some (codes "width")) [codes "w"; codes "wd"] false false false false false false
    (Some (VInt 1)) [at_most_100] false false (VInt 0) false false [].

(** A field only read and one only written, both called [id], and a flattened member. *)
Definition only_read (a : attrs) : attrs :=
  mkattrs (a_name a) (a_rename a) (a_aliases a) true false (a_emit_null a) (a_skip_if_null a)
    (a_skip_if_empty a) (a_allow_missing a) (a_default a) (a_validators a) (a_flatten a) (a_extra a) (a_init a) (a_read_only a)
    (a_subtree_read_only a) (a_child_keys a).
Definition only_written (a : attrs) : attrs :=
  mkattrs (a_name a) (a_rename a) (a_aliases a) false true (a_emit_null a) (a_skip_if_null a)
    (a_skip_if_empty a) (a_allow_missing a) (a_default a) (a_validators a) (a_flatten a) (a_extra a) (a_init a) (a_read_only a)
    (a_subtree_read_only a) (a_child_keys a).
Definition in_and_out : ty :=
  TRec [(only_read (plain (codes "id") (VInt 0)), int32);
        (only_written (plain (codes "id") (VInt 0)), int32);
        (flattened (plain (codes "rest") (VRec [])), TRec [])].

(** A flattened member and an alias that give the same name. *)
Definition inner_ty : ty := TRec [(plain (codes "x") (VInt 0), int32); (plain (codes "y") (VInt 0), int32)].
Definition clashing_ty : ty :=
  TRec [(flattened (plain (codes "pos") (VRec [VInt 0; VInt 0])), inner_ty);
        (with_alias [codes "z"; codes "y"] (plain (codes "a") (VInt 0)), int32)].
Definition fine_ty : ty :=
  TRec [(flattened (plain (codes "pos") (VRec [VInt 0; VInt 0])), inner_ty);
        (with_alias [codes "z"; codes "w"] (plain (codes "a") (VInt 0)), int32)].

(** Names that differ only after a zero. *)
Definition zero_ty : ty :=
  TRec [(plain (codes "x" ++ [0%N; 97%N]) (VInt 0), int32); (plain (codes "x" ++ [0%N; 98%N]) (VInt 0), int32)].
