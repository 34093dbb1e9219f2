(** Sample types for the serialization examples and counterexamples. *)
From Coq Require Import String List NArith ZArith Arith Bool.
From Verif Require Import Base EnumModel ScalarModel ScalarSpec SerialModel SerialSpec.
Import ListNotations.

(** A field with no attributes. *)
Definition plain (n : list N) (init : val) : attrs :=
  mkattrs n None [] false false false false false false None [] false false init false false [].

Definition with_alias (l : list (list N)) (a : attrs) : attrs :=
  mkattrs (a_name a) (a_rename a) l (a_skip_ser a) (a_skip_deser a) (a_emit_null a) (a_skip_if_null a) (a_skip_if_empty a)
    (a_allow_missing a) (a_default a) (a_validators a) (a_flatten a) (a_extra a) (a_init a) (a_read_only a)
    (a_subtree_read_only a) (a_child_keys a).
Definition with_default (d : val) (a : attrs) : attrs :=
  mkattrs (a_name a) (a_rename a) (a_aliases a) (a_skip_ser a) (a_skip_deser a) (a_emit_null a) (a_skip_if_null a)
    (a_skip_if_empty a) (a_allow_missing a) (Some d) (a_validators a) (a_flatten a) (a_extra a) (a_init a) (a_read_only a)
    (a_subtree_read_only a) (a_child_keys a).
Definition with_skip_if_empty (a : attrs) : attrs :=
  mkattrs (a_name a) (a_rename a) (a_aliases a) (a_skip_ser a) (a_skip_deser a) (a_emit_null a) (a_skip_if_null a)
    true (a_allow_missing a) (a_default a) (a_validators a) (a_flatten a) (a_extra a) (a_init a) (a_read_only a)
    (a_subtree_read_only a) (a_child_keys a).
Definition with_validator (f : val -> verdict) (a : attrs) : attrs :=
  mkattrs (a_name a) (a_rename a) (a_aliases a) (a_skip_ser a) (a_skip_deser a) (a_emit_null a) (a_skip_if_null a)
    (a_skip_if_empty a) (a_allow_missing a) (a_default a) [f] (a_flatten a) (a_extra a) (a_init a) (a_read_only a)
    (a_subtree_read_only a) (a_child_keys a).
Definition flattened (a : attrs) : attrs :=
  mkattrs (a_name a) (a_rename a) (a_aliases a) (a_skip_ser a) (a_skip_deser a) (a_emit_null a) (a_skip_if_null a)
    (a_skip_if_empty a) (a_allow_missing a) (a_default a) (a_validators a) true (a_extra a) (a_init a) (a_read_only a)
    (a_subtree_read_only a) (a_child_keys a).
Definition extra (a : attrs) : attrs :=
  mkattrs (a_name a) (a_rename a) (a_aliases a) (a_skip_ser a) (a_skip_deser a) (a_emit_null a) (a_skip_if_null a)
    (a_skip_if_empty a) (a_allow_missing a) (a_default a) (a_validators a) (a_flatten a) true (a_init a) (a_read_only a)
    (a_subtree_read_only a) (a_child_keys a).

Definition int32 := TInt (mkity true 32).
Definition at_most_100 (v : val) : verdict :=
  match v with VInt z => if (z <=? 100)%Z then Accept else Reject | _ => Accept end.

(** struct { int a; } *)
Definition inner_ty := TRec [(plain [97%N] (VInt 0), int32)].

(** struct {
      inner i;          flatten
      int b;            alias "B", "bb"; at most 100
      optional<int> o;
      vector<int> v;    skip_if_empty, default {}
      map<string, int>  extra_fields
    } *)
Definition sample_ty := TRec [
  (flattened (plain [105%N] (VRec [VInt 0])), inner_ty);
  (with_validator at_most_100 (with_alias [[66%N]; [98%N; 98%N]] (plain [98%N] (VInt 0))), int32);
  (plain [111%N] VNone, TOpt int32);
  (with_skip_if_empty (with_default (VSeq []) (plain [118%N] (VSeq []))), TSeq int32);
  (extra (plain [120%N] (VMap [])), TMap int32)].

Definition sample : val :=
  VRec [VRec [VInt 1]; VInt 2; VNone; VSeq []; VMap [([121%N], VInt 5); ([122%N], VInt 6)]].

Definition sample_doc : json :=
  JObj [([97%N], JInt 1); ([98%N], JInt 2); ([121%N], JInt 5); ([122%N], JInt 6)].

(** The same in YAML. *)
Definition sample_yaml : json :=
  JObj [([97%N], JStr (codes "1")); ([98%N], JStr (codes "2")); ([121%N], JStr (codes "5")); ([122%N], JStr (codes "6"))].

(** C38: struct inner { int a; map<string, int> more [extra_fields]; };
    struct outer { inner i [flatten]; int b; }; *)
Definition inner_extra_ty := TRec [(plain [97%N] (VInt 0), int32); (extra (plain [109%N] (VMap [])), TMap int32)].
Definition outer_extra_ty := TRec [
  (flattened (plain [105%N] (VRec [VInt 0; VMap []])), inner_extra_ty); (plain [98%N] (VInt 0), int32)].
Definition outer_extra : val := VRec [VRec [VInt 1; VMap []]; VInt 2].

(** A validator on a flattened field, and one on the extra fields. *)
Definition always_rejects (v : val) : verdict := Reject.
Definition guarded_ty := TRec [
  (with_validator always_rejects (flattened (plain [105%N] (VRec [VInt 0]))), inner_ty);
  (with_validator always_rejects (extra (plain [120%N] (VMap []))), TMap int32)].

(** A validator on a field whose default it rejects. *)
Definition bad_default_ty := TRec [(with_validator at_most_100 (with_default (VInt 500) (plain [97%N] (VInt 0))), int32)].

(** optional<optional<int>>, a map of optionals, a vector that is left out when
    empty and has no default. *)
Definition opt_opt_ty := TOpt (TOpt int32).
Definition map_opt_ty := TMap (TOpt int32).
Definition skipped_ty := TRec [(with_skip_if_empty (plain [118%N] (VSeq [])), TSeq int32)].

(** A conversion of numbers that is exact on small ones, for the examples. *)
Definition fp0 := mkfpconv (fun z => Z.to_N z) (fun b => b) (fun b => b).
Definition js0 := Json fp0.

(** Texts for the bits of a number, for the examples. *)
Definition as_text (b : N) : list N := int_text (Z.of_N b).
Definition of_text (s : list N) : option N := match text_int u64 s with Some z => Some (Z.to_N z) | None => None end.
Definition ft0 := mkfptext as_text of_text as_text of_text.
Definition ym0 := Yaml ft0.

(** Two fields that answer to the same name, next to extra fields. *)
Definition clash_fields : list (attrs * ty) :=
  [(plain [97%N] (VBool false), TBool); (with_alias [[97%N]] (plain [98%N] (VBool false)), TBool);
   (extra (plain [120%N] (VMap [])), TMap TBool)].
