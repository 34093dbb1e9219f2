(** Sample schemas for the resource examples and counterexamples. *)
From Coq Require Import String List NArith ZArith Arith Bool.
From Verif Require Import Base PathModel TrackerModel EnumModel SerialModel SerialSpec SerialSamples ResourceModel ResourceSpec.
From Verif Require Base64Spec.
Import ListNotations.

Definition txt (s : string) : list N := Base64Spec.codes s.
Definition at_ (s : string) : path_view :=
  match path_make (txt s) with POk p => path_to_view p | _ => view_default end.

Definition keyed_by (l : list ckey) (a : attrs) : attrs :=
  mkattrs (a_name a) (a_rename a) (a_aliases a) (a_skip_ser a) (a_skip_deser a) (a_emit_null a) (a_skip_if_null a)
    (a_skip_if_empty a) (a_allow_missing a) (a_default a) (a_validators a) (a_flatten a) (a_extra a) (a_init a) (a_read_only a)
    (a_subtree_read_only a) l.
Definition read_only (a : attrs) : attrs :=
  mkattrs (a_name a) (a_rename a) (a_aliases a) (a_skip_ser a) (a_skip_deser a) (a_emit_null a) (a_skip_if_null a)
    (a_skip_if_empty a) (a_allow_missing a) (a_default a) (a_validators a) (a_flatten a) (a_extra a) (a_init a) true
    (a_subtree_read_only a) (a_child_keys a).
Definition subtree_ro (a : attrs) : attrs :=
  mkattrs (a_name a) (a_rename a) (a_aliases a) (a_skip_ser a) (a_skip_deser a) (a_emit_null a) (a_skip_if_null a)
    (a_skip_if_empty a) (a_allow_missing a) (a_default a) (a_validators a) (a_flatten a) (a_extra a) (a_init a) (a_read_only a)
    true (a_child_keys a).
Definition may_miss (a : attrs) : attrs :=
  mkattrs (a_name a) (a_rename a) (a_aliases a) (a_skip_ser a) (a_skip_deser a) (a_emit_null a) (a_skip_if_null a)
    (a_skip_if_empty a) true (a_default a) (a_validators a) (a_flatten a) (a_extra a) (a_init a) (a_read_only a)
    (a_subtree_read_only a) (a_child_keys a).

(** struct item { string name; int n; }, whose validate_resource wants n <= 100 *)
Definition item_ty := TRec [(plain (txt "name") (VStr []), TStr); (plain (txt "n") (VInt 0), int32)].
Definition item (name : string) (n : Z) : val := VRec [VStr (txt name); VInt n].
Definition item_doc (name : string) (n : Z) : json := JObj [(txt "name", JStr (txt name)); (txt "n", JInt n)].

(** struct {
      vector<item> items;          child_key name
      vector<int> nums;
      map<string, int> m;
      optional<vector<int>> ov;
      int ro;                      read_only
      struct { int x; } sub;       subtree_read_only
      int lim;                     validator: at most 100
    } *)
Definition root_ty := TRec [
  (keyed_by [mkckey 0 None] (plain (txt "items") (VSeq [])), TSeq item_ty);
  (plain (txt "nums") (VSeq []), TSeq int32);
  (plain (txt "m") (VMap []), TMap int32);
  (plain (txt "ov") VNone, TOpt (TSeq int32));
  (read_only (plain (txt "ro") (VInt 0)), int32);
  (subtree_ro (plain (txt "sub") (VRec [VInt 0])), TRec [(plain (txt "x") (VInt 0), int32)]);
  (with_validator at_most_100 (plain (txt "lim") (VInt 0)), int32)].

Definition root_val : val := VRec [
  VSeq [item "p" 1; item "q" 2]; VSeq [VInt 7; VInt 8]; VMap [(txt "u", VInt 5); (txt "w", VInt 6)];
  VSome (VSeq [VInt 9]); VInt 3; VRec [VInt 4]; VInt 10].

Definition root_hook (t : ty) (v : val) : option rexn :=
  match t, v with
  | TRec [_; _], VRec [VStr _; VInt n] => if (n <=? 100)%Z then None else Some XValidation
  | _, _ => None
  end.
Definition E0 : env := mkenv root_hook XOther (Json fp0).
Definition root_res : resource := make_resource root_val.

(** struct pair { string a; string b; };
    struct { vector<pair> c; child_key a, child_key b } *)
Definition pair_ty := TRec [(plain (txt "a") (VStr []), TStr); (plain (txt "b") (VStr []), TStr)].
Definition pair (a b : string) : val := VRec [VStr (txt a); VStr (txt b)].
Definition two_keys_ty := TRec [(keyed_by [mkckey 0 None; mkckey 1 None] (plain (txt "c") (VSeq [])), TSeq pair_ty)].
Definition two_keys_val : val := VRec [VSeq [pair "k" "x"; pair "y" "m"]].

(** A matcher that looks at another member of the element. *)
Definition by_b (e k : val) (s : list N) : bool :=
  match e with VRec [_; VStr b] => str_eqb b s | _ => false end.
Definition matcher_ty := TRec [(keyed_by [mkckey 0 (Some by_b)] (plain (txt "c") (VSeq [])), TSeq pair_ty)].

(** struct { struct { int a; map<string, int> x [extra_fields]; } s [allow_missing]; } *)
Definition extra_ty := TRec [
  (may_miss (plain (txt "s") (VRec [VInt 0; VMap []])),
   TRec [(plain (txt "a") (VInt 0), int32); (extra (plain (txt "x") (VMap [])), TMap int32)])].
Definition extra_val : val := VRec [VRec [VInt 1; VMap []]].

(** struct { struct { int x; } s [read_only]; } *)
Definition ro_struct_ty := TRec [(read_only (plain (txt "s") (VRec [VInt 0])), TRec [(plain (txt "x") (VInt 0), int32)])].
Definition ro_struct_val : val := VRec [VRec [VInt 1]].
