(** Samples for [LifeProps]. *)
From Coq Require Import List Arith Bool.
From Verif Require Import Base LifeModel.
Import ListNotations.

(** Regions: 0 literals, 1 the arena, 2 the variable of the document, 3 and on those of the program. *)
Definition arena : region := 1.
Definition variable : region := 2.
Definition all (r : region) : bool := true.
Definition without (d : list region) (r : region) : bool := negb (existsb (Nat.eqb r) d).
Definition long : str := [1; 2; 3; 4; 5; 6; 7; 8; 9; 10; 11; 12; 13; 14].

(** [struct { std::string a; std::optional<int> b; std::map<std::string, int> c; }] *)
Definition record : object :=
  O_object [(Name, (statics, [97]), O_text 3 long); (Name, (statics, [98]), O_null);
            (Name, (statics, [99]), O_object [(Key, (4, long), O_scalar 1); (Key, (4, [100]), O_scalar 2)])].
(** [std::map<const char*, int>] with a key in a buffer *)
Definition pointer_map : object := O_object [(Pointer_key, (3, [97]), O_scalar 1)].
(** [to_object(ctx).add(name, 1)] and [add_dynamic_name], the name in a local variable *)
Definition added : object := O_object [(Added, (3, [97]), O_scalar 1)].
Definition added_dynamic : object := O_object [(Added_dynamic, (3, [97]), O_scalar 1)].
(** A view of a tree that [added] was serialized to. *)
Definition shown : object := O_view (Some (Obj (Some 5) [(Const 3 [97], Scalar 1)])).
(** [{"a": "x", "b": ["long..."]}] *)
Definition document : tree := T_obj [([97], T_str [120]); ([98], T_arr [T_str long])].
Definition views : type := D_struct [([97], D_string_view); ([98], D_seq D_string_view); ([99], D_view); ([100], D_optional D_view)].
(** Serialized with everything alive, read when the regions [d] are gone. *)
Definition later (o : object) (d : list region) : outcome tree := obind (serialize all 13 true arena o) (read (without d)).
(** Deserialized from a document, used when the regions [d] are gone. *)
Definition used_later (ty : type) (t : tree) (d : list region) : outcome unit :=
  obind (deserialize all ty variable (parsed 13 arena t)) (use (without d)).
