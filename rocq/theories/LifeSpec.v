(** What trees say, and which regions they point to. *)
From Coq Require Import List Arith Bool.
From Verif Require Import Base LifeModel.
Import ListNotations.

(** The tree without places. *)
Fixpoint contents (v : value) : tree :=
  match v with
  | Null => T_null
  | Scalar n => T_scalar n
  | Str t => T_str (chars t)
  | Arr _ l => T_arr (map contents l)
  | Obj _ l => T_obj (map (fun e => (chars (fst e), contents (snd e))) l)
  end.

(** All that a value points to; of that, what copies of the value point to as well, and what is read to copy it. *)
Definition text_refs (t : text) : list region := match t with Short _ => [] | Copied r _ | Const r _ => [r] end.
Definition text_consts (t : text) : list region := match t with Const r _ => [r] | _ => [] end.
Definition text_copied (t : text) : list region := match t with Copied r _ => [r] | _ => [] end.
Definition buffer_refs (b : option region) : list region := match b with Some r => [r] | None => [] end.
Fixpoint refs (v : value) : list region :=
  match v with
  | Null | Scalar _ => []
  | Str t => text_refs t
  | Arr b l => buffer_refs b ++ flat_map refs l
  | Obj b l => buffer_refs b ++ flat_map (fun e => text_refs (fst e) ++ refs (snd e)) l
  end.
Fixpoint consts (v : value) : list region :=
  match v with
  | Null | Scalar _ => []
  | Str t => text_consts t
  | Arr b l => flat_map consts l
  | Obj b l => flat_map (fun e => text_consts (fst e) ++ consts (snd e)) l
  end.
Fixpoint copied (v : value) : list region :=
  match v with
  | Null | Scalar _ => []
  | Str t => text_copied t
  | Arr b l => buffer_refs b ++ flat_map copied l
  | Obj b l => buffer_refs b ++ flat_map (fun e => text_copied (fst e) ++ copied (snd e)) l
  end.
(** Copies of the value need memory of their own. *)
Definition text_big (limit : nat) (t : text) : bool := match t with Copied _ s => Nat.ltb limit (length s) | _ => false end.
Definition big (limit : nat) (v : value) : bool :=
  match v with Null | Scalar _ => false | Str t => text_big limit t | Arr _ l => negb (Nat.eqb (length l) 0) | Obj _ l => negb (Nat.eqb (length l) 0) end.

(** The names that belong to the objects, and not to the program: keys that are strings, names said to be dynamic. *)
Definition own_name (h : how) : bool :=
  match h with
  | Key | Added_dynamic => true
  | Pointer_key | Name | Added => false
  end.
(** Null members of maps and structures are left out if told so; what builders are told to add is not. *)
Definition left_out (skip : bool) (h : how) (o : object) : bool :=
  match h, o with
  | (Key | Pointer_key | Name), O_null => skip
  | _, _ => false
  end.

Section Objects.
Variables (limit : nat) (skip : bool).
(** What an object says: *)
Fixpoint meaning (o : object) : tree :=
  match o with
  | O_null => T_null
  | O_scalar n => T_scalar n
  | O_text _ s | O_ref _ s => T_str s
  | O_seq l => T_arr (map meaning l)
  | O_object l => T_obj (flat_map (fun e => if left_out skip (fst (fst e)) (snd e) then [] else [(snd (snd (fst e)), meaning (snd e))]) l)
  | O_view (Some v) | O_made v => contents v
  | O_view None => T_null
  end.
(** what its tree goes on pointing to, *)
Fixpoint kept (o : object) : list region :=
  match o with
  | O_null | O_scalar _ | O_text _ _ | O_view None => []
  | O_ref r _ => [r]
  | O_seq l => flat_map kept l
  | O_object l => flat_map (fun e => if left_out skip (fst (fst e)) (snd e) then []
                                     else (if own_name (fst (fst e)) then [] else [fst (snd (fst e))]) ++ kept (snd e)) l
  | O_view (Some v) => consts v
  | O_made v => refs v
  end.
(** what is read to make it, *)
Fixpoint sources (o : object) : list region :=
  match o with
  | O_null | O_scalar _ | O_ref _ _ | O_view None | O_made _ => []
  | O_text r _ => [r]
  | O_seq l => flat_map sources l
  | O_object l => flat_map (fun e => if left_out skip (fst (fst e)) (snd e) then []
                                     else (if own_name (fst (fst e)) then [fst (snd (fst e))] else []) ++ sources (snd e)) l
  | O_view (Some v) => copied v
  end.
(** and whether the tree has parts in the arena. *)
Definition spacious (o : object) : bool :=
  match o with
  | O_null | O_scalar _ | O_ref _ _ | O_view None | O_made _ => false
  | O_text _ s => Nat.ltb limit (length s)
  | O_seq l => negb (Nat.eqb (length l) 0)
  | O_object l => existsb (fun e => negb (left_out skip (fst (fst e)) (snd e))) l
  | O_view (Some v) => big limit v
  end.
(** Views that show something. *)
Fixpoint engaged (o : object) : bool :=
  match o with
  | O_view None => false
  | O_seq l => forallb engaged l
  | O_object l => forallb (fun e => left_out skip (fst (fst e)) (snd e) || engaged (snd e)) l
  | _ => true
  end.
(** Strings, numbers, containers, maps with [std::string] keys, structures with literal names, hooks that add literal names, or others as
    dynamic ones. *)
Fixpoint ordinary (o : object) : bool :=
  match o with
  | O_null | O_scalar _ | O_text _ _ => true
  | O_seq l => forallb ordinary l
  | O_object l => forallb (fun e => (own_name (fst (fst e)) || Nat.eqb (fst (snd (fst e))) statics) && ordinary (snd e)) l
  | _ => false
  end.
End Objects.

Definition lives (live : region -> bool) (l : list region) : Prop := forall r, In r l -> live r = true.

(** What a result points to. *)
Fixpoint uses (r : result) : list region :=
  match r with
  | R_scalar _ | R_none | R_string _ => []
  | R_string_view r _ => [r]
  | R_view c v => c :: refs v
  | R_seq l | R_struct l => flat_map uses l
  | R_map l => flat_map (fun e => uses (snd e)) l
  end.
(** No [std::string_view] and no [json::view] in it. *)
Fixpoint owning (ty : type) : bool :=
  match ty with
  | D_scalar | D_string => true
  | D_string_view | D_view => false
  | D_seq t | D_map t | D_optional t => owning t
  | D_struct l => forallb (fun f => owning (snd f)) l
  end.
(** The value itself is shown, not a part of it. *)
Fixpoint borrows_root (ty : type) : bool :=
  match ty with D_string_view | D_view => true | D_optional t => borrows_root t | _ => false end.

(** The first member of that name, null if there is none. *)
Inductive first_named (n : str) : list (str * tree) -> tree -> Prop :=
| first_none : first_named n [] T_null
| first_this t l : first_named n ((n, t) :: l) t
| first_later m t l u : m <> n -> first_named n l u -> first_named n ((m, t) :: l) u.
(** What a document says as an object of a type, wherever its parts are. *)
Inductive gives : type -> tree -> result -> Prop :=
| gives_scalar n : gives D_scalar (T_scalar n) (R_scalar n)
| gives_string s : gives D_string (T_str s) (R_string s)
| gives_string_view s r : gives D_string_view (T_str s) (R_string_view r s)
| gives_view v r : gives D_view (contents v) (R_view r v)
| gives_seq ty l rs : length rs = length l ->
    (forall i t r, nth_error l i = Some t -> nth_error rs i = Some r -> gives ty t r) -> gives (D_seq ty) (T_arr l) (R_seq rs)
| gives_map ty l rs : map fst rs = map fst l ->
    (forall i s t r, nth_error l i = Some (s, t) -> nth_error rs i = Some (s, r) -> gives ty t r) -> gives (D_map ty) (T_obj l) (R_map rs)
| gives_none ty : gives (D_optional ty) T_null R_none
| gives_some ty t r : t <> T_null -> gives ty t r -> gives (D_optional ty) t r
| gives_struct fs l rs : length rs = length fs ->
    (forall i n ty t r, nth_error fs i = Some (n, ty) -> nth_error rs i = Some r -> first_named n l t -> gives ty t r) ->
    gives (D_struct fs) (T_obj l) (R_struct rs).
