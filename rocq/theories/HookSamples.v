(** Sample validators for the examples and counterexamples. *)
From Coq Require Import String List NArith ZArith Arith Bool.
From Verif Require Import Base PathModel TrackerModel EnumModel SerialModel SerialSpec SerialSamples ResourceModel ResourceSpec
  ResourceSamples HookModel.
Import ListNotations.

(** An int is cut to 100; a negative one is refused.  A string "P" becomes "p". *)
Definition cut_hook (t : ty) (w : unit) (v : val) : unit * val * option hexn :=
  match t, v with
  | TInt _, VInt z =>
      if (z <? 0)%Z then (w, v, Some (HValidation (txt "negative")))
      else (w, VInt (Z.min z 100), None)
  | TStr, VStr s => if str_eqb s (txt "P") then (w, VStr (txt "p"), None) else (w, v, None)
  | _, _ => (w, v, None)
  end.
Definition cut_env : henv unit := mkhenv cut_hook HOther (Json fp0).

(** struct { int a; int b; } *)
Definition two_ty := TRec [(plain (txt "a") (VInt 0), int32); (plain (txt "b") (VInt 0), int32)].
Definition two_val (a b : Z) : val := VRec [VInt a; VInt b].

(** The validator of the struct makes its two members equal. *)
Definition even_hook (t : ty) (w : unit) (v : val) : unit * val * option hexn :=
  match t, v with
  | TRec [_; _], VRec [_; VInt b] => (w, VRec [VInt b; VInt b], None)
  | _, _ => (w, v, None)
  end.
Definition even_env : henv unit := mkhenv even_hook HOther (Json fp0).

(** struct { vector<int> nums; } *)
Definition nums_ty := TRec [(plain (txt "nums") (VSeq []), TSeq int32)].
Definition nums_val (l : list Z) : val := VRec [VSeq (map VInt l)].

Fixpoint insert (z : Z) (l : list val) : list val :=
  match l with
  | VInt y :: l' => if (z <=? y)%Z then VInt z :: l else VInt y :: insert z l'
  | _ => VInt z :: l
  end.
Definition sort (l : list val) : list val :=
  fold_right (fun v acc => match v with VInt z => insert z acc | _ => acc end) [] l.

(** The validator of the vector sorts it and wants at most three elements. *)
Definition sort_hook (t : ty) (w : unit) (v : val) : unit * val * option hexn :=
  match t, v with
  | TSeq _, VSeq l => (w, VSeq (sort l), if (3 <? List.length l)%nat then Some (HValidation (txt "too many")) else None)
  | _, _ => (w, v, None)
  end.
Definition sort_env : henv unit := mkhenv sort_hook HOther (Json fp0).

Definition positive (v : val) : bool := match v with VInt z => (0 <? z)%Z | _ => true end.

(** The validator of the vector removes what is not positive and complains. *)
Definition drop_hook (t : ty) (w : unit) (v : val) : unit * val * option hexn :=
  match t, v with
  | TSeq _, VSeq l =>
      if forallb positive l then (w, v, None) else (w, VSeq (filter positive l), Some (HValidation (txt "not positive")))
  | _, _ => (w, v, None)
  end.
Definition drop_env : henv unit := mkhenv drop_hook HOther (Json fp0).

(** The validator of an item renames it when its number is large. *)
Definition rename_hook (t : ty) (w : unit) (v : val) : unit * val * option hexn :=
  match t, v with
  | TRec [_; _], VRec [VStr _; VInt n] => (w, (if (100 <? n)%Z then item "big" n else v), None)
  | _, _ => (w, v, None)
  end.
Definition rename_env : henv unit := mkhenv rename_hook HOther (Json fp0).

(** The validator of an int counts its calls and refuses the tenth and later ones. *)
Definition count_hook (t : ty) (w : nat) (v : val) : nat * val * option hexn :=
  match t with
  | TInt _ => (S w, v, if (9 <=? w)%nat then Some (HValidation (txt "enough")) else None)
  | _ => (w, v, None)
  end.
Definition count_env : henv nat := mkhenv count_hook HOther (Json fp0).

(** An item must have a number of at most 100. *)
Definition small_verdict (t : ty) (v : val) : option hexn :=
  match t, v with
  | TRec [_; _], VRec [VStr _; VInt n] => if (n <=? 100)%Z then None else Some (HValidation (txt "too large" ++ 0%N :: txt "hidden"))
  | _, _ => None
  end.
Definition small_env : henv unit := mkhenv (fun t w v => (w, v, small_verdict t v)) HOther (Json fp0).
