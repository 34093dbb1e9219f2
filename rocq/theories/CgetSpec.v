(** Where paths lead. *)
From Coq Require Import List NArith Arith Bool.
From Verif Require Import Base CgetModel.
Import ListNotations.

(** [first P l x]: [x] is the first of [l] with [P]. *)
Definition first {A} (P : A -> Prop) (l : list A) (x : A) : Prop :=
  exists a b, l = a ++ x :: b /\ P x /\ Forall (fun y => ~ P y) a.

(** The element that keys single out: the first key that has any, and its first. *)
Definition keyed (keys : list (val -> str -> bool)) (l : list val) (s : str) (v : val) : Prop :=
  exists a k b, keys = a ++ k :: b /\ Forall (fun k' => Forall (fun x => k' x s = false) l) a /\ first (fun x => k x s = true) l v.

Section Leads.
Context (parse_index : str -> option nat).

(** [leads computed t keys v p x through]: from [v], of type [t], [computed] or stored, path [p] leads to [x]; [through]: it takes
    an element by index right from a computed field. *)
Inductive leads : bool -> ty -> list (val -> str -> bool) -> val -> list str -> val -> bool -> Prop :=
| leads_here c t ks v : leads c t ks v [] v false
| leads_member c fs ks ms s p i fks t v x th name :
    first (fun f => fst (fst (fst f)) = s) fs (name, Member i, fks, t) -> nth_error ms i = Some v ->
    leads false t fks v p x th -> leads c (Struct fs) ks (VStruct ms) (s :: p) x th
| leads_computed c fs ks o s p f fks t x th name :
    first (fun g => fst (fst (fst g)) = s) fs (name, Computed f, fks, t) ->
    leads true t fks (f o) p x th -> leads c (Struct fs) ks o (s :: p) x th
| leads_optional t ks v s p x th : leads false t [] v (s :: p) x th -> leads false (Opt t) ks (VSome v) (s :: p) x th
| leads_map t ks l s p e x th : first (fun e => fst e = s) l e -> leads false t [] (snd e) p x th ->
    leads false (Map t) ks (VMap l) (s :: p) x th
| leads_key c t k ks l s p v x th : keyed (k :: ks) l s v -> leads false t [] v p x th ->
    leads c (Seq t) (k :: ks) (VSeq l) (s :: p) x th
| leads_index c t l s p i v x th : parse_index s = Some i -> nth_error l i = Some v -> leads false t [] v p x th ->
    leads c (Seq t) [] (VSeq l) (s :: p) x (c || th).
End Leads.

(** No computed field is a sequence without keys. *)
Fixpoint no_computed_list (t : ty) : Prop :=
  match t with
  | Leaf => True
  | Opt t' | Map t' | Seq t' => no_computed_list t'
  | Struct fs =>
      (fix go (fs : list (str * source * list (val -> str -> bool) * ty)) : Prop :=
         match fs with
         | [] => True
         | (_, s, ks, t') :: fs' =>
             match s, ks, t' with Computed _, [], Seq _ => False | _, _, _ => True end /\ no_computed_list t' /\ go fs'
         end) fs
  end.
