(** Vocabulary for the properties of accessor fields. *)
From Coq Require Import List NArith ZArith Arith Bool.
From Verif Require Import Base SerialModel SerialSpec AccModel.
Import ListNotations.

(** The accessor returns a reference to the place [p], whatever the object holds. *)
Definition refers_to (f : afield) (p : place) : Prop := exists sel, af_where f = Place sel /\ forall o, sel o = p.

(** One place is the other or inside it. *)
Definition inside (p q : place) : Prop := exists r, p = q ++ r.
Definition overlap (p q : place) : Prop := inside p q \/ inside q p.

(** Two different ones of them do not overlap. *)
Fixpoint apart (ps : list place) : Prop :=
  match ps with
  | [] => True
  | p :: ps' => Forall (fun q => ~ overlap p q) ps' /\ apart ps'
  end.

(** Fields and where they are: a place, or nothing for a field that is computed and never read. *)
Definition located (f : afield) (w : option place) : Prop :=
  match w with
  | Some p => refers_to f p
  | None => a_skip_deser (af_attrs f) = true
  end.

Definition places (ws : list (option place)) : list place := flat_map (fun w => match w with Some p => [p] | None => [] end) ws.

(** [vs] are the values at the places; anything for the fields without one. *)
Definition holds (o : val) (w : option place) (v : val) : Prop :=
  match w with Some p => load o p = Some v | None => True end.

(** The type of a place in an object of type [t]. *)
Fixpoint place_type (t : ty) (p : place) : option ty :=
  match p with
  | [] => Some t
  | Sub i :: p' =>
      match t with
      | TRec fs => match nth_error fs i with Some f => place_type (snd f) p' | None => None end
      | TTup ts => match nth_error ts i with Some u => place_type u p' | None => None end
      | TSeq u => place_type u p'
      | TArr n u => if i <? n then place_type u p' else None
      | _ => None
      end
  | Deref :: p' => match t with TOpt u => place_type u p' | _ => None end
  end.

(** The object has type [T] and the place of the field the type of the field. *)
Definition has_type (T : ty) (fd : afield) (w : option place) : Prop :=
  match w with Some p => place_type T p = Some (af_type fd) | None => True end.

(** Reading the fields in order, every place exists when it is its turn: it exists from the start, or it is
    in a place that was read before. *)
Fixpoint found_in_turn (o : val) (before : list place) (ps : list place) : Prop :=
  match ps with
  | [] => True
  | p :: ps' => (load o p <> None \/ exists q, In q before /\ inside p q) /\ found_in_turn o (p :: before) ps'
  end.
