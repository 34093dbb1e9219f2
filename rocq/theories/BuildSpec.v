(** Vocabulary for documents made by hand: the struct and the tuple they look like. *)
From Coq Require Import List NArith ZArith Bool.
From Verif Require Import Base PathModel SerialModel SerialSpec SerialSamples SerialMsgModel BuildModel.
Import ListNotations.

Local Notation str := (list N) (only parsing).

(** A member of a struct without attributes, and one with [emit_null] only. *)
Definition bare (n : str) (t : ty) : attrs * ty := (plain n (default_of t), t).
Definition emitting (n : str) (t : ty) : attrs * ty :=
  (mkattrs n None [] false false true false false false None [] false false (default_of t) false false [], t).

(** The views of a chain show these names in the memory [m]. *)
Definition names_in (m : memory) (es : list entry) (ns : list str) : Prop :=
  Forall2 (fun e n => read_view m (e_view e) = Ok n) es ns.

(** The names survive from the time of the calls to that of reading: they were copied, or the
    views still show them. *)
Definition names_survive (be : backend) (m' : memory) (es : list entry) (ns : list str) : Prop :=
  match be with
  | Yaml _ => True
  | Json _ => Forall2 (fun e n => e_dynamic e = true \/ read_view m' (e_view e) = Ok n) es ns
  end.

Definition one_document {A} (r : outcome (A * list json)) : outcome (list json) :=
  match r with Ok (_, ds) => Ok ds | Throws => Throws | UB => UB end.

(** The conditions of the round trip theorem (C30), for reading into [w]. *)
Definition element_back (be : backend) (skip : bool) (tv : ty * val) (w : val) : Prop :=
  wf (fst tv) /\ typed (fst tv) (snd tv) /\ rt be skip (fst tv) (snd tv) w.
Definition comes_back (be : backend) (skip : bool) (e : entry) (w : val) : Prop := element_back be skip (e_type e, e_value e) w.
