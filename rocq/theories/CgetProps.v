(** Reading resources through accessors that return by value (C170). *)
From Coq Require Import List NArith Arith Bool.
From Verif Require Import Base CgetModel CgetSpec CgetProofs CgetSamples.
Import ListNotations.

(** C170: the answer is what the path leads to, if it takes no element by index right from a computed field; else undefined. *)
Theorem computed_fields_read : forall parse_index t root p x through,
  leads parse_index false t [] root p x through -> get parse_index t root p = if through then UB else Ok x.
Proof. exact get_leads. Qed.
Print Assumptions computed_fields_read.

Theorem computed_fields_answered : forall parse_index t root p x,
  get parse_index t root p = Ok x <-> leads parse_index false t [] root p x false.
Proof. exact get_answers. Qed.
Print Assumptions computed_fields_answered.

(** Nothing else is undefined. *)
Theorem computed_elements_undefined : forall parse_index t root p,
  get parse_index t root p = UB -> exists p1 p2 x, p = p1 ++ p2 /\ leads parse_index false t [] root p1 x true.
Proof. exact get_undefined. Qed.
Print Assumptions computed_elements_undefined.

Theorem computed_fields_defined : forall parse_index t root p, no_computed_list t -> get parse_index t root p <> UB.
Proof. exact get_defined. Qed.
Print Assumptions computed_fields_defined.

Example box_reads :
  get digit box_ty box [raw_name; seg 1] = Ok (VLeaf 8) /\
  get digit box_ty box [items_name] = Ok (VSeq [VLeaf 7; VLeaf 8]) /\
  get digit box_ty box [keyed_name; seg 8] = Ok (VLeaf 8) /\
  get digit box_ty box [point_name; raw_name; seg 1] = Ok (VLeaf 2) /\
  get digit box_ty box [items_name; seg 2] = Throws /\
  get digit box_ty box [items_name; seg 1] = UB.
Proof. repeat split. Qed.
Example point_defined : no_computed_list (Struct [(point_name, Computed a_point, [], Struct [(raw_name, Member 0, [], Seq Leaf)])]).
Proof. cbn. auto. Qed.

(** That every path that leads to something is answered fails. *)
Theorem paths_answered_refuted : exists t root p x th,
  leads digit false t [] root p x th /\ get digit t root p <> Ok x.
Proof.
  exists box_ty, box, [items_name; seg 1], (VLeaf 8), true. split; [|discriminate].
  eapply leads_computed with (f := first_member).
  - exists [(raw_name, Member 0, [], Seq Leaf)]. eexists. split; [reflexivity|]. split; [reflexivity|].
    constructor; [discriminate|constructor].
  - exact (leads_index digit true Leaf [VLeaf 7; VLeaf 8] (seg 1) [] 1 (VLeaf 8) (VLeaf 8) false eq_refl eq_refl (leads_here _ _ _ _ _)).
Qed.
Print Assumptions paths_answered_refuted.
