(** Proofs of the findings about attributes, and that the samples satisfy the hypotheses of
    the theorems. *)
From Coq Require Import String List NArith ZArith Bool Lia.
From Verif Require Import Base PathModel ScalarSpec EnumModel EnumSpec SerialModel SerialSpec SerialSamples ReflectModel ReflectSpec ReflectSamples
  ReflectProofs AttrModel AttrSpec AttrProofs AttrSamples.
Import ListNotations.

Lemma width_holds : well_formed width.
Proof.
  intros x Hx. cbn in Hx.
  repeat (destruct Hx as [<- | Hx]; [constructor; cbn; intros;
    repeat match goal with
    | H : answers ?q (Cls ?c []) |- _ =>
        exfalso; destruct H as [H | [H _]]; [discriminate H | inversion H; subst; cbn in *; try contradiction; discriminate]
    | H : answers _ _ |- _ => clear H
    end; eauto; try discriminate|]); try contradiction.
  all: try (eexists; split; [reflexivity | cbn; lia]).
Qed.

Lemma width_described : described width width_attrs.
Proof.

  assert (E : record_of width (VInt 0) = width_attrs) by reflexivity.
  rewrite <- E. pose proof (record_of_described width (VInt 0) width_holds) as H. exact H.
Qed.

(** Only the first [aliases] attribute counts. *)
Lemma all_aliases_read_lemma :
  ~ forall f ms x l n, well_formed f -> In x (s_attrs f) -> answers CAliases (at_class x) ->
      at_data x CAliases = PNames l -> In n l -> In n (map fst ms) -> f_resolve_field_name ms f <> Ok None.
Proof.
  intros H.
  apply (H width [(codes "breadth", JInt 1)] (aliases ["breadth"%string]) [codes "breadth"] (codes "breadth")).
  - exact width_holds.
  - cbn. auto.
  - left. reflexivity.
  - reflexivity.
  - left. reflexivity.
  - left. reflexivity.
  - vm_compute. reflexivity.
Qed.

(** A class derived from [default_value_t] is no default. *)
Lemma derived_default_lemma :
  ~ forall f x n d v, well_formed f -> In x (s_attrs f) -> answers (CDefault n) (at_class x) ->
      at_data x (CDefault n) = PValue d -> snd (apply_missing_field_policy f v) = true.
Proof.
  intros H. assert (E := H height (derived_default 3) 0%N (VInt 3) (VInt 0)).
  assert (A : answers (CDefault 0) c_derived_default) by (apply matches_iff; reflexivity).
  discriminate E.
  - intros x [<- | []]. constructor; cbn; intros; try discriminate;
      match goal with H : answers ?q _ |- _ => exfalso; apply matches_iff in H; discriminate H end.
  - left. reflexivity.
  - exact A.
  - reflexivity.
Qed.

(** Both checks pass, and yet the struct can not be written. *)
Lemma checked_names_lemma :
  ~ forall be skip t v, wf t -> typed t v -> serialize_names_ok t = Ok true -> deserialize_names_ok t = Ok true ->
      extras t = 0 -> exists j, serialize be skip t v = Ok j.
Proof.
  intros H. destruct (H (Json (mkfpconv (fun _ => 0%N) (fun b => b) (fun b => b))) true in_and_out (VRec [VInt 0; VInt 0; VRec []])) as [j E].
  - assert (It : int_type (mkity true 32)) by (vm_compute; auto).
    assert (R : EnumSpec.of_type (mkity true 32) 0) by (unfold EnumSpec.of_type; cbn; lia).
    cbn. unfold field_ok. cbn. repeat (exact R || exact It || exact I || (split; [|]) || (intros; discriminate)).
    all: try (intros; exact I). all: repeat constructor; intros [].
  - assert (R : EnumSpec.of_type (mkity true 32) 0) by (unfold EnumSpec.of_type; cbn; lia).
    cbn. repeat (exact R || exact I || split).
  - vm_compute. reflexivity.
  - vm_compute. reflexivity.
  - reflexivity.
  - vm_compute in E. discriminate E.
Qed.
