(** Integers are read exactly or not at all. *)
From Coq Require Import List NArith ZArith Arith Bool Lia.
From Verif Require Import Base PathModel EnumModel EnumSpec EnumProofs SerialModel SerialSpec SerialLeafProofs.
Import ListNotations.

Section WithConversions.
Context (fp : fpconv).

Lemma int_exact_lemma t out : int_type t ->
  (forall z, of_type t z -> deser (Json fp) (TInt t) (JInt z) out = (VInt z, None)) /\
  (forall z, ~ of_type t z -> deser (Json fp) (TInt t) (JInt z) out = (out, Some EDeser)) /\
  (forall j, (forall z, j <> JInt z) -> deser (Json fp) (TInt t) j out = (out, Some EDeser)).
Proof.
  intros Ht. cbn [deser]. unfold dec_int. split; [|split]; intros.
  - rewrite json_int_spec by exact Ht. apply fits_true in H. now rewrite H.
  - rewrite json_int_spec by exact Ht. apply fits_false in H. now rewrite H.
  - rewrite json_int_spec by exact Ht. destruct j; try reflexivity. now destruct (H z).
Qed.

End WithConversions.
