(** Calls that do not expand as one may expect. *)
From Coq Require Import String List Arith Bool Lia.
From Verif Require Import PpModel PpSpec PpProofs PpSamples.
Import ListNotations.
Local Open Scope list_scope.
Local Open Scope string_scope.

Lemma expansion_unique : forall E ts a b, expands_to E ts a -> expands_to E ts b -> a = b.
Proof.
  intros E ts a b (n & A) (m & B). specialize (A (n + m) ltac:(lia)). specialize (B (n + m) ltac:(lia)). congruence.
Qed.

Lemma sequence_never : forall out, ~ expands_to bare documented_sequence out.
Proof.
  intros out (n & A). specialize (A (120 + n) ltac:(lia)). revert A.
  replace (preprocess bare (120 + n) documented_sequence) with (@None (list tok)); [discriminate|].
  vm_compute. reflexivity.
Qed.

Lemma alias_replaced : expands_to unix (call "KL_REFLECT_ENUM" [[Id "os"]; paren [[Id "lin"]; [Id "linux"]]])
  (enum_code "os" [Named [Id "lin"] [Num 1]]).
Proof. exists 200. intros m L. replace m with (200 + (m - 200)) by lia. generalize (m - 200). intros k. vm_compute. reflexivity. Qed.

Lemma attribute_split : expands_to bare range_source
  (plain_struct_code at_namespace [Id "A"] [([Id "i"], [tokens "range{1"; tokens "2}"])]).
Proof. exists 300. intros m L. replace m with (300 + (m - 300)) by lia. generalize (m - 300). intros k. vm_compute. reflexivity. Qed.
