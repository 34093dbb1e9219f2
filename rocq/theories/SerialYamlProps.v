(** C93-C97: the scalars of YAML, and JSON and YAML side by side. *)
From Coq Require Import String List NArith ZArith Arith Bool Lia.
From Verif Require Import Base EnumModel EnumSpec ScalarModel ScalarSpec ScalarProofs SerialModel SerialSpec SerialDocSpec SerialDocProofs SerialReadProofs
  SerialSamples SerialProps SerialDocProps SerialYamlSpec SerialYamlProofs.
Import ListNotations.

(** C93: a scalar is read as an integer when it is a numeral for a value of the
    type, and as no other; everything else is refused and nothing is changed. *)
Theorem yaml_integer_exact_or_refused : forall ft t out, int_type t ->
  (forall s z, of_type t z -> int_means (isigned t) s z -> deser (Yaml ft) (TInt t) (JStr s) out = (VInt z, None)) /\
  (forall j, (forall s z, j = JStr s -> int_means (isigned t) s z -> ~ of_type t z) ->
     deser (Yaml ft) (TInt t) j out = (out, Some EDeser)).
Proof. exact yaml_int_lemma. Qed.
Print Assumptions yaml_integer_exact_or_refused.

Theorem numerals_unambiguous : forall signed s z z', int_means signed s z -> int_means signed s z' -> z = z'.
Proof. exact means_unique. Qed.
Print Assumptions numerals_unambiguous.

(** Digits are not always decimal ones. *)
Theorem yaml_leading_zero_refuted : forall ft, exists s n z,
  numeral 10 s n /\ deser (Yaml ft) int32 (JStr s) (VInt 0) = (VInt z, None) /\ z <> Z.of_N n.
Proof.
  intros ft. exists (codes "010"), 10%N, 8%Z. split.
  - split; [discriminate|]. exists [0; 1; 0]%N. split; [|split; [repeat constructor|reflexivity]].
    repeat (constructor; [left; split; reflexivity|]). constructor.
  - split; [vm_compute; reflexivity|discriminate].
Qed.
Print Assumptions yaml_leading_zero_refuted.

(** C94 *)
Theorem yaml_booleans : forall ft skip out,
  (forall b, serialize (Yaml ft) skip TBool (VBool b) = Ok (JStr (codes (if b then "true" else "false")%string))) /\
  (forall s b, In s (spellings b) -> deser (Yaml ft) TBool (JStr s) out = (VBool b, None)) /\
  (forall j, (forall s b, j = JStr s -> ~ In s (spellings b)) -> deser (Yaml ft) TBool j out = (out, Some EDeser)).
Proof. exact yaml_bool_lemma. Qed.
Print Assumptions yaml_booleans.

(** C95: an integer is written as its one decimal numeral, and different
    integers differently. *)
Theorem yaml_integer_written : forall ft skip t z j,
  serialize (Yaml ft) skip (TInt t) (VInt z) = Ok j <-> exists s, j = JStr s /\ decimal z s.
Proof. exact yaml_int_written. Qed.
Print Assumptions yaml_integer_written.

Theorem decimal_numerals_unique : forall z z' s s', decimal z s -> decimal z' s' -> (z = z' <-> s = s').
Proof. exact decimal_unique. Qed.
Print Assumptions decimal_numerals_unique.

(** C96: both formats write the same document, or both refuse. *)
Theorem formats_write_the_same : forall fp ft skip t v, no_float t ->
  (forall j, serialize (Json fp) skip t v = Ok j -> exists j', restated ft j j' /\ serialize (Yaml ft) skip t v = Ok j') /\
  (serialize (Json fp) skip t v = Throws <-> serialize (Yaml ft) skip t v = Throws).
Proof. exact both_written. Qed.
Print Assumptions formats_write_the_same.

(** C97: what is read from a JSON document is read from the same document in
    YAML, with the same result. *)
Theorem formats_read_the_same : forall fp ft t j j' w v, wf t -> no_reals t -> restated ft j j' ->
  (deser (Json fp) t j w = (v, None) -> deser (Yaml ft) t j' w = (v, None)) /\
  (patch (Json fp) t j w = (v, None) -> patch (Yaml ft) t j' w = (v, None)).
Proof. exact both_read. Qed.
Print Assumptions formats_read_the_same.

(** Not the other way: in YAML the text 12 is a string and a number. *)
Theorem yaml_reads_more_refuted : forall fp ft, exists j j' v, restated ft j j' /\
  deser (Yaml ft) int32 j' (VInt 0) = (v, None) /\ snd (deser (Json fp) int32 j (VInt 0)) = Some EDeser.
Proof.
  intros fp ft. exists (JStr (codes "12")), (JStr (codes "12")), (VInt 12).
  split; [reflexivity|]. split; vm_compute; reflexivity.
Qed.
Print Assumptions yaml_reads_more_refuted.

(* ------------------------------------------------------------------ *)
(** ** Examples *)

Example ex_hex : deser ym0 int32 (JStr (codes "-0x1F  ")) (VInt 0) = (VInt (-31), None). Proof. vm_compute. reflexivity. Qed.
Example ex_hex_means : int_means true (codes "-0x1F  ") (-31).
Proof.
  exists (codes "-"), (codes "0x1F"), (codes "  "), 31%N. split; [reflexivity|]. split; [repeat constructor; now left|]. split; [|auto 6].
  left. exists 120%N, (codes "1F"). split; [reflexivity|]. split; [now left|]. split; [discriminate|]. exists [1; 15]%N.
  split; [|split; [repeat constructor|reflexivity]]. constructor; [left; split; reflexivity|]. constructor; [right|constructor].
  split; [right; reflexivity|split; [discriminate|reflexivity]].
Qed.
Example ex_int8_text : deser ym0 (TInt (mkity true 8)) (JStr (codes "128")) (VInt 3) = (VInt 3, Some EDeser). Proof. vm_compute. reflexivity. Qed.
Example ex_unsigned_minus : deser ym0 (TInt (mkity false 8)) (JStr (codes "-0")) (VInt 3) = (VInt 3, Some EDeser). Proof. vm_compute. reflexivity. Qed.
Example ex_octal_nine : deser ym0 int32 (JStr (codes "09")) (VInt 3) = (VInt 3, Some EDeser). Proof. vm_compute. reflexivity. Qed.
Example ex_bool_on : deser ym0 TBool (JStr (codes "On")) (VBool false) = (VBool true, None). Proof. vm_compute. reflexivity. Qed.
Example ex_bool_one : deser ym0 TBool (JStr (codes "1")) (VBool false) = (VBool false, Some EDeser). Proof. vm_compute. reflexivity. Qed.

Example ex_sample_yaml : serialize ym0 true sample_ty sample = Ok sample_yaml. Proof. vm_compute. reflexivity. Qed.
Example ex_sample_yaml_read : deser ym0 sample_ty sample_yaml (default_of sample_ty) = (sample, None). Proof. vm_compute. reflexivity. Qed.
Example ex_sample_yaml_doc : doc ym0 true sample_ty None sample sample_yaml.
Proof. apply (document_exact ym0 true sample_ty sample ex_sample_wf ex_sample_typed). exact ex_sample_yaml. Qed.
Example ex_sample_yaml_rt : rt ym0 true sample_ty sample (default_of sample_ty).
Proof.
  cbn. repeat split; try lia; auto; try (intuition discriminate);
    try (repeat (constructor; [cbn; intuition discriminate|]); constructor).
  all: intros f Hf; cbn in Hf; destruct Hf; subst; try reflexivity; contradiction.
Qed.
Example ex_sample_no_reals : no_reals sample_ty /\ no_float sample_ty.
Proof. split; cbn; repeat split; discriminate. Qed.
Example ex_restated : restated ft0 sample_doc sample_yaml.
Proof. apply restated_spec. vm_compute. reflexivity. Qed.
Example ex_dump_yaml : dump ym0 true sample_ty sample = (accept sample_yaml, Ok tt). Proof. vm_compute. reflexivity. Qed.
