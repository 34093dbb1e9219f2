(** JSON texts: what dump writes, what parse accepts, and both together. *)
From Coq Require Import String List NArith ZArith Arith Bool Lia.
From Verif Require Import Base EnumModel EnumSpec ScalarModel ScalarSpec SerialModel SerialSpec SerialSamples JtextModel JtextSpec
  JtextReadProofs JtextWriteProofs JtextUtf8Proofs JtextProofs JtextMoreProofs JtextThrowProofs JtextSamples.
Import ListNotations.
Local Open Scope list_scope.
Local Open Scope N_scope.

(* ------------------------------------------------------------------ *)
(** ** Writing *)

(** The text of a dump means the serialized document, and is laid out as described. *)
Theorem dump_text_means : forall dc pretty fp t v j, wf t -> typed t v -> serialize (Json fp) true t v = Ok j ->
  throughout (fun _ => True) (kept_by dc) short j ->
  exists s, dump_text dc fp pretty t v = Ok s /\ denotes (strtod dc) j s /\ layout (dtoa dc) pretty 0%nat j s.
Proof. exact dump_means. Qed.
Print Assumptions dump_text_means.

(** Integers of serialized values always fit. *)
Theorem serialized_integers_held : forall fp skip t v j, wf t -> typed t v -> serialize (Json fp) skip t v = Ok j ->
  throughout held (fun _ => True) (fun _ => True) j.
Proof. exact serialized_held. Qed.
Print Assumptions serialized_integers_held.

Theorem dump_text_utf8 : forall dc pretty fp t v j s, wf t -> typed t v -> serialize (Json fp) true t v = Ok j ->
  throughout (fun _ => True) (kept_by dc) (fun x => short x /\ utf8 x) j -> dump_text dc fp pretty t v = Ok s -> utf8 s.
Proof. exact dump_utf8. Qed.
Print Assumptions dump_text_utf8.

(** A dump ends as the serialization of the same value does: what the library calls on the
    writer up to an exception is in order too. *)
Theorem dump_ends_like_serialize : forall dc pretty fp t v, Forall (in_event short) (fst (dump (Json fp) true t v)) ->
  match serialize (Json fp) true t v with
  | Ok _ => exists s, dump_text dc fp pretty t v = Ok s
  | Throws => dump_text dc fp pretty t v = Throws
  | UB => dump_text dc fp pretty t v = UB
  end.
Proof. exact dump_ends. Qed.
Print Assumptions dump_ends_like_serialize.

(** NaN is written as nothing: the text is no JSON, or it is another document. *)
Theorem dump_nan_refuted : forall dc fp pretty, exists j, serialize (Json fp) true TDouble (VDbl bits_nan) = Ok j /\
  dump_text dc fp pretty TDouble (VDbl bits_nan) = Ok [] /\ parse dc [] = Throws.
Proof. exact nan_text. Qed.
Print Assumptions dump_nan_refuted.
Theorem dump_nan_in_array_refuted : forall dc fp, exists j s, serialize (Json fp) true (TSeq TDouble) (VSeq [VDbl bits_nan]) = Ok j /\
  dump_text dc fp false (TSeq TDouble) (VSeq [VDbl bits_nan]) = Ok s /\ parse dc s = Ok (JArr []) /\ j <> JArr [].
Proof. exact nan_array. Qed.
Print Assumptions dump_nan_in_array_refuted.

(** A string of 2^32 bytes is written as the empty one. *)
Theorem dump_long_string_refuted : forall dc fp pretty, exists s, dump_text dc fp pretty TStr (VStr s) = Ok (codes """"""%string) /\
  parse dc (codes """"""%string) = Ok (JStr []) /\ serialize (Json fp) true TStr (VStr s) <> Ok (JStr []).
Proof. exact long_string_lost. Qed.
Print Assumptions dump_long_string_refuted.

(* ------------------------------------------------------------------ *)
(** ** Reading *)

(** A text is accepted as the document [j] exactly if it is a JSON text that means
    [j], after any bytes of a byte order mark and up to a zero. *)
Theorem parse_accepts_exactly : forall dc t j, parse dc t = Ok j <->
  exists b s r, t = b ++ s ++ r /\ mark b /\ document (strtod dc) j s /\ (r = [] \/ exists r', r = 0 :: r').
Proof. exact parse_iff. Qed.
Print Assumptions parse_accepts_exactly.

Theorem parse_plain_text : forall dc t j, ~ In 0 t -> peek t <> 239 -> peek t <> 187 -> peek t <> 191 ->
  parse dc t = Ok j <-> document (strtod dc) j t.
Proof. exact parse_plain. Qed.
Print Assumptions parse_plain_text.

Theorem parse_never_undefined : forall dc t, parse dc t <> UB.
Proof. exact parse_never_ub. Qed.
Print Assumptions parse_never_undefined.

(** A text means one document. *)
Theorem text_determines_document : forall dc j j' s, document (strtod dc) j s -> document (strtod dc) j' s -> j = j'.
Proof. exact document_unique. Qed.
Print Assumptions text_determines_document.

Theorem parse_keeps_utf8 : forall dc t j, utf8 t -> parse dc t = Ok j -> throughout (fun _ => True) (fun _ => True) utf8 j.
Proof. exact parse_utf8. Qed.
Print Assumptions parse_keeps_utf8.

(** Texts that are no JSON are accepted. *)
Theorem parse_zero_refuted : forall dc, exists t j, parse dc t = Ok j /\ forall reads j', ~ document reads j' t.
Proof. exact zero_ends. Qed.
Print Assumptions parse_zero_refuted.
Theorem parse_mark_refuted : forall dc, exists t j, parse dc t = Ok j /\ (forall s, t <> [239; 187; 191] ++ s) /\ forall reads j', ~ document reads j' t.
Proof. exact part_mark. Qed.
Print Assumptions parse_mark_refuted.

(* ------------------------------------------------------------------ *)
(** ** Both *)

Theorem text_round_trip : forall dc pretty fp t v w j s, wf t -> typed t v -> rt (Json fp) true t v w -> serialize (Json fp) true t v = Ok j ->
  throughout (fun _ => True) (kept_by dc) short j -> dump_text dc fp pretty t v = Ok s ->
  exists j', parse dc s = Ok j' /\ deser (Json fp) t j' w = (v, None).
Proof. exact text_round. Qed.
Print Assumptions text_round_trip.

(* ------------------------------------------------------------------ *)
(** ** Examples *)

Example ex_pairs_wf : wf pairs_ty /\ typed pairs_ty pairs /\ rt (Json demo_fp) true pairs_ty pairs (VSeq []).
Proof. cbn. tauto. Qed.
Example ex_pairs_doc : serialize (Json demo_fp) true pairs_ty pairs = Ok pairs_doc. Proof. reflexivity. Qed.
Example ex_kept : kept_by demo_conv 4609434218613702656.
Proof.
  split; [vm_compute; discriminate|]. split; [|vm_compute; reflexivity].
  exists (codes "1"%string), 1%Z, (codes ".5"%string), []. split; [reflexivity|]. split.
  { exists (codes "1"%string), 1. split; [|split; [intros s' [=]|left; auto]]. split; [discriminate|]. exists [1].
    split; [constructor; [left; split; reflexivity|constructor]|]. split; [constructor; [reflexivity|constructor]|reflexivity]. }
  split; [right; exists (codes "5"%string); split; [reflexivity|]; split; [discriminate|constructor; [vm_compute; split; discriminate|constructor]]|].
  split; [now left|left; discriminate].
Qed.
Example ex_pairs_storable : throughout (fun _ => True) (kept_by demo_conv) (fun x => short x /\ utf8 x) pairs_doc.
Proof.
  assert (utf8 odd_string) as U.
  { apply (U_char 34 [34]); [left; split; [lia|reflexivity]|unfold surrogate; lia|]. apply (U_char 10 [10]); [left; split; [lia|reflexivity]|unfold surrogate; lia|].
    apply (U_char 7 [7]); [left; split; [lia|reflexivity]|unfold surrogate; lia|]. apply (U_char 233 [195; 169]); [right; left; split; [lia|reflexivity]|unfold surrogate; lia|]. constructor. }
  cbn. repeat split; try exact I; auto; try apply ex_kept.
Qed.
Example ex_pairs_compact : dump_text demo_conv demo_fp false pairs_ty pairs = Ok (codes "[[""\""\n\u0007"%string ++ [195; 169] ++ codes """,1.5]]"%string).
Proof. vm_compute. reflexivity. Qed.
Example ex_pairs_back : parse demo_conv (codes "[[""\""\n\u0007"%string ++ [195; 169] ++ codes """,1.5]]"%string) = Ok pairs_doc.
Proof. vm_compute. reflexivity. Qed.
Example ex_sample_compact : dump_text demo_conv demo_fp false sample_ty sample = Ok (codes "{""a"":1,""b"":2,""y"":5,""z"":6}"%string).
Proof. vm_compute. reflexivity. Qed.
Example ex_sample_pretty : dump_text demo_conv demo_fp true sample_ty sample =
  Ok (codes "{"%string ++ [10] ++ codes "    ""a"": 1,"%string ++ [10] ++ codes "    ""b"": 2,"%string ++ [10] ++
      codes "    ""y"": 5,"%string ++ [10] ++ codes "    ""z"": 6"%string ++ [10] ++ codes "}"%string).
Proof. vm_compute. reflexivity. Qed.

(** The key of an extra field is the name of a field: "a" has been written by then. *)
Example ex_half_written : serialize (Json demo_fp) true inner_extra_ty half_written = Throws /\
  fst (dump (Json demo_fp) true inner_extra_ty half_written) = [EvStartObj; EvKey [97]; EvInt 1; EvKey [98]; EvInt 2] /\
  dump_text demo_conv demo_fp true inner_extra_ty half_written = Throws.
Proof. vm_compute. tauto. Qed.

(** A surrogate pair, an escaped slash; white space; the largest integers. *)
Example ex_escapes : parse demo_conv (codes " ""\ud83d\ude00\/"" "%string) = Ok (JStr [240; 159; 152; 128; 47]).
Proof. vm_compute. reflexivity. Qed.
Example ex_ints : parse demo_conv (codes "[18446744073709551615 , -9223372036854775808,0,-0]"%string) =
  Ok (JArr [JInt 18446744073709551615; JInt (-9223372036854775808); JInt 0; JInt 0]).
Proof. vm_compute. reflexivity. Qed.
Example ex_big : parse demo_conv (codes "18446744073709551616"%string) = Ok (JDbl 4895412794951729152).
Proof. vm_compute. reflexivity. Qed.
Example ex_same_name_twice : parse demo_conv (codes "{""a"":1,""a"":2}"%string) = Ok (JObj [([97], JInt 1); ([97], JInt 2)]).
Proof. vm_compute. reflexivity. Qed.
Example ex_rejected : parse demo_conv (codes "01"%string) = Throws /\ parse demo_conv (codes "1."%string) = Throws /\ parse demo_conv (codes "[1,]"%string) = Throws /\
  parse demo_conv (codes """\ud800"""%string) = Throws /\ parse demo_conv (codes "nul"%string) = Throws /\ parse demo_conv (codes "{} {}"%string) = Throws /\
  parse demo_conv (codes "+1"%string) = Throws /\ parse demo_conv [34; 10; 34] = Throws /\ parse demo_conv [] = Throws.
Proof. vm_compute. tauto. Qed.
