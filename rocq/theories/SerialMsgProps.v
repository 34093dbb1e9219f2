(** What a [deserialize_error] says. *)
From Coq Require Import String List NArith ZArith Arith Bool.
From Verif Require Import Base EnumModel ScalarModel ScalarSpec SerialModel SerialSpec SerialSamples SerialDocSpec
  SerialMsgModel SerialMsgSpec SerialMsgProofs SerialMsgTextProofs SerialMsgSamples.
Import ListNotations.
Local Open Scope list_scope.

(** The exceptions with a message are those of [deserialize] and [patch], with
    the same object left behind. *)
Theorem reports_are_the_exceptions : forall be tname t j w,
  (forall v, deser be t j w = (v, Some EDeser) <-> exists c ls, xdeser be tname t j w = (v, Some (Error c ls))) /\
  (forall v, patch be t j w = (v, Some EDeser) <-> exists c ls, xpatch be tname t j w = (v, Some (Error c ls))).
Proof. exact reports_agree. Qed.
Print Assumptions reports_are_the_exceptions.

(** Reading: the lines lead from the part of the document that could not be read
    to the whole, and the first line says what is wrong with that part. *)
Theorem read_report_right : forall be tname t j w v, wf t -> typed t w -> deser be t j w = (v, Some EDeser) ->
  exists c ls, xdeser be tname t j w = (v, Some (Error c ls)) /\ blame be tname Deserializing t j c ls.
Proof. exact deser_report. Qed.
Print Assumptions read_report_right.

Theorem patch_report_right : forall be tname t j w v, wf t -> typed t w -> patch be t j w = (v, Some EDeser) ->
  exists c ls, xpatch be tname t j w = (v, Some (Error c ls)) /\ blame be tname Patching t j c ls.
Proof. exact patch_report. Qed.
Print Assumptions patch_report_right.

(** [what] is the sentences one under the other, each up to a zero; a zero in the
    first one ends the text. *)
Theorem report_text : forall conversion reason c ls first rest,
  first_sentence conversion reason c first -> ~ In 0%N first ->
  Forall2 (fun l s => exists whole, sentence l whole /\ shown whole s) ls rest ->
  what_text conversion reason c ls = joined first rest.
Proof. exact what_shown. Qed.
Print Assumptions report_text.

Theorem report_text_first_zero : forall conversion reason c ls first s,
  first_sentence conversion reason c first -> In 0%N first -> shown first s -> what_text conversion reason c ls = s.
Proof. exact what_first. Qed.
Print Assumptions report_text_first_zero.

(** Two reports with the same text have the same first line and the same path,
    as long as no name has a new line or a zero in it. *)
Theorem report_text_unambiguous : forall conversion reason conversion' reason' c c' ls ls' first first',
  first_sentence conversion reason c first -> first_sentence conversion' reason' c' first' -> clean first -> clean first' ->
  Forall clean_line ls -> Forall clean_line ls' ->
  what_text conversion reason c ls = what_text conversion' reason' c' ls' -> first = first' /\ ls = ls'.
Proof. exact what_injective. Qed.
Print Assumptions report_text_unambiguous.

(* ------------------------------------------------------------------ *)
(** ** What a report does not say *)

(** The position in a tuple (or pair) is not in the report. *)
Theorem tuple_position_reported_refuted : forall be tname, exists ts x y w, wf (TTup ts) /\ typed (TTup ts) w /\ x <> y /\
  snd (xdeser be tname (TTup ts) (JArr [x; y]) w) = snd (xdeser be tname (TTup ts) (JArr [y; x]) w) /\
  exists c, snd (xdeser be tname (TTup ts) (JArr [x; y]) w) = Some (Error c []).
Proof.
  intros be tname. exists [TSeq TStr; TSeq TStr], (JArr []), (JStr []), (VSeq [VSeq []; VSeq []]).
  split; [repeat split|]. split; [repeat split|]. split; [discriminate|]. split; [reflexivity|]. eexists. reflexivity.
Qed.
Print Assumptions tuple_position_reported_refuted.

(** A renamed field is reported by the name of the member, which need not occur
    in the document. *)
Theorem field_reported_by_key_refuted : forall be tname, exists a t x w c,
  wf (TRec [(a, t)]) /\ typed (TRec [(a, t)]) w /\ a_name a <> wire_name a /\
  snd (xdeser be tname (TRec [(a, t)]) (JObj [(wire_name a, x)]) w) =
    Some (Error c [LField Deserializing (a_name a); LType Deserializing (tname [(a, t)])]).
Proof.
  intros be tname. exists (renamed (codes "r"%string) (plain (codes "radius"%string) (VStr []))), TStr, (JArr []), (VRec [VStr []]).
  eexists. split; [|split; [repeat split|split; [discriminate|reflexivity]]].
  cbn. repeat split; try discriminate; (constructor; [intros []|constructor]).
Qed.
Print Assumptions field_reported_by_key_refuted.

(** A key with a new line in it reads like another level. *)
Theorem report_text_injective_refuted : forall be tname conversion reason, exists t t' c ls c' ls' ,
  snd (xdeser be tname t forged_doc (default_of t)) = Some (Error c ls) /\
  snd (xdeser be tname t' nested_doc (default_of t')) = Some (Error c' ls') /\ ls <> ls' /\
  what_text conversion reason c ls = what_text conversion reason c' ls'.
Proof.
  intros be tname cv rs. exists (TMap (TSeq TStr)), (TMap (TMap (TSeq TStr))). do 4 eexists.
  split; [reflexivity|]. split; [reflexivity|]. split; [discriminate|]. destruct be; reflexivity.
Qed.
Print Assumptions report_text_injective_refuted.

(** And the rest of a line after a zero is lost. *)
Theorem report_text_complete_refuted : forall be tname conversion reason, exists k k' c ls c' ls',
  snd (xdeser be tname (TMap (TSeq TStr)) (JObj [(k, JStr [])]) (VMap [])) = Some (Error c ls) /\
  snd (xdeser be tname (TMap (TSeq TStr)) (JObj [(k', JStr [])]) (VMap [])) = Some (Error c' ls') /\ ls <> ls' /\
  what_text conversion reason c ls = what_text conversion reason c' ls'.
Proof.
  intros be tname cv rs. exists [97; 0; 98]%N, [97; 0; 99]%N. do 4 eexists.
  split; [reflexivity|]. split; [reflexivity|]. split; [discriminate|]. destruct be; reflexivity.
Qed.
Print Assumptions report_text_complete_refuted.

(* ------------------------------------------------------------------ *)
(** ** Examples *)

Example ex_report : forall fp,
  snd (xdeser (Json fp) shape_name shapes_ty shapes_doc (VMap [])) =
    Some (Error (CExpected (codes "an integral"%string) (codes "kStringType"%string))
            [LField Deserializing (codes "radius"%string); LType Deserializing (codes "shape"%string); LElement 1;
             LField Deserializing (codes "all"%string)]).
Proof. reflexivity. Qed.

Example ex_report_text : forall cv rs,
  what_text cv rs (CExpected (codes "an integral"%string) (codes "kStringType"%string))
    [LField Deserializing (codes "radius"%string); LType Deserializing (codes "shape"%string); LElement 1;
     LField Deserializing (codes "all"%string)] =
  codes "type must be an integral but is a kStringType"%string ++ 10%N ::
  codes "error when deserializing field radius"%string ++ 10%N ::
  codes "error when deserializing type shape"%string ++ 10%N ::
  codes "error when deserializing element 1"%string ++ 10%N ::
  codes "error when deserializing field all"%string.
Proof. reflexivity. Qed.

(** Two validators' errors, through a patch and through an array. *)
Example ex_rejected_patch : forall fp,
  snd (xpatch (Json fp) shape_name sample_ty (JObj [([66%N], JInt 101)]) sample) =
    Some (Error CValidator [LField Patching [98%N]; LType Patching (codes "shape"%string)]).
Proof. reflexivity. Qed.
Example ex_flatten_array : forall be,
  snd (xdeser be shape_name sample_ty (JArr [JInt 1]) sample) =
    Some (Error CFlattenInSequence [LElement 0; LType Deserializing (codes "shape"%string)]).
Proof. reflexivity. Qed.
Example ex_patch_whole : forall be,
  snd (xpatch be shape_name shape_ty JNull (VRec [VInt 1])) =
    Some (Error (CNeither (kind_name be JNull))
            [LType Deserializing (codes "shape"%string); LType Patching (codes "shape"%string)]).
Proof. reflexivity. Qed.
