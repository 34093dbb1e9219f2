(** C84-C87: serialization, exactly. *)
From Coq Require Import List NArith ZArith Arith Bool Lia.
From Verif Require Import Base EnumModel EnumSpec SerialModel SerialSpec SerialDocSpec SerialDocProofs SerialReadProofs
  SerialExnProofs SerialSamples SerialProps.
Import ListNotations.

(** C84: the document of a value is the one its type and attributes ask for,
    and serialization throws exactly when there is none. *)
Theorem document_exact : forall be skip t v, wf t -> typed t v ->
  (forall j, serialize be skip t v = Ok j <-> doc be skip t None v j) /\
  (serialize be skip t v = Throws <-> forall j, ~ doc be skip t None v j).
Proof. exact document_lemma. Qed.
Print Assumptions document_exact.

(** C85: which documents are read into which values, and what is left in the
    object with which exception when one is refused. *)
Theorem reading_exact : forall be t w j v e, wf t -> typed t w ->
  (deser be t j w = (v, e) <-> reads be t j w v e).
Proof. exact (fun be t w j v e Hw Hv => proj1 (reading_exact_lemma be t w j v e Hw Hv)). Qed.
Print Assumptions reading_exact.

(** C86: the same for patching. *)
Theorem patching_exact : forall be t w j v e, wf t -> typed t w ->
  (patch be t j w = (v, e) <-> patched be t j w v e).
Proof. exact (fun be t w j v e Hw Hv => proj2 (reading_exact_lemma be t w j v e Hw Hv)). Qed.
Print Assumptions patching_exact.

(** C87: [deserialize_error] is thrown for every fault of the document;
    anything else needs clashing names or a validator that throws it. *)
Theorem reading_exceptions : forall be t j w v x, wf t -> typed t w ->
  deser be t j w = (v, Some x) \/ patch be t j w = (v, Some x) ->
  x = EDeser \/ (x = ELogic /\ ~ every_struct sound_names t) \/ (x = EUser /\ ~ every_struct polite t).
Proof. exact exceptions_lemma. Qed.
Print Assumptions reading_exceptions.

(* ------------------------------------------------------------------ *)
(** ** Examples *)

Example ex_doc : doc js0 true sample_ty None sample sample_doc.
Proof. apply (document_exact js0 true sample_ty sample ex_sample_wf ex_sample_typed). exact ex_sample_serialize. Qed.

(** A field before the refused one has its new value, the one after it the old. *)
Example ex_refused : reads js0 (TTup [TStr; TBool; TStr]) (JArr [JStr [120%N]; JInt 1; JStr [121%N]])
  (VSeq [VStr []; VBool true; VStr []]) (VSeq [VStr [120%N]; VBool true; VStr []]) (Some EDeser).
Proof. apply reading_exact; [cbn; auto|cbn; auto|]. vm_compute. reflexivity. Qed.

(** A short array is completed with nulls, so it needs optionals at the end. *)
Example ex_short : reads js0 (TTup [TBool; TOpt TBool]) (JArr [JBool true]) (VSeq [VBool false; VSome (VBool true)])
  (VSeq [VBool true; VNone]) None.
Proof. apply reading_exact; [cbn; auto|cbn; auto|]. vm_compute. reflexivity. Qed.

(** The first of two members with the same name wins. *)
Example ex_twice : reads js0 (TMap TBool) (JObj [([97%N], JBool true); ([97%N], JBool false)]) (VMap [])
  (VMap [([97%N], VBool true)]) None.
Proof. apply reading_exact; [cbn; auto|cbn; auto|]. vm_compute. reflexivity. Qed.

Example ex_clash : snd (deser js0 (TRec clash_fields) (JObj []) (default_of (TRec clash_fields))) = Some ELogic /\
  ~ every_struct sound_names (TRec clash_fields).
Proof.
  split; [vm_compute; reflexivity|]. intros [H _].
  assert (C : checked clash_fields) by (eexists; split; [right; right; left; reflexivity|now left]).
  destruct (H C) as [Hn _]. cbn in Hn. inversion Hn; subst. apply H2. cbn. auto.
Qed.
