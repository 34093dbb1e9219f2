(** The answer of every request, what it leaves behind and what it announces. *)
From Coq Require Import String List NArith ZArith Arith Bool Lia.
From Verif Require Import Base PathModel PathSpec TrackerModel TrackerSpec EnumModel SerialModel SerialSpec SerialDocSpec SerialSamples
  ResourceModel ResourceSpec ResourceAnswerSpec ResourceSamples ResourceMainProofs ResourceRefutedProofs ResourceAnswerProofs.
Import ListNotations.

(** C88 *)
Theorem requests_exact : forall E t r q segs a v', schema t -> typed t (value r) -> at_path q segs ->
  ((exists r', perform E t r q = (r', a) /\ value r' = v') <-> exists evs, settled E t (value r) q segs a v' evs).
Proof. exact request_exact_lemma. Qed.
Print Assumptions requests_exact.

Theorem histories_exact : forall E t v0 qs, schema t -> typed t v0 -> Forall well_formed qs ->
  (N.of_nat (length qs) + 1 < gen_modulus)%N ->
  forall answers v', (exists r', perform_all E t (make_resource v0) qs = (r', answers) /\ value r' = v') <->
    exists evs, history E t v0 qs answers v' evs.
Proof. exact history_exact_lemma. Qed.
Print Assumptions histories_exact.

(** C89 *)
Theorem reports_exact : forall E t v0 qs0 answers0 v1 evs0 qs answers v2 evs, schema t -> typed t v0 ->
  history E t v0 qs0 answers0 v1 evs0 -> history E t v1 qs answers v2 evs ->
  (N.of_nat (length qs0 + length qs) + 1 < gen_modulus)%N ->
  exists r r', perform_all E t (make_resource v0) qs0 = (r, answers0) /\ perform_all E t r qs = (r', answers) /\
    value r = v1 /\ value r' = v2 /\
    forall p l, denotes p l -> exists b,
      changed_since (modifications r') p (current (modifications r)) = Ok b /\ (b = true <-> exists e, In e evs /\ concerns e l).
Proof. exact reports_exact_lemma. Qed.
Print Assumptions reports_exact.

(** Only changes at, above or below a path make it changed; a child that is
    deleted counts as a change of its whole collection. *)
Theorem unrelated_not_reported : forall E t v0 qs0 r answers0 qs r' answers p l, schema t -> typed t v0 ->
  Forall well_formed qs0 -> perform_all E t (make_resource v0) qs0 = (r, answers0) ->
  Forall well_formed qs -> perform_all E t r qs = (r', answers) ->
  (N.of_nat (length qs0 + length qs) + 1 < gen_modulus)%N -> denotes p l ->
  (forall q segs, In q qs -> modifying q -> at_path q segs ->
     ~ at_or_above l segs /\ ~ at_or_above segs l /\
     (forall p' pre s, q = Delete p' -> segs = pre ++ [s] -> ~ at_or_above pre l)) ->
  changed_since (modifications r') p (current (modifications r)) = Ok false.
Proof. exact unrelated_lemma. Qed.
Print Assumptions unrelated_not_reported.

(* ------------------------------------------------------------------ *)
(** ** Examples *)

(** An element whose key is taken is not added. *)
Example ex_post_taken : exists evs, settled E0 root_ty root_val (Post (at_ "/items") (item_doc "p" 9)) [txt "items"]
  (Answer s_conflict []) root_val evs.
Proof.
  apply (requests_exact E0 root_ty root_res); [exact root_schema|exact root_typed|unfold at_path; cbn [path_of]; denotes_at|].
  eexists. vm_compute. split; reflexivity.
Qed.

(** A deleted element: the announcement is about the collection. *)
Example ex_delete_history : exists evs, history E0 root_ty root_val
  [Delete (at_ "/items/p"); Put (at_ "/items/q/n") (JInt 7); Delete (at_ "/items/p")]
  [Answer s_no_content []; Answer s_ok []; Answer s_not_found []]
  (VRec [VSeq [item "q" 7]; VSeq [VInt 7; VInt 8]; VMap [(txt "u", VInt 5); (txt "w", VInt 6)];
         VSome (VSeq [VInt 9]); VInt 3; VRec [VInt 4]; VInt 10]) evs.
Proof.
  apply (histories_exact E0 root_ty); [exact root_schema|exact root_typed| |vm_compute; reflexivity|].
  - repeat constructor; eexists; unfold at_path; cbn [path_of]; denotes_at.
  - eexists. split; vm_compute; reflexivity.
Qed.

Example ex_unrelated :
  let r' := fst (perform_all E0 root_ty root_res [Delete (at_ "/items/p"); Put (at_ "/lim") (JInt 7); Get true (at_ "/nums/1")]) in
  changed_since (modifications r') (at_ "/nums/1") (current (modifications root_res)) = Ok false /\
  changed_since (modifications r') (at_ "/items/q") (current (modifications root_res)) = Ok true.
Proof. vm_compute. split; reflexivity. Qed.
