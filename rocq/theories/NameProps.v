(** Properties of the names of places (C176). *)
From Coq Require Import String List NArith ZArith Arith Bool.
From Verif Require Import Base PathModel PathSpec SerialModel SerialSpec SerialSamples ResourceModel ResourceSpec ResourceSamples NameSpec NameProofs.
Import ListNotations.
Local Open Scope string_scope.
Local Open Scope list_scope.

(** There is a text for every list of segments that are not empty and have no
    slash in them, and for no other. *)
Theorem every_place_has_a_text : forall segs, (exists s, names s segs) <-> Forall segment_ok segs.
Proof. exact text_iff. Qed.
Print Assumptions every_place_has_a_text.

(** What joined returns for the whole path is a text for the same segments
    exactly if reading it again leaves each of them as it is. *)
Theorem joined_read_again : forall q s segs p, names s segs -> path_set q s = POk p ->
  exists t, joined p 0 = Ok t /\ (names t segs <-> Forall unchanged segs).
Proof. exact text_again. Qed.
Print Assumptions joined_read_again.

(** Otherwise it may stand for another place, or for none. *)
Theorem joined_read_again_refuted :
  (exists s segs q p t, names s segs /\ segs <> [] /\ path_set q s = POk p /\ joined p 0 = Ok t /\ names t []) /\
  (exists s segs q p t, names s segs /\ path_set q s = POk p /\ joined p 0 = Ok t /\
     forall q', exists p', path_set q' t = PThrow p').
Proof. exact (conj again_differs again_throws). Qed.
Print Assumptions joined_read_again_refuted.

(** A member, an entry of a map or an element named by a string can be addressed
    by a request exactly if its own name is not empty and has no slash in it. *)
Theorem children_addressable : forall t v segs k tr n st t' n' v', typed t v ->
  reaches t NRoot v (segs ++ [k]) (tr ++ [(n, st)]) t' n' v' -> by_name n st -> Forall segment_ok segs ->
  addressable t v (map snd tr ++ [st]) <-> segment_ok k.
Proof. exact child_addressable. Qed.
Print Assumptions children_addressable.

(** Elements that cannot be addressed are created by post. *)
Theorem posted_elements_addressable_refuted : forall name, In name [txt ""; txt "a/b"] -> exists r' a,
  perform E0 root_ty root_res (Post (at_ "/items") (JObj [(txt "name", JStr name); (txt "n", JInt 3)])) = (r', a) /\
  (exists p, a = Answer s_created p) /\ get_at (value r') [SField 0; SIndex 2] = Some (VRec [VStr name; VInt 3]) /\
  ~ addressable root_ty (value r') [SField 0; SIndex 2].
Proof. exact posted_lost. Qed.
Print Assumptions posted_elements_addressable_refuted.

(** ** Examples *)

Example ex_text : names (txt "%25/a//%2E/b/../x%2Ey") [txt "%"; txt "a"; txt "."; txt "x.y"].
Proof. apply names_meaning. reflexivity. Qed.

Example ex_joined : exists p, path_set path_default (txt "a/x.y/./c") = POk p /\ joined p 0 = Ok (txt "a/x.y/c") /\
  names (txt "a/x.y/c") [txt "a"; txt "x.y"; txt "c"].
Proof.
  eexists. split; [vm_compute; reflexivity|]. split; [vm_compute; reflexivity|]. apply names_meaning. reflexivity.
Qed.

Example ex_entry : exists n n', reaches root_ty NRoot root_val [txt "m"; txt "w"] [(NRoot, SField 2); (n, SKey (txt "w"))] int32 n' (VInt 6) /\
  by_name n (SKey (txt "w")).
Proof.
  do 2 eexists. split; [|exact I]. unfold root_ty, root_val.
  eapply (reach_field _ _ _ 2 (plain (txt "m") (VMap []))); [reflexivity|reflexivity| |].
  - intros [|[|j]] b u Hj E; cbn in E; try (injection E as <- <-; discriminate). exfalso. clear -Hj.
    apply Nat.succ_lt_mono in Hj. apply Nat.succ_lt_mono in Hj. now apply Nat.nlt_0_r in Hj.
  - eapply reach_entry; [right; left; reflexivity|constructor].
Qed.

Example ex_element : exists n n', reaches root_ty NRoot root_val [txt "items"; txt "q"] [(NRoot, SField 0); (n, SIndex 1)] item_ty n' (item "q" 2) /\
  by_name n (SIndex 1).
Proof.
  exists (NField (keyed_by [mkckey 0 None] (plain (txt "items") (VSeq [])))). eexists. split; [|eexists; split; reflexivity]. unfold root_ty, root_val.
  eapply (reach_field _ _ _ 0 (keyed_by [mkckey 0 None] (plain (txt "items") (VSeq [])))); [reflexivity|reflexivity| |].
  - intros j b u Hj. now apply Nat.nlt_0_r in Hj.
  - eapply reach_keyed; [now left| |reflexivity|constructor]. exists [], []. split; [reflexivity|].
    split; [eexists; split; [reflexivity|eexists; split; reflexivity]|]. split.
    + intros [|j] e Hj E; [|apply Nat.succ_lt_mono in Hj; now apply Nat.nlt_0_r in Hj].
      injection E as <-. intros (k & K & M). cbn in K, M. congruence.
    + intros c e [].
Qed.
