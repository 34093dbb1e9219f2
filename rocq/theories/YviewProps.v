(** Views of YAML documents: the claim C138. *)
From Coq Require Import List Arith String Lia.
From Verif Require Import YviewModel YviewSpec YviewProofs YviewFreshProofs YviewFitsProofs YviewMadeProofs YviewSamples YviewSampleProofs.
Import ListNotations.
Local Open Scope string_scope.

(** What is made from nothing shows the document, and changes none. *)
Theorem new_views_show_the_document t h x h' v ok : closed h -> there h x -> deserialize t h (default t) x = (h', v, ok) ->
  closed h' /\ (forall n, n < List.length (h_ref h) -> untouched h h' n) /\
  forall n, In n (views v) -> n < List.length (h_ref h') /\
    ((exists m, x = Some m /\ reach h m n) \/ (List.length (h_ref h) <= n /\ content_of h' n = Null)).
Proof. exact (deserialize_new t h x h' v ok). Qed.
Print Assumptions new_views_show_the_document.

(** And it is the object that the document describes. *)
Theorem new_object_is_what_the_document_says t h x h' v : closed h -> there h x ->
  deserialize t h (default t) x = (h', v, true) -> made h h' t x v.
Proof. exact (new_object t h x h' v). Qed.
Print Assumptions new_object_is_what_the_document_says.

(** Whether there is an exception depends on the document alone. *)
Theorem deserialization_succeeds_iff_it_fits t h out x : closed h -> there h x -> object t out ->
  (forall n, x = Some n -> apart h n (held out)) -> (snd (deserialize t h out x) = true <-> fits h t x).
Proof. exact (deserialize_succeeds t h out x). Qed.
Print Assumptions deserialization_succeeds_iff_it_fits.

Theorem patching_succeeds_iff_it_fits t h out x : closed h -> there h x -> object t out ->
  (forall n, x = Some n -> apart h n (held out)) -> (snd (patch t h out x) = true <-> fits_patch h t x).
Proof. exact (patch_succeeds t h out x). Qed.
Print Assumptions patching_succeeds_iff_it_fits.

(** Members that the document does not name stay the same nodes. *)
Theorem patching_keeps_unnamed_members names ts h xs x l i v : closed h -> there h x ->
  (forall n, x = Some n -> apart h n (held (VFixed xs))) ->
  shows h x = Map l -> nth_error xs i = Some v -> named h (nth i names EmptyString) l None ->
  exists vs, snd (fst (patch (TStruct names ts) h (VFixed xs) x)) = VFixed vs /\ nth_error vs i = Some v.
Proof. exact (patch_keeps names ts h xs x l i v). Qed.
Print Assumptions patching_keeps_unnamed_members.

(** Documents that the target does not show outside of containers stay. *)
Theorem deserialization_leaves_other_documents t h out x n : closed h -> n < List.length (h_ref h) -> apart h n (held out) ->
  untouched h (fst (fst (deserialize t h out x))) n.
Proof. exact (deserialize_untouched t h out x n). Qed.
Print Assumptions deserialization_leaves_other_documents.

Theorem patching_leaves_other_documents t h out x n : closed h -> n < List.length (h_ref h) -> apart h n (held out) ->
  untouched h (fst (fst (patch t h out x))) n.
Proof. exact (patch_untouched t h out x n). Qed.
Print Assumptions patching_leaves_other_documents.

Theorem assignment_leaves_other_documents t h a b n : closed h -> n < List.length (h_ref h) -> apart h n (held a) ->
  untouched h (fst (assign t h a b)) n.
Proof. exact (assign_untouched t h a b n). Qed.
Print Assumptions assignment_leaves_other_documents.

(** A view always shows what it was deserialized from. *)
Theorem view_shows_its_source h a x : closed h -> there h a -> there h x ->
  exists h' c, deserialize TView h (VView a) x = (h', VView (Some c), true) /\ c < List.length (h_ref h') /\
    (forall n, x = Some n -> content_of h' c = content_of h' n) /\ (x = None -> content_of h' c = Null).
Proof. exact (view_shows h a x). Qed.
Print Assumptions view_shows_its_source.

(** What it showed before is replaced, in its document. *)
Theorem reused_view_rewrites_its_node h m n : closed h -> m < List.length (h_ref h) -> n < List.length (h_ref h) ->
  let h' := fst (fst (deserialize TView h (VView (Some m)) (Some n))) in
  content_of h' m = content_of h n /\ forall k, k <> m -> content_of h' k = content_of h k.
Proof. exact (overwritten h m n). Qed.
Print Assumptions reused_view_rewrites_its_node.

Theorem reused_view_erases_its_node h m : closed h -> m < List.length (h_ref h) ->
  content_of (fst (fst (deserialize TView h (VView (Some m)) None))) m = Null.
Proof. exact (overwritten_missing h m). Qed.
Print Assumptions reused_view_erases_its_node.

Theorem view_of_a_part_given_the_whole h n k : closed h -> n < List.length (h_ref h) -> In k (inside (content_of h n)) -> n <> k ->
  forall fuel, read fuel (fst (fst (deserialize TView h (VView (Some k)) (Some n)))) n = None.
Proof. exact (part_becomes_the_whole h n k). Qed.
Print Assumptions view_of_a_part_given_the_whole.

(** That documents stay as they are when an object with views is used again is wrong. *)
Theorem second_deserialization_leaves_the_first_document_refuted :
  ~ (forall t h a b ha v hb, closed h -> a < List.length (h_ref h) -> b < List.length (h_ref h) ->
       deserialize t h (default t) (Some a) = (ha, v, true) -> (exists w, deserialize t ha v (Some b) = (hb, w, true)) ->
       untouched h hb a).
Proof.
  intros H. destruct (H xy docs first second _ _ _ docs_closed ltac:(vm_compute; lia) ltac:(vm_compute; lia) eq_refl (ex_intro _ _ eq_refl)) as [R _].
  specialize (R 3). vm_compute in R. discriminate R.
Qed.
Print Assumptions second_deserialization_leaves_the_first_document_refuted.

Theorem patching_leaves_the_first_document_refuted :
  ~ (forall t h a b ha v hb, closed h -> a < List.length (h_ref h) -> b < List.length (h_ref h) ->
       deserialize t h (default t) (Some a) = (ha, v, true) -> (exists w, patch t ha v (Some b) = (hb, w, true)) ->
       untouched h hb a).
Proof.
  intros H. destruct (H xy docs first second _ _ _ docs_closed ltac:(vm_compute; lia) ltac:(vm_compute; lia) eq_refl (ex_intro _ _ eq_refl)) as [R _].
  specialize (R 3). vm_compute in R. discriminate R.
Qed.
Print Assumptions patching_leaves_the_first_document_refuted.

Theorem assignment_leaves_both_documents_refuted :
  ~ (forall t h a b ha u hb v, closed h -> a < List.length (h_ref h) -> b < List.length (h_ref h) ->
       deserialize t h (default t) (Some a) = (ha, u, true) -> deserialize t ha (default t) (Some b) = (hb, v, true) ->
       untouched h (fst (assign t hb u v)) a).
Proof.
  intros H. destruct (H opt_x docs first second _ _ _ _ docs_closed ltac:(vm_compute; lia) ltac:(vm_compute; lia) eq_refl eq_refl) as [R _].
  specialize (R 3). vm_compute in R. discriminate R.
Qed.
Print Assumptions assignment_leaves_both_documents_refuted.

(** Views of the first document; the second one has no [y]. *)
Example shown : deserialize xy docs (default xy) (Some first) = (docs, VFixed [VView (Some 1); VView (Some 3)], true).
Proof. reflexivity. Qed.
Example first_document_before : read 3 docs first = Some (TMapOf [(TScalar "x", TScalar "a"); (TScalar "y", TScalar "b")]).
Proof. reflexivity. Qed.
Example first_document_after :
  read 3 (heap_of (twice xy docs (Some first) (Some second))) first = Some (TMapOf [(TScalar "x", TScalar "c"); (TScalar "y", TNull)]).
Proof. reflexivity. Qed.
Example first_document_patched :
  read 3 (heap_of (patched xy docs (Some first) (Some second))) first = Some (TMapOf [(TScalar "x", TScalar "c"); (TScalar "y", TScalar "b")]).
Proof. reflexivity. Qed.
Example second_document_after : read 3 (heap_of (twice xy docs (Some first) (Some second))) second = read 3 docs second.
Proof. reflexivity. Qed.
Example optional_views_assigned :
  read 3 (fst (assigned opt_x docs (Some first) (Some second))) first = Some (TMapOf [(TScalar "x", TScalar "c"); (TScalar "y", TScalar "b")]).
Proof. reflexivity. Qed.
(** In containers views are made anew. *)
Example views_in_containers :
  twice (TSeq TView) docs (Some third) (Some third) = (docs, VSeq [VView (Some 8); VView (Some 11)], true) /\
  twice (TMap TView) docs (Some first) (Some second) = (docs, VMap [("x", VView (Some 6))], true).
Proof. split; reflexivity. Qed.
Example missing_is_null :
  let '(h, v, ok) := deserialize xy docs (default xy) (Some second) in
  v = VFixed [VView (Some 6); VView (Some 13)] /\ ok = true /\ read 1 h 13 = Some TNull /\ read 3 h second = read 3 docs second.
Proof. repeat split; reflexivity. Qed.
(** A view of the element of a sequence, then given the sequence. *)
Example own_element : forall fuel,
  read fuel (fst (fst (deserialize TView docs (VView (Some 11)) (Some third)))) third = None.
Proof.
  apply view_of_a_part_given_the_whole; [exact docs_closed | vm_compute; lia | cbn; tauto | discriminate].
Qed.
(** A document that is no map of maps; one whose second field is missing, as a patch and otherwise. *)
Example fitting : fits docs xy (Some first) /\ ~ fits docs (TMap (TMap TView)) (Some first) /\
  ~ fits docs (TStruct ["x"; "y"] [TString; TString]) (Some second) /\
  fits_patch docs (TStruct ["x"; "y"] [TString; TString]) (Some second).
Proof.
  assert (A : forall t n, apart docs n (held (default t))) by (intros t n m; rewrite YviewProofs.held_default; intros []).
  assert (S : forall t n, n < 13 -> snd (deserialize t docs (default t) (Some n)) = true <-> fits docs t (Some n)).
  { intros t n L. apply deserialization_succeeds_iff_it_fits; [exact docs_closed | exact L | apply object_default | intros; apply A]. }
  assert (P : forall t n, n < 13 -> snd (patch t docs (default t) (Some n)) = true <-> fits_patch docs t (Some n)).
  { intros t n L. apply patching_succeeds_iff_it_fits; [exact docs_closed | exact L | apply object_default | intros; apply A]. }
  unfold first, second. rewrite <- !S, <- P by lia. repeat split; discriminate.
Qed.
