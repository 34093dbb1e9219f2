(** Proofs about preprocessing and linking. *)
From Coq Require Import List Arith Bool String Lia.
From Verif Require Import LinkModel LinkSpec.
Import ListNotations.
Local Open Scope string_scope.

Lemma mem_In x l : mem x l = true <-> In x l.
Proof.
  unfold mem. rewrite existsb_exists. split.
  - intros (y & I & E). apply String.eqb_eq in E. now subst.
  - intros I. exists x. split; [exact I | apply String.eqb_refl].
Qed.
Lemma mem_nIn x l : mem x l = false <-> ~ In x l.
Proof. rewrite <- mem_In. destruct (mem x l); split; congruence. Qed.

Lemma lookup_In tab h i : In i (lookup tab h) -> exists l, In (h, l) tab /\ In i l.
Proof.
  unfold lookup. destruct (find _ tab) as [[k l]|] eqn:F; [|intros []].
  intros I. apply find_some in F as [F E]. cbn in E. apply String.eqb_eq in E. subst. eauto.
Qed.
Lemma lookup_once tab h l : files_once tab -> In (h, l) tab -> lookup tab h = l.
Proof.
  unfold files_once, lookup. induction tab as [|[k m] tab IH]; cbn; [intros _ []|].
  intros N [E|I].
  - inversion E; subst. now rewrite String.eqb_refl.
  - inversion N; subst. destruct (String.eqb_spec k h) as [->|D].
    + exfalso. apply H1. change h with (fst (h, l)). now apply in_map.
    + now apply IH.
Qed.

(** Lines not yet read *)
Definition unread tab seen := lines (filter (fun e => negb (mem (fst e) seen)) tab).

Lemma unread_cons k m tab seen : unread ((k, m) :: tab) seen = (if mem k seen then 0 else List.length m) + unread tab seen.
Proof. unfold unread. cbn [filter fst]. destruct (mem k seen); reflexivity. Qed.
Lemma unread_le tab seen : unread tab seen <= lines tab.
Proof.
  induction tab as [|[k m] tab IH]; [apply le_n|]. rewrite unread_cons. change (lines ((k, m) :: tab)) with (List.length m + lines tab).
  destruct (mem k seen); lia.
Qed.
Lemma mem_more k seen h : mem k seen = true -> mem k (seen ++ [h]) = true.
Proof. rewrite !mem_In, in_app_iff. auto. Qed.
Lemma unread_more tab seen h : unread tab (seen ++ [h]) <= unread tab seen.
Proof.
  induction tab as [|[k m] tab IH]; [apply le_n|]. rewrite !unread_cons. destruct (mem k seen) eqn:M.
  - rewrite (mem_more _ _ h M). lia.
  - destruct (mem k (seen ++ [h])); lia.
Qed.
Lemma unread_step tab seen h : mem h seen = false -> List.length (lookup tab h) + unread tab (seen ++ [h]) <= unread tab seen.
Proof.
  intros N. induction tab as [|[k m] tab IH]; [apply le_n|].
  assert (U := unread_more tab seen h). rewrite !unread_cons.
  unfold lookup in *. cbn [find fst]. destruct (String.eqb_spec k h) as [->|D].
  - rewrite N. assert (M : mem h (seen ++ [h]) = true) by (apply mem_In, in_or_app; right; now left). rewrite M. cbn. lia.
  - destruct (mem k seen) eqn:M.
    + rewrite (mem_more _ _ h M). lia.
    + destruct (mem k (seen ++ [h])); lia.
Qed.

Lemma preprocess_nodup tab n : forall seen todo, NoDup seen -> NoDup (preprocess tab n seen todo).
Proof.
  induction n as [|n IH]; intros seen todo N; cbn; [exact N|]. destruct todo as [|h rest]; [exact N|].
  destruct (mem h seen) eqn:M; [now apply IH|]. apply IH. apply mem_nIn in M.
  apply NoDup_rev in N. rewrite <- (rev_involutive (seen ++ [h])). apply NoDup_rev. rewrite rev_app_distr. cbn.
  constructor; [now rewrite <- in_rev | exact N].
Qed.

Lemma preprocess_sound tab n : forall seen todo k, In k (preprocess tab n seen todo) ->
  In k seen \/ exists h, In h todo /\ reaches tab h k.
Proof.
  induction n as [|n IH]; intros seen todo k I; cbn in I; [now left|]. destruct todo as [|h rest]; [now left|].
  destruct (mem h seen) eqn:M.
  - destruct (IH _ _ _ I) as [|(x & X & R)]; [now left|]. right. exists x. split; [now right|exact R].
  - destruct (IH _ _ _ I) as [S'|(x & X & R)].
    + apply in_app_or in S' as [|[->|[]]]; [now left|]. right. exists k. split; [now left|constructor].
    + apply in_app_or in X as [X|X].
      * apply lookup_In in X as (l & L & X). right. exists h. split; [now left|]. now apply there with l x.
      * right. exists x. split; [now right|exact R].
Qed.

Definition closed tab (seen todo : list string) := forall h i, In h seen -> In i (lookup tab h) -> In i seen \/ In i todo.

Lemma preprocess_closed tab n : forall seen todo, closed tab seen todo -> List.length todo + unread tab seen <= n ->
  closed tab (preprocess tab n seen todo) [] /\ (forall x, In x seen \/ In x todo -> In x (preprocess tab n seen todo)).
Proof.
  induction n as [|n IH]; intros seen todo C L.
  - destruct todo; cbn in L; [|lia]. cbn. split; [exact C|]. intros x [I|[]]; exact I.
  - destruct todo as [|h rest]; cbn [preprocess].
    + split; [exact C|]. intros x [I|[]]; exact I.
    + destruct (mem h seen) eqn:M.
      * apply mem_In in M. destruct (IH seen rest) as [A B].
        -- intros g i G I. destruct (C g i G I) as [|[->|]]; auto.
        -- cbn in L; lia.
        -- split; [exact A|]. intros x [I|[->|I]]; auto.
      * assert (U := unread_step tab seen h M).
        destruct (IH (seen ++ [h])%list (lookup tab h ++ rest)%list) as [A B].
        -- intros g i G I. apply in_app_or in G as [G|[->|[]]].
           ++ destruct (C g i G I) as [X|[->|X]].
              ** left. apply in_or_app. now left.
              ** left. apply in_or_app. right. now left.
              ** right. apply in_or_app. now right.
           ++ right. apply in_or_app. now left.
        -- rewrite app_length. cbn in L. lia.
        -- split; [exact A|]. intros x [I|[->|I]]; apply B.
           ++ left. apply in_or_app. now left.
           ++ left. apply in_or_app. right. now left.
           ++ right. apply in_or_app. now right.
Qed.

Lemma expand_iff tab : files_once tab -> forall l k, In k (expand tab l) <-> exists h, In h l /\ reaches tab h k.
Proof.
  intros O l k. unfold expand. split.
  - intros I. apply preprocess_sound in I as [[]|]; auto.
  - intros (h & I & R).
    destruct (preprocess_closed tab (List.length l + lines tab) [] l) as [C B]; [intros ? ? []| |].
    { pose proof (unread_le tab []). lia. }
    assert (H : In h (preprocess tab (List.length l + lines tab) [] l)) by (apply B; now right).
    clear I. induction R as [|h m i k M I R IH]; [exact H|]. apply IH.
    destruct (C h i H) as [X|[]]; [|exact X]. now rewrite (lookup_once tab h m O M).
Qed.
Lemma expand_once tab l : NoDup (expand tab l).
Proof. apply preprocess_nodup. constructor. Qed.

Lemma distinct_iff l : distinct l = true <-> NoDup l.
Proof.
  induction l as [|x l IH]; cbn; [split; [constructor|reflexivity]|].
  rewrite andb_true_iff, negb_true_iff, IH, mem_nIn. split.
  - intros [A B]. now constructor.
  - intros N. inversion N; auto.
Qed.

Lemma headers_once : files_once headers.
Proof.
  unfold files_once. apply distinct_iff. vm_compute. reflexivity.
Qed.

(** ** Object files *)

Definition two := ["kl::write_binary(binary_writer&, const std::string&)"; "kl::read_binary(binary_reader&, std::string&)"].

Lemma definitions_cases h : lookup definitions h = if String.eqb h "binary_rw/string.hpp" then two else [].
Proof.
  unfold lookup, definitions. cbn [find fst]. rewrite (String.eqb_sym h).
  destruct (String.eqb "binary_rw/string.hpp" h); reflexivity.
Qed.
Lemma flat_definitions l : NoDup l -> flat_map (lookup definitions) l = if mem "binary_rw/string.hpp" l then two else [].
Proof.
  induction l as [|h l IH]; intros N; [reflexivity|]. inversion N; subst. cbn [flat_map]. rewrite definitions_cases, (IH H2).
  unfold mem. cbn [existsb]. rewrite (String.eqb_sym h). destruct (String.eqb_spec "binary_rw/string.hpp" h) as [E|D]; cbn [orb app].
  - subst h. apply mem_nIn in H1. unfold mem in H1. rewrite H1. apply app_nil_r.
  - reflexivity.
Qed.
Lemma object_cases u : object u = if mem "binary_rw/string.hpp" (expand headers (includes u)) then two else [].
Proof. apply flat_definitions, expand_once. Qed.

Lemma streams_iff u : mem "binary_rw/string.hpp" (expand headers (includes u)) = true <-> streams_strings u.
Proof. rewrite mem_In. apply (expand_iff headers headers_once). Qed.

Definition of_library (p : program) := flat_map (lookup sources) (library_sources p).

Lemma all_in (l m : list string) s : forallb (fun x => mem x m) l = true -> In s l -> In s m.
Proof. rewrite forallb_forall. intros A I. apply mem_In. now apply A. Qed.
Lemma none_in (l m : list string) s : forallb (fun x => negb (mem x m)) l = true -> In s l -> ~ In s m.
Proof. rewrite forallb_forall. intros A I. apply mem_nIn, negb_true_iff. now apply A. Qed.

Lemma library_facts p : NoDup (of_library p) /\ (forall x, In x two -> ~ In x (of_library p)).
Proof.
  unfold of_library, library_sources. destruct p as [us w j y]; cbn [win32 json yaml].
  split; [apply distinct_iff | intros x; apply none_in]; destruct w, j, y; vm_compute; reflexivity.
Qed.

Lemma objects_in us x : In x (flat_map object us) -> In x two.
Proof.
  intros I. apply in_flat_map in I as (u & _ & I). rewrite object_cases in I. destruct (mem _ _); [exact I|destruct I].
Qed.

Lemma objects_distinct us : NoDup (flat_map object us) <-> at_most_one streams_strings us.
Proof.
  induction us as [|u us IH]; cbn [flat_map].
  - split; [|constructor]. intros _ i j x y E. destruct i; discriminate.
  - rewrite object_cases. destruct (mem _ _) eqn:M.
    + apply streams_iff in M. split.
      * intros N i j x y Ei Ej Px Py.
        assert (K : forall n z, nth_error us n = Some z -> streams_strings z -> False).
        { intros n z E P. apply nth_error_In in E. apply streams_iff in P.
          assert (I : In "kl::read_binary(binary_reader&, std::string&)" (flat_map object us)).
          { apply in_flat_map. exists z. split; [exact E|]. rewrite object_cases, P. right. now left. }
          inversion N; subst. inversion H2; subst. cbn in H3. exact (H3 I). }
        destruct i, j; cbn in Ei, Ej; try reflexivity; exfalso; eauto.
      * intros A.
        assert (F : flat_map object us = []).
        { assert (K : forall z, In z us -> ~ streams_strings z).
          { intros z I P. apply In_nth_error in I as [n E]. specialize (A 0 (S n) u z eq_refl E M P). discriminate. }
          clear A IH. induction us as [|z us IH]; [reflexivity|]. cbn. rewrite object_cases.
          destruct (mem _ _) eqn:Z.
          - apply streams_iff in Z. exfalso. apply (K z); [now left|exact Z].
          - apply IH. intros y I. apply K. now right. }
        rewrite F. cbn. repeat (constructor; [cbn; intuition discriminate|]). constructor.
    + cbn [app]. rewrite IH. assert (U : ~ streams_strings u) by (rewrite <- streams_iff, M; discriminate). split.
      * intros A i j x y Ei Ej Px Py. destruct i, j; cbn in Ei, Ej; try (inversion Ei; inversion Ej; subst; tauto).
        f_equal. eapply A; eauto.
      * intros A i j x y Ei Ej Px Py. specialize (A (S i) (S j) x y Ei Ej Px Py). now inversion A.
Qed.

Lemma nodup_app_iff {A} (l m : list A) : NoDup (l ++ m) <-> NoDup l /\ NoDup m /\ (forall x, In x l -> ~ In x m).
Proof.
  induction l as [|a l IH]; cbn.
  - split; [intros N; repeat split; auto; constructor | tauto].
  - split.
    + intros N. inversion N; subst. apply IH in H2 as (A1 & B & C). rewrite in_app_iff in H1. repeat split; auto.
      * constructor; tauto.
      * intros x [<-|I]; [tauto|auto].
    + intros (N & B & C). inversion N; subst. constructor.
      * rewrite in_app_iff. intros [I|I]; [tauto|]. apply (C a); auto.
      * apply IH. auto.
Qed.

Lemma symbols_distinct p : distinct (symbols p) = true <-> at_most_one streams_strings (units p).
Proof.
  rewrite distinct_iff. unfold symbols. fold (of_library p). rewrite nodup_app_iff, objects_distinct.
  destruct (library_facts p) as [L D]. split; [tauto|]. intros A. repeat split; auto.
  intros x I. apply D. now apply objects_in in I.
Qed.

(** ** Calls *)

Definition json_names := lookup declarations "json.hpp".
Definition yaml_names := lookup declarations "yaml.hpp".
Definition base_names := (lookup declarations "base64.hpp" ++ lookup declarations "file_view.hpp" ++ lookup declarations "path.hpp"
  ++ lookup declarations "serialization_error.hpp")%list.

Lemma declared_in h s : mem s (lookup declarations h) = true -> In s json_names \/ In s yaml_names \/ In s base_names.
Proof.
  intros I. apply mem_In, lookup_In in I as (l & L & I). unfold base_names. rewrite !in_app_iff.
  cbn in L. repeat (destruct L as [L|L]; [inversion L; subst; unfold json_names, yaml_names; tauto|]). destruct L.
Qed.

Lemma base_there p s : In s base_names -> In s (of_library p).
Proof.
  apply all_in. unfold of_library, library_sources. destruct p as [us w j y]; cbn [win32 json yaml].
  destruct w, j, y; vm_compute; reflexivity.
Qed.
Lemma json_there p s : In s json_names -> (In s (of_library p) <-> json p = true).
Proof.
  unfold of_library, library_sources. destruct p as [us w j y]; cbn [win32 json yaml]. intros I. destruct j.
  - split; [reflexivity|]. intros _. revert I. apply all_in. destruct w, y; vm_compute; reflexivity.
  - split; [|discriminate]. intros X. exfalso. revert I X. apply none_in. destruct w, y; vm_compute; reflexivity.
Qed.
Lemma yaml_there p s : In s yaml_names -> (In s (of_library p) <-> yaml p = true).
Proof.
  unfold of_library, library_sources. destruct p as [us w j y]; cbn [win32 json yaml]. intros I. destruct y.
  - split; [reflexivity|]. intros _. revert I. apply all_in. destruct w, j; vm_compute; reflexivity.
  - split; [|discriminate]. intros X. exfalso. revert I X. apply none_in. destruct w, j; vm_compute; reflexivity.
Qed.
Lemma json_of s : In s json_names -> of_json s.
Proof. cbn. intros I. repeat (destruct I as [<-|I]; [eexists; reflexivity|]). destruct I. Qed.
Lemma yaml_of s : In s yaml_names -> of_yaml s.
Proof. cbn. intros I. repeat (destruct I as [<-|I]; [eexists; reflexivity|]). destruct I. Qed.

Lemma prefix_append a f : String.prefix a (a ++ f) = true.
Proof. induction a as [|c a IH]; cbn; [now destruct f|]. destruct (Ascii.ascii_dec c c); [exact IH|tauto]. Qed.
Lemma none_prefixed a l : forallb (fun s => negb (String.prefix a s)) l = true -> forall s f, In s l -> s <> a ++ f.
Proof.
  rewrite forallb_forall. intros A s f I E. specialize (A s I). subst. rewrite prefix_append in A. discriminate.
Qed.
Lemma not_json s : In s yaml_names \/ In s base_names \/ In s two -> ~ of_json s.
Proof.
  intros I (f & E). revert E. apply (none_prefixed _ (yaml_names ++ base_names ++ two)%list); [vm_compute; reflexivity|].
  now rewrite !in_app_iff.
Qed.
Lemma not_yaml s : In s json_names \/ In s base_names \/ In s two -> ~ of_yaml s.
Proof.
  intros I (f & E). revert E. apply (none_prefixed _ (json_names ++ base_names ++ two)%list); [vm_compute; reflexivity|].
  now rewrite !in_app_iff.
Qed.

Lemma called p u s : In u (units p) -> compiles u = true -> In s (calls u) ->
  (mem s (symbols p) = true <-> (of_json s -> json p = true) /\ (of_yaml s -> yaml p = true)).
Proof.
  intros U C I. unfold compiles in C. rewrite forallb_forall in C. specialize (C s I).
  apply existsb_exists in C as (h & H & D). rewrite mem_In. unfold symbols. fold (of_library p). rewrite in_app_iff.
  assert (NO : forall x, In x (of_library p) -> ~ In x (flat_map object (units p))).
  { intros x L O. apply objects_in in O. now apply (proj2 (library_facts p)) in O. }
  apply orb_true_iff in D as [D|D].
  - apply declared_in in D as [J|[Y|B]].
    + assert (N2 : ~ In s two) by (intros T; apply (not_json s); [tauto|now apply json_of]).
      rewrite <- (json_there p s J). split.
      * intros [O|L]; [now apply objects_in in O|]. split; [auto|]. intros Y. exfalso. apply (not_yaml s); auto.
      * intros [A _]. right. apply A, json_of, J.
    + assert (N2 : ~ In s two) by (intros T; apply (not_yaml s); [tauto|now apply yaml_of]).
      rewrite <- (yaml_there p s Y). split.
      * intros [O|L]; [now apply objects_in in O|]. split; [|auto]. intros J. exfalso. apply (not_json s); auto.
      * intros [_ A]. right. apply A, yaml_of, Y.
    + split; [|intros _; right; now apply base_there]. intros _.
      split; intros O; exfalso; [apply (not_json s)|apply (not_yaml s)]; auto.
  - rewrite definitions_cases in D. destruct (String.eqb_spec h "binary_rw/string.hpp") as [->|]; [|discriminate].
    apply mem_In in D. split.
    + intros _. split; intros O; exfalso; [apply (not_json s)|apply (not_yaml s)]; auto.
    + intros _. left. apply in_flat_map. exists u. split; [exact U|]. rewrite object_cases.
      apply mem_In in H. now rewrite H.
Qed.

Lemma links_iff p : Forall (fun u => compiles u = true) (units p) ->
  (links p = true <-> at_most_one streams_strings (units p) /\
    forall u s, In u (units p) -> In s (calls u) -> (of_json s -> json p = true) /\ (of_yaml s -> yaml p = true)).
Proof.
  intros C. rewrite Forall_forall in C. unfold links. rewrite andb_true_iff, symbols_distinct, forallb_forall.
  split; intros [A B]; (split; [exact A|]).
  - intros u s U I. specialize (B u U). rewrite forallb_forall in B. apply (called p u s U (C u U) I). now apply B.
  - intros u U. apply forallb_forall. intros s I. apply (called p u s U (C u U) I). now apply (B u).
Qed.
