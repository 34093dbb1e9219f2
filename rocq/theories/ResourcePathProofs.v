(** What [visit_node] finds is what the path refers to. *)
From Coq Require Import List NArith ZArith Arith Bool Lia.
From Verif Require Import Base PathModel PathSpec PathProofs TrackerModel TrackerSpec EnumModel EnumProofs
  SerialModel SerialSpec SerialBaseProofs ResourceModel ResourceSpec ResourceBaseProofs.
From Verif Require TrackerProofs TextModel TextSpec TextProofs.
Import ListNotations.

Local Notation str := (list N) (only parsing).

(* ------------------------------------------------------------------ *)
(** ** Keys *)

Lemma key_matches_true ck e s : key_matches ck e s = true <-> matches ck e s.
Proof.
  unfold key_matches, matches. destruct (key_of (ck_member ck) e) as [k|].
  - destruct (ck_match ck) as [f|].
    + split; [eauto|intros (k' & [= <-] & H); exact H].
    + split.
      * destruct k; try discriminate. intros H. apply str_eqb_true in H. subst. eauto.
      * intros (k' & [= <-] & ->). apply str_eqb_refl.
  - split; [discriminate|intros (k & H & _); discriminate].
Qed.

Lemma find_index_some {A} (p : A -> bool) l i : find_index p l = Some i <->
  (exists x, nth_error l i = Some x /\ p x = true) /\ (forall j x, j < i -> nth_error l j = Some x -> p x = false).
Proof.
  revert i. induction l as [|y l IH]; intros i; cbn [find_index].
  - split; [discriminate|]. intros [(x & H & _) _]. destruct i; discriminate.
  - destruct (p y) eqn:E.
    + split.
      * intros [= <-]. split; [exists y; auto|]. intros j x H. lia.
      * intros [_ H]. destruct i as [|i]; [reflexivity|]. specialize (H 0 y ltac:(lia) eq_refl). congruence.
    + destruct i as [|i].
      * split; [destruct (find_index p l); discriminate|]. intros [(x & [= <-] & Hx) _]. congruence.
      * specialize (IH i). split.
        -- intros H. assert (find_index p l = Some i) as H' by (destruct (find_index p l); cbn in H; congruence).
           apply IH in H'. destruct H' as [H1 H2]. split; [exact H1|]. intros [|j] x Hj Hx; [cbn in Hx; congruence|].
           apply (H2 j x); [lia|exact Hx].
        -- intros [H1 H2]. assert (find_index p l = Some i) as ->; [|reflexivity]. apply IH. split; [exact H1|].
           intros j x Hj Hx. apply (H2 (S j) x); [lia|exact Hx].
Qed.

Lemma find_index_none {A} (p : A -> bool) l : find_index p l = None <-> forall x, In x l -> p x = false.
Proof.
  induction l as [|y l IH]; cbn [find_index In].
  - split; [tauto|reflexivity].
  - destruct (p y) eqn:E.
    + split; [discriminate|]. intros H. specialize (H y (or_introl eq_refl)). congruence.
    + transitivity (find_index p l = None).
      * destruct (find_index p l); cbn; split; congruence.
      * rewrite IH. split; [intros H x [<-|Hx]; auto|auto].
Qed.

Lemma not_matches ck e s : key_matches ck e s = false <-> ~ matches ck e s.
Proof. rewrite <- key_matches_true. destruct (key_matches ck e s); split; congruence. Qed.

Lemma find_keyed_some cks vs s ck i : find_keyed cks vs s = Some (ck, i) -> key_name cks vs s ck i.
Proof.
  induction cks as [|c cks IH]; cbn [find_keyed]; [discriminate|].
  destruct (find_index _ vs) as [j|] eqn:E.
  - intros [= -> ->]. apply find_index_some in E. destruct E as [(e & He & Hm) Hb].
    exists [], cks. repeat split.
    + exists e. split; [exact He|]. now apply key_matches_true.
    + intros j e' Hj He'. apply not_matches. exact (Hb j e' Hj He').
    + intros c e' [].
  - intros H. destruct (IH H) as (b & a & -> & H1 & H2 & H3). exists (c :: b), a. repeat split; auto.
    intros c' e [<-|Hc] He; [|exact (H3 c' e Hc He)]. apply not_matches. exact (proj1 (find_index_none _ _) E e He).
Qed.

Lemma find_keyed_none cks vs s : find_keyed cks vs s = None -> forall ck e, In ck cks -> In e vs -> ~ matches ck e s.
Proof.
  induction cks as [|c cks IH]; cbn [find_keyed]; [intros _ ck e []|].
  destruct (find_index _ vs) as [j|] eqn:E; [discriminate|]. intros H ck e [<-|Hc] He; [|exact (IH H ck e Hc He)].
  apply not_matches. exact (proj1 (find_index_none _ _) E e He).
Qed.

Lemma key_name_found cks vs s ck i : key_name cks vs s ck i -> find_keyed cks vs s = Some (ck, i).
Proof.
  intros (b & a & -> & (e & He & Hm) & H2 & H3). induction b as [|c b IH]; cbn [app find_keyed].
  - assert (find_index (fun e => key_matches ck e s) vs = Some i) as ->; [|reflexivity].
    apply find_index_some. split; [exists e; split; [exact He|now apply key_matches_true]|].
    intros j e' Hj He'. apply not_matches. exact (H2 j e' Hj He').
  - assert (find_index (fun e => key_matches c e s) vs = None) as ->.
    { apply find_index_none. intros e' He'. apply not_matches. exact (H3 c e' (or_introl eq_refl) He'). }
    apply IH. intros c' e' Hc. exact (H3 c' e' (or_intror Hc)).
Qed.

Lemma key_name_nil vs s ck i : ~ key_name [] vs s ck i.
Proof. intros (b & a & E & _). destruct b; discriminate. Qed.

Lemma index_name_parse s i : index_name s i <-> TextModel.parse_index s = Some (N.of_nat i).
Proof. unfold index_name. rewrite TextProofs.parse_index_lemma. tauto. Qed.

Lemma index_name_fun s i j : index_name s i -> index_name s j -> i = j.
Proof. intros (_ & H & _) (_ & H' & _). lia. Qed.

(* ------------------------------------------------------------------ *)
(** ** Following a path *)

Lemma typed_field fs vs i a t : typed (TRec fs) (VRec vs) -> nth_error fs i = Some (a, t) ->
  exists v, nth_error vs i = Some v /\ typed t v.
Proof.
  cbn [typed]. revert vs i. induction fs as [|f fs IH]; intros [|v vs] [|i] H E; cbn in *; try discriminate; try tauto.
  - injection E as ->. exists v. split; [reflexivity|apply H].
  - apply (IH vs i); [apply H|exact E].
Qed.

Lemma typed_element t te vs : elements t te -> typed t (VSeq vs) -> forall v, In v vs -> typed te v.
Proof.
  intros [->|[k ->]]; cbn [typed].
  - intros H v Hv. apply all1_Forall in H. rewrite Forall_forall in H. auto.
  - intros [_ H] v Hv. apply all1_Forall in H. rewrite Forall_forall in H. auto.
Qed.

Lemma typed_entry t m k v : typed (TMap t) (VMap m) -> In (k, v) m -> typed t v /\ map_find k m = Some v.
Proof.
  cbn [typed]. intros [Hs H] Hin. apply all1_Forall in H. rewrite Forall_forall in H. split; [exact (H _ Hin)|].
  apply map_find_nodup; [now apply sorted_keys_nodup|exact Hin].
Qed.

Lemma elements_fun t te te' : elements t te -> elements t te' -> te = te'.
Proof. intros [->|[k ->]] [E|[k' E]]; congruence. Qed.

Ltac no_elements := match goal with H : elements _ _ |- _ => destruct H as [H|[? H]]; discriminate H end.

Lemma reaches_fun t n v segs tr t1 n1 v1 : reaches t n v segs tr t1 n1 v1 -> typed t v ->
  forall tr' t2 n2 v2, reaches t n v segs tr' t2 n2 v2 -> tr' = tr /\ t2 = t1 /\ n2 = n1 /\ v2 = v1.
Proof.
  induction 1 as [t n v|fs n vs i a t v segs tr t' n' v' Hf Hv Hb H IH|t n v s segs tr t' n' v' H IH
    |t n m s v segs tr t' n' v' Hin H IH|t te n vs s i v segs tr t' n' v' He Hk Hi Hv H IH
    |t te n vs s ck i v segs tr t' n' v' He Hk Hv H IH]; intros Ht tr' t2 n2 v2 H'.
  - inversion H'; subst; auto.
  - inversion H'; subst; try no_elements.
    assert (i0 = i) as ->.
    { destruct (Nat.lt_trichotomy i0 i) as [Hl|[Hl|Hl]]; [|exact Hl|].
      - exfalso. match goal with E : serialized_name a0 = serialized_name a |- _ => apply (Hb _ _ _ Hl H4); exact E end.
      - exfalso. match goal with E : serialized_name a0 = serialized_name a |- _ => apply (H7 _ _ _ Hl Hf); now symmetry end. }
    destruct (typed_field _ _ _ _ _ Ht Hf) as (w & Hw & Htw).
    assert (w = v) as -> by congruence. assert (v0 = v) as -> by congruence. rewrite Hf in H4. injection H4 as <- <-.
    destruct (IH Htw _ _ _ _ H12) as (-> & -> & -> & ->). auto.
  - inversion H'; subst; try no_elements.
    match goal with R : reaches t _ v (s :: segs) _ _ _ _ |- _ => destruct (IH Ht _ _ _ _ R) as (-> & -> & -> & ->) end. auto.
  - inversion H'; subst; try no_elements. destruct (typed_entry _ _ _ _ Ht Hin) as [Htv Hfd].
    match goal with G : In (s, v0) m |- _ => destruct (typed_entry _ _ _ _ Ht G) as [_ Hfd'] end.
    assert (v0 = v) as -> by congruence.
    match goal with R : reaches t _ v segs _ _ _ _ |- _ => destruct (IH Htv _ _ _ _ R) as (-> & -> & -> & ->) end. auto.
  - inversion H'; subst; try no_elements.
    + assert (i0 = i) as -> by (eapply index_name_fun; eassumption). assert (v0 = v) as -> by congruence.
      assert (te0 = te) as -> by (eapply elements_fun; eassumption).
      assert (Htv : typed te v) by (eapply typed_element; eauto using nth_error_In).
      match goal with R : reaches te _ v segs _ _ _ _ |- _ => destruct (IH Htv _ _ _ _ R) as (-> & -> & -> & ->) end. auto.
    + exfalso. match goal with K : key_name _ _ _ _ _ |- _ => rewrite Hk in K; exact (key_name_nil _ _ _ _ K) end.
  - inversion H'; subst; try no_elements.
    + exfalso. match goal with K : node_child_keys n = [] |- _ => rewrite K in Hk; exact (key_name_nil _ _ _ _ Hk) end.
    + match goal with K : key_name _ _ _ ck0 i0 |- _ => pose proof (key_name_found _ _ _ _ _ K) as K1 end.
      pose proof (key_name_found _ _ _ _ _ Hk) as K2. rewrite K1 in K2. injection K2 as -> ->.
      assert (v0 = v) as -> by congruence.
      assert (te0 = te) as -> by (eapply elements_fun; eassumption).
      assert (Htv : typed te v) by (eapply typed_element; eauto using nth_error_In).
      match goal with R : reaches te _ v segs _ _ _ _ |- _ => destruct (IH Htv _ _ _ _ R) as (-> & -> & -> & ->) end. auto.
Qed.

(** What is reached is at the location, and has its type. *)
Lemma reaches_get t n v segs tr t1 n1 v1 : reaches t n v segs tr t1 n1 v1 -> typed t v ->
  get_at v (map snd tr) = Some v1 /\ typed t1 v1.
Proof.
  induction 1 as [t n v|fs n vs i a t v segs tr t' n' v' Hf Hv Hb H IH|t n v s segs tr t' n' v' H IH
    |t n m s v segs tr t' n' v' Hin H IH|t te n vs s i v segs tr t' n' v' He Hk Hi Hv H IH
    |t te n vs s ck i v segs tr t' n' v' He Hk Hv H IH]; intros Ht; cbn [map snd get_at].
  - auto.
  - rewrite Hv. destruct (typed_field _ _ _ _ _ Ht Hf) as (w & Hw & Htw). assert (w = v) as -> by congruence. auto.
  - auto.
  - destruct (typed_entry _ _ _ _ Ht Hin) as [Htv ->]. auto.
  - rewrite Hv. apply IH. eapply typed_element; eauto using nth_error_In.
  - rewrite Hv. apply IH. eapply typed_element; eauto using nth_error_In.
Qed.

Lemma all1_set_nth (P : val -> Prop) i x l : all1 P l -> P x -> all1 P (set_nth i x l).
Proof. revert i. induction l as [|y l IH]; intros [|i]; cbn; tauto || (intros [H1 H2] Hx; auto). Qed.

Lemma all2_set_nth {A} (P : A -> val -> Prop) fs f i x vs : all2 P fs vs -> nth_error fs i = Some f -> P f x ->
  all2 P fs (set_nth i x vs).
Proof.
  revert i vs. induction fs as [|g fs IH]; intros [|i] [|v vs]; cbn; try discriminate; try tauto.
  - intros [_ H] [= ->] Hx. auto.
  - intros [H1 H2] Hf Hx. split; [exact H1|]. now apply IH.
Qed.

Lemma all1_map_assign (P : val -> Prop) k x m : all1 (fun kv : str * val => P (snd kv)) m -> P x ->
  all1 (fun kv => P (snd kv)) (map_assign k x m).
Proof.
  induction m as [|[k' y] m IH]; cbn; [tauto|]. intros [H1 H2] Hx. destruct (str_eqb k' k); cbn; auto.
Qed.

Lemma typed_set_element t te vs i x : elements t te -> typed t (VSeq vs) -> typed te x -> typed t (VSeq (set_nth i x vs)).
Proof.
  intros [->|[k ->]]; cbn [typed]; intros H Hx.
  - now apply all1_set_nth.
  - destruct H as [H1 H2]. split; [now rewrite set_nth_length|now apply all1_set_nth].
Qed.

(** Assigning a value of the type keeps the object in its type. *)
Lemma reaches_set_typed t n v segs tr t1 n1 v1 x : reaches t n v segs tr t1 n1 v1 -> typed t v -> typed t1 x ->
  typed t (set_at v (map snd tr) x).
Proof.
  intros R. induction R as [t n v|fs n vs i a t v segs tr t' n' v' Hf Hv Hb H IH|t n v s segs tr t' n' v' H IH
    |t n m s v segs tr t' n' v' Hin H IH|t te n vs s i v segs tr t' n' v' He Hk Hi Hv H IH
    |t te n vs s ck i v segs tr t' n' v' He Hk Hv H IH]; intros Ht Hx; cbn [map snd set_at].
  - exact Hx.
  - rewrite Hv. destruct (typed_field _ _ _ _ _ Ht Hf) as (w & Hw & Htw). assert (w = v) as -> by congruence.
    cbn [typed] in *. exact (all2_set_nth _ fs _ i _ vs Ht Hf (IH Htw Hx)).
  - cbn [typed] in *. auto.
  - destruct (typed_entry _ _ _ _ Ht Hin) as [Htv Hfd]. rewrite Hfd. cbn [typed] in *. destruct Ht as [Hs Ha]. split.
    + eapply sorted_keys_ext; [|exact Hs]. now rewrite map_assign_keys.
    + apply (all1_map_assign (typed t)); auto.
  - rewrite Hv. eapply typed_set_element; eauto. apply IH; [|exact Hx]. eapply typed_element; eauto using nth_error_In.
  - rewrite Hv. eapply typed_set_element; eauto. apply IH; [|exact Hx]. eapply typed_element; eauto using nth_error_In.
Qed.

(** Paths compose. *)
Lemma reaches_trans t n v segs tr t1 n1 v1 : reaches t n v segs tr t1 n1 v1 ->
  forall segs' tr' t2 n2 v2, reaches t1 n1 v1 segs' tr' t2 n2 v2 -> reaches t n v (segs ++ segs') (tr ++ tr') t2 n2 v2.
Proof. induction 1; intros segs' tr' t2 n2 v2 R; cbn [app]; try (econstructor; eauto; fail). exact R. Qed.

(** A path can be followed up to some point. *)
Lemma reaches_split segs segs' : forall t n v tr t2 n2 v2, reaches t n v (segs ++ segs') tr t2 n2 v2 ->
  exists tr1 tr2 t1 n1 v1, tr = tr1 ++ tr2 /\ reaches t n v segs tr1 t1 n1 v1 /\ reaches t1 n1 v1 segs' tr2 t2 n2 v2.
Proof.
  intros t n v tr t2 n2 v2 H. remember (segs ++ segs') as l eqn:E. revert segs E.
  induction H as [t n v|fs n vs i a t v l tr t' n' v' Hf Hv Hb H IH|t n v s l tr t' n' v' H IH
    |t n m s v l tr t' n' v' Hin H IH|t te n vs s i v l tr t' n' v' He Hk Hi Hv H IH
    |t te n vs s ck i v l tr t' n' v' He Hk Hv H IH]; intros segs E.
  - destruct segs as [|s0 segs]; [|discriminate E]. cbn [app] in E. subst segs'.
    eexists [], _, _, _, _. split; [reflexivity|]. split; constructor.
  - destruct segs as [|s0 segs]; cbn [app] in E.
    { subst segs'. eexists [], _, _, _, _. split; [reflexivity|]. split; [constructor|]. eapply reach_field; eauto. }
    injection E as <- E. destruct (IH _ E) as (tr1 & tr2 & t1 & n1 & v1 & -> & R1 & R2).
    do 5 eexists. split; [apply app_comm_cons|]. split; [eapply reach_field; eauto|exact R2].
  - destruct segs as [|s0 segs]; cbn [app] in E.
    { subst segs'. eexists [], _, _, _, _. split; [reflexivity|]. split; [constructor|]. eapply reach_some; eauto. }
    injection E as -> E. destruct (IH (s0 :: segs)) as (tr1 & tr2 & t1 & n1 & v1 & -> & R1 & R2); [cbn; congruence|].
    do 5 eexists. split; [apply app_comm_cons|]. split; [eapply reach_some; eauto|exact R2].
  - destruct segs as [|s0 segs]; cbn [app] in E.
    { subst segs'. eexists [], _, _, _, _. split; [reflexivity|]. split; [constructor|]. eapply reach_entry; eauto. }
    injection E as -> E. destruct (IH _ E) as (tr1 & tr2 & t1 & n1 & v1 & -> & R1 & R2).
    do 5 eexists. split; [apply app_comm_cons|]. split; [eapply reach_entry; eauto|exact R2].
  - destruct segs as [|s0 segs]; cbn [app] in E.
    { subst segs'. eexists [], _, _, _, _. split; [reflexivity|]. split; [constructor|]. eapply reach_index; eauto. }
    injection E as -> E. destruct (IH _ E) as (tr1 & tr2 & t1 & n1 & v1 & -> & R1 & R2).
    do 5 eexists. split; [apply app_comm_cons|]. split; [eapply reach_index; eauto|exact R2].
  - destruct segs as [|s0 segs]; cbn [app] in E.
    { subst segs'. eexists [], _, _, _, _. split; [reflexivity|]. split; [constructor|]. eapply reach_keyed; eauto. }
    injection E as -> E. destruct (IH _ E) as (tr1 & tr2 & t1 & n1 & v1 & -> & R1 & R2).
    do 5 eexists. split; [apply app_comm_cons|]. split; [eapply reach_keyed; eauto|exact R2].
Qed.

(* ------------------------------------------------------------------ *)
(** ** [visit_node] *)

(** The access context after following a path. *)
Fixpoint ctx_along (c : access) (tr : list (nkind * step)) : access :=
  match tr with
  | [] => c
  | (n, s) :: tr' => ctx_along (match s with SField i => update_field c n i | _ => update c n end) tr'
  end.

Definition vspec (res : found) (t : ty) (n : nkind) (v : val) (pre post : list str) (c : access) : Prop :=
  (exists tr t' n' v' rest, reaches t n v pre tr t' n' v' /\
     res = Visit (mkplace (map snd tr) t' n' v' rest (ctx_along c tr)) /\ shows rest post) \/
  ((res = Fail XNotFound \/ res = Fail XNotTraversable) /\ forall tr t' n' v', ~ reaches t n v pre tr t' n' v').

Lemma vspec_notfound t n v pre post c :
  (forall tr t' n' v', ~ reaches t n v pre tr t' n' v') -> vspec (Fail XNotFound) t n v pre post c.
Proof. right. auto. Qed.

(** One step and the rest. *)
Lemma vspec_below res s t n v pre post c t1 n1 v1 pre1 c1 :
  c1 = match s with SField i => update_field c n i | _ => update c n end ->
  (forall tr t' n' v', reaches t1 n1 v1 pre1 tr t' n' v' -> reaches t n v pre ((n, s) :: tr) t' n' v') ->
  (forall tr t' n' v', reaches t n v pre tr t' n' v' -> exists tr1, reaches t1 n1 v1 pre1 tr1 t' n' v') ->
  vspec res t1 n1 v1 pre1 post c1 -> vspec (below s res) t n v pre post c.
Proof.
  intros Hc Hf Hb [(tr & t' & n' & v' & rest & R & -> & Hs)|[Hres Hn]].
  - left. exists ((n, s) :: tr), t', n', v', rest. split; [auto|]. split; [|exact Hs]. cbn. now rewrite Hc.
  - right. split.
    + destruct Hres as [-> | ->]; cbn; auto.
    + intros tr t' n' v' R. destruct (Hb _ _ _ _ R) as [tr1 R1]. exact (Hn _ _ _ _ R1).
Qed.

Lemma visit_here t n v p post c : shows p post ->
  visit_node t n v p (length post) c = Visit (mkplace [] t n v p c).
Proof. intros H. destruct t; cbn [visit_node]; now rewrite (shows_size _ _ H), Nat.eqb_refl. Qed.

Lemma fields_spec (f : nat -> attrs -> ty -> val -> found) (n : nkind) (pre post : list str) (s : str) (c : access) fs0 vs0 :
  (forall i a t v, nth_error fs0 i = Some (a, t) -> typed t v -> vspec (f i a t v) t (NField a) v pre post (update_field c n i)) ->
  forall done fs vsd vs, fs0 = done ++ fs -> vs0 = vsd ++ vs -> length done = length vsd ->
  all2 (fun g => typed (snd g)) fs vs ->
  (forall b u, In (b, u) done -> serialized_name b <> s) ->
  vspec (visit_fields f s (length done) fs vs) (TRec fs0) n (VRec vs0) (s :: pre) post c.
Proof.
  intros Hf done fs. revert done. induction fs as [|[a t] fs IH]; intros done vsd [|v vs] E1 E2 El Ht Hd; cbn in Ht; try tauto;
    cbn [visit_fields].
  - apply vspec_notfound. intros tr t' n' v' R. inversion R; subst; try no_elements.
    rewrite app_nil_r in *. match goal with G : nth_error done _ = Some _ |- _ => apply nth_error_In in G; exact (Hd _ _ G eq_refl) end.
  - assert (Ha : nth_error fs0 (length done) = Some (a, t)) by (subst; rewrite nth_error_app2, Nat.sub_diag by lia; reflexivity).
    assert (Hv : nth_error vs0 (length done) = Some v) by (subst; rewrite El, nth_error_app2, Nat.sub_diag by lia; reflexivity).
    destruct (str_eqb s (serialized_name a)) eqn:E.
    + apply str_eqb_true in E. subst s. eapply vspec_below; [reflexivity| | |exact (Hf _ _ _ v Ha (proj1 Ht))].
      * intros tr t' n' v' R. econstructor; eauto. intros j b u Hj Hb. apply (Hd b u). subst fs0.
        rewrite nth_error_app1 in Hb by exact Hj. eapply nth_error_In; eauto.
      * intros tr t' n' v' R. inversion R; subst; try no_elements.
        match goal with G : nth_error (done ++ (a, t) :: fs) i = Some (a0, t0) |- _ => rename G into Gi end.
        destruct (Nat.lt_trichotomy i (length done)) as [Hl|[Hl|Hl]].
        -- exfalso. rewrite nth_error_app1 in Gi by exact Hl. apply nth_error_In in Gi.
           match goal with E : serialized_name a0 = serialized_name a |- _ => exact (Hd _ _ Gi E) end.
        -- subst i. rewrite Ha in Gi. injection Gi as <- <-.
           match goal with G : nth_error _ (length done) = Some v0 |- _ => rewrite Hv in G; injection G as <- end. eauto.
        -- exfalso. match goal with E : serialized_name a0 = serialized_name a, B : forall j b u, j < i -> _ |- _ =>
             apply (B _ _ _ Hl Ha); now symmetry end.
    + apply str_eqb_false in E. specialize (IH (done ++ [(a, t)]) (vsd ++ [v]) vs).
      rewrite !app_length, !Nat.add_1_r in IH. apply IH.
      * subst. now rewrite <- app_assoc.
      * subst. now rewrite <- app_assoc.
      * congruence.
      * apply Ht.
      * intros b u Hin. apply in_app_or in Hin. destruct Hin as [Hin|[[= <- <-]|[]]]; [eauto|congruence].
Qed.

Definition seq_visit (f : nkind -> val -> found) (n : nkind) (vs : list val) (s : str) : found :=
  match node_child_keys n with
  | [] =>
      match TextModel.parse_index s with
      | None => Fail XNotFound
      | Some i =>
          match nth_error vs (N.to_nat i) with
          | None => Fail XNotFound
          | Some v' => below (SIndex (N.to_nat i)) (f (NElem None) v')
          end
      end
  | cks =>
      match find_keyed cks vs s with
      | None => Fail XNotFound
      | Some (ck, i) =>
          match nth_error vs i with
          | Some v' => below (SIndex i) (f (NElem (Some (ck_member ck))) v')
          | None => Fail XUB
          end
      end
  end.

Lemma seq_spec (f : nkind -> val -> found) t te n vs s pre post c : elements t te -> typed t (VSeq vs) ->
  (forall n' v', typed te v' -> vspec (f n' v') te n' v' pre post (update c n)) ->
  vspec (seq_visit f n vs s) t n (VSeq vs) (s :: pre) post c.
Proof.
  intros He Ht Hf. unfold seq_visit. destruct (node_child_keys n) as [|ck0 cks] eqn:Ek.
  - destruct (TextModel.parse_index s) as [i|] eqn:Ei.
    + assert (Hi : index_name s (N.to_nat i)) by (apply index_name_parse; now rewrite N2Nat.id).
      destruct (nth_error vs (N.to_nat i)) as [v'|] eqn:Ev.
      * eapply vspec_below; [reflexivity| | |apply Hf; eapply typed_element; eauto using nth_error_In].
        -- intros tr t' n' w R. eapply reach_index; eauto.
        -- intros tr t' n' w R. inversion R; subst; try no_elements.
           ++ assert (i0 = N.to_nat i) as -> by (eapply index_name_fun; eassumption). assert (v = v') as -> by congruence.
              assert (te0 = te) as -> by (eapply elements_fun; eassumption). eauto.
           ++ exfalso. match goal with K : key_name _ _ _ _ _ |- _ => rewrite Ek in K; exact (key_name_nil _ _ _ _ K) end.
      * apply vspec_notfound. intros tr t' n' w R. inversion R; subst; try no_elements.
        -- assert (i0 = N.to_nat i) as -> by (eapply index_name_fun; eassumption). congruence.
        -- match goal with K : key_name _ _ _ _ _ |- _ => rewrite Ek in K; exact (key_name_nil _ _ _ _ K) end.
    + apply vspec_notfound. intros tr t' n' w R. inversion R; subst; try no_elements.
      * match goal with K : index_name _ _ |- _ => apply index_name_parse in K; congruence end.
      * match goal with K : key_name _ _ _ _ _ |- _ => rewrite Ek in K; exact (key_name_nil _ _ _ _ K) end.
  - assert (Hne : node_child_keys n <> []) by congruence. rewrite <- Ek in *. clear ck0 cks Ek.
    destruct (find_keyed (node_child_keys n) vs s) as [[ck i]|] eqn:E.
    + pose proof (find_keyed_some _ _ _ _ _ E) as K. destruct K as (b & a & Ec & (e & Hi & Hm) & K2 & K3). rewrite Hi.
      assert (K : key_name (node_child_keys n) vs s ck i) by (exists b, a; eauto 7).
      eapply vspec_below; [reflexivity| | |apply Hf; eapply typed_element; eauto using nth_error_In].
      * intros tr t' n' w R. eapply reach_keyed; eauto.
      * intros tr t' n' w R. inversion R; subst; try no_elements.
        -- exfalso. match goal with K : node_child_keys n = [] |- _ => rewrite K in E; discriminate E end.
        -- match goal with K : key_name _ _ _ ck0 i0 |- _ => pose proof (key_name_found _ _ _ _ _ K) as K1 end.
           rewrite E in K1. injection K1 as <- <-. assert (v = e) as -> by congruence.
           assert (te0 = te) as -> by (eapply elements_fun; eassumption). eauto.
    + apply vspec_notfound. intros tr t' n' w R. inversion R; subst; try no_elements.
      * congruence.
      * match goal with K : key_name _ _ _ ck i |- _ => apply key_name_found in K; congruence end.
Qed.

Lemma vspec_here t n v p post c : shows p post -> vspec (visit_node t n v p (length post) c) t n v [] post c.
Proof.
  intros H. left. exists [], t, n, v, p. split; [constructor|]. split; [now apply visit_here|exact H].
Qed.

Lemma vspec_scalar t n v s pre post c :
  match t with TOpt _ | TSeq _ | TArr _ _ | TMap _ | TRec _ => False | _ => True end ->
  vspec (Fail XNotTraversable) t n v (s :: pre) post c.
Proof.
  intros H. right. split; [auto|]. intros tr t' n' v' R. inversion R; subst; try exact H.
  all: match goal with E : elements _ _ |- _ => destruct E as [-> | [? ->]]; exact H end.
Qed.

Lemma visit_spec t : forall n v p pre post c, typed t v -> shows p (pre ++ post) ->
  vspec (visit_node t n v p (length post) c) t n v pre post c.
Proof.
  induction t as [ |it| | | |t IH|t IH|k t IH|t IH|ts IH|e|e|fs IH] using ty_ind0; intros n v p pre post c Ht Hs;
    (destruct pre as [|s pre]; [now apply vspec_here|]); cbn [app] in Hs;
    destruct (shows_cons _ _ _ Hs) as [Hfr (p' & Hd & Hs')];
    assert (Hsz : (view_size p =? length post) = false)
      by (apply Nat.eqb_neq; rewrite (shows_size _ _ Hs); cbn [length]; rewrite app_length; lia);
    cbn [visit_node]; rewrite Hsz, Hfr;
    destruct v as [b|z|b|b|s'| |v|vs|m|vs]; cbn [typed] in Ht; try contradiction; try (apply vspec_scalar; exact I).
  - apply vspec_notfound. intros tr t' n' v' R. inversion R; subst; no_elements.
  - eapply vspec_below; [reflexivity| | |apply (IH (NElem None) v p (s :: pre) post); [exact Ht|exact Hs]].
    + intros tr t' n' v' R. now constructor.
    + intros tr t' n' v' R. inversion R; subst; try no_elements. eauto.
  - rewrite Hd. apply (seq_spec (fun n' v' => visit_node t n' v' p' (length post) (update c n)) (TSeq t) t);
      [now left|exact Ht|]. intros n' v' Hv'. now apply IH.
  - rewrite Hd. apply (seq_spec (fun n' v' => visit_node t n' v' p' (length post) (update c n)) (TArr k t) t);
      [right; eauto|exact Ht|]. intros n' v' Hv'. now apply IH.
  - rewrite Hd. destruct (map_find s m) as [v'|] eqn:E.
    + assert (Htm : typed (TMap t) (VMap m)) by exact Ht.
      destruct (typed_entry t m s v' Htm (map_find_in _ _ _ E)) as [Htv _].
      eapply vspec_below; [reflexivity| | |apply (IH (NElem None) v' p' pre post); [exact Htv|exact Hs']].
      * intros tr t' n' w R. econstructor; eauto using map_find_in.
      * intros tr t' n' w R. inversion R; subst; try no_elements.
        match goal with G : In (s, v) m |- _ => destruct (typed_entry t m s v Htm G) as [_ E'] end.
        assert (v = v') as -> by congruence. eauto.
    + apply vspec_notfound. intros tr t' n' w R. inversion R; subst; try no_elements.
      apply map_find_none in E. apply E. match goal with G : In (s, v) m |- _ => exact (in_map fst _ _ G) end.
  - rewrite Hd. refine (fields_spec _ n pre post s c fs vs _ [] fs [] vs eq_refl eq_refl eq_refl Ht _).
    + intros i a t v Hi Hv. rewrite Forall_forall in IH. apply (IH (a, t)); [eapply nth_error_In; eauto|exact Hv|exact Hs'].
    + intros b u [].
Qed.

(** The whole path, from the root. *)
Lemma visit_path t v p segs : typed t v -> denotes p segs ->
  (exists tr t' n' v' rest, reaches t NRoot v segs tr t' n' v' /\
     visit_at_path t v p 0 = Visit (mkplace (map snd tr) t' n' v' rest (ctx_along access0 tr))) \/
  ((visit_at_path t v p 0 = Fail XNotFound \/ visit_at_path t v p 0 = Fail XNotTraversable) /\
   forall tr t' n' v', ~ reaches t NRoot v segs tr t' n' v').
Proof.
  intros Ht D. pose proof (denotes_shows _ _ D) as Hs. rewrite <- (app_nil_r segs) in Hs.
  destruct (visit_spec t NRoot v p segs [] access0 Ht Hs) as [(tr & t' & n' & v' & rest & R & E & _)|H].
  - left. exists tr, t', n', v', rest. auto.
  - right. exact H.
Qed.

(** All but the last segment. *)
Lemma visit_parent t v p segs s : typed t v -> denotes p (segs ++ [s]) ->
  (exists tr t' n' v' rest, reaches t NRoot v segs tr t' n' v' /\ view_front rest = Ok s /\
     visit_at_path t v p 1 = Visit (mkplace (map snd tr) t' n' v' rest (ctx_along access0 tr))) \/
  ((visit_at_path t v p 1 = Fail XNotFound \/ visit_at_path t v p 1 = Fail XNotTraversable) /\
   forall tr t' n' v', ~ reaches t NRoot v segs tr t' n' v').
Proof.
  intros Ht D. pose proof (denotes_shows _ _ D) as Hs.
  destruct (visit_spec t NRoot v p segs [s] access0 Ht Hs) as [(tr & t' & n' & v' & rest & R & E & Hr)|H].
  - left. exists tr, t', n', v', rest. destruct (shows_cons _ _ _ Hr) as [Hf _]. auto.
  - right. exact H.
Qed.
