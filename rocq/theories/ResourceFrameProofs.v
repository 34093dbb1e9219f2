(** Paths that lead elsewhere still lead there after a change. *)
From Coq Require Import List NArith ZArith Arith Bool Lia.
From Verif Require Import Base PathModel PathSpec PathProofs TrackerModel TrackerSpec EnumModel EnumProofs
  SerialModel SerialSpec SerialBaseProofs SerialTypeProofs SerialDumpProofs
  ResourceModel ResourceSpec ResourceBaseProofs ResourcePathProofs ResourceOpProofs ResourceCaseProofs.
From Verif Require TrackerProofs TextModel TextSpec TextProofs.
Import ListNotations.

Local Notation str := (list N) (only parsing).

(* ------------------------------------------------------------------ *)
(** ** The access context *)

Definition immutable_step (p : nkind * step) : bool :=
  match snd p with SField i => is_immutable_child (fst p) i | _ => false end.

Lemma ctx_along_flags c tr :
  subtree_read_only (ctx_along c tr) = subtree_read_only c || existsb (fun p => node_subtree_attr (fst p)) tr /\
  ctx_node_read_only (ctx_along c tr) = ctx_node_read_only c || existsb immutable_step tr.
Proof.
  revert c. induction tr as [|[n s] tr IH]; intros c; cbn [ctx_along existsb fst]; [now rewrite !orb_false_r|].
  destruct (IH (match s with SField i => update_field c n i | _ => update c n end)) as [-> ->].
  unfold immutable_step at 2. cbn [fst snd]. destruct s as [i| |i|k]; cbn; rewrite <- ?orb_assoc; auto.
Qed.

Definition unlocked (tr : list (nkind * step)) : Prop := forall p, In p tr -> immutable_step p = false.

Lemma writable_unlocked tr n : is_node_read_only (ctx_along access0 tr) n = false -> unlocked tr.
Proof.
  unfold is_node_read_only. rewrite !orb_false_iff. intros [[_ _] H] p Hp. rewrite (proj2 (ctx_along_flags _ _)) in H.
  cbn in H. destruct (immutable_step p) eqn:E; [|reflexivity]. rewrite <- H. symmetry. apply existsb_exists. eauto.
Qed.

(* ------------------------------------------------------------------ *)
(** ** Keys *)

(** An element keeps the key it was found by. *)
Lemma key_kept te k e segs tr t1 n1 v1 x : reaches te (NElem (Some k)) e segs tr t1 n1 v1 -> unlocked tr ->
  preserves_identity n1 v1 x = true -> key_of k (set_at e (map snd tr) x) = key_of k e.
Proof.
  intros R Hu Hp. inversion R; subst; cbn [map snd set_at].
  - cbn in Hp. apply same_key_true in Hp. destruct Hp as (kv & H1 & H2). congruence.
  - match goal with G : nth_error vs i = Some v |- _ => rewrite G end. cbn [key_of]. apply nth_set_other.
    specialize (Hu _ (or_introl eq_refl)). cbn in Hu. now apply Nat.eqb_neq, Nat.neq_sym in Hu || (apply Nat.eqb_neq in Hu; congruence).
  - reflexivity.
  - destruct (map_find s m); reflexivity.
  - match goal with G : nth_error vs i = Some v |- _ => rewrite G end. reflexivity.
  - match goal with G : nth_error vs i = Some v |- _ => rewrite G end. reflexivity.
Qed.

Lemma matches_ext ck e e' s : key_only ck -> key_of (ck_member ck) e = key_of (ck_member ck) e' -> matches ck e s -> matches ck e' s.
Proof.
  unfold matches. intros Ho Hk (k & H1 & H2). exists k. split; [congruence|]. destruct (ck_match ck) as [f|] eqn:Ef; [|exact H2].
  now rewrite (Ho f Ef e' e k s).
Qed.

Lemma key_name_ext cks vs vs' s ck i : length cks <= 1 -> (forall c, In c cks -> key_only c) -> length vs' = length vs ->
  (forall j e e', nth_error vs j = Some e -> nth_error vs' j = Some e' -> key_of (ck_member ck) e = key_of (ck_member ck) e') ->
  key_name cks vs s ck i -> key_name cks vs' s ck i.
Proof.
  intros Hl Ho Hlen Hk K. pose proof (key_name_in _ _ _ _ _ K) as Hin. destruct K as (b & a & -> & (e & He & Hm) & K2 & K3).
  rewrite app_length in Hl. cbn in Hl. assert (b = []) as -> by (destruct b; [reflexivity|cbn in Hl; lia]).
  assert (Hget : forall j e', nth_error vs' j = Some e' -> exists e0, nth_error vs j = Some e0).
  { intros j e' Hj. destruct (nth_error vs j) eqn:Ej; [eauto|]. apply nth_error_None in Ej.
    assert (nth_error vs' j <> None) by congruence. apply nth_error_Some in H. lia. }
  exists [], a. split; [reflexivity|]. split; [|split].
  - destruct (nth_error vs' i) as [e'|] eqn:Ei.
    + exists e'. split; [reflexivity|]. exact (matches_ext ck e e' s (Ho ck Hin) (Hk i e e' He Ei) Hm).
    + apply nth_error_None in Ei. assert (nth_error vs i <> None) by congruence. apply nth_error_Some in H. lia.
  - intros j e' Hj He' Hm'. destruct (Hget j e' He') as [e0 He0]. apply (K2 j e0 Hj He0).
    apply (matches_ext ck e' e0 s (Ho ck Hin)); [symmetry; exact (Hk j e0 e' He0 He')|exact Hm'].
  - intros c e' [].
Qed.

Lemma single_key {A} (l : list A) x y : length l <= 1 -> In x l -> In y l -> x = y.
Proof. destruct l as [|a [|b l]]; cbn; intros H; [tauto|intuition congruence|lia]. Qed.

Lemma set_nth_keys vs i k e y : nth_error vs i = Some e -> key_of k y = key_of k e ->
  forall j a b, nth_error vs j = Some a -> nth_error (set_nth i y vs) j = Some b -> key_of k a = key_of k b.
Proof.
  intros Hi Hk j a b Ha Hb. rewrite nth_set_nth in Hb. destruct (Nat.eqb_spec j i) as [->|Hn]; [|congruence].
  rewrite Hi in *. congruence.
Qed.

(* ------------------------------------------------------------------ *)
(** ** Stability *)

Definition steady_node (n : nkind) : Prop :=
  match n with
  | NField a => length (a_child_keys a) <= 1 /\ forall ck, In ck (a_child_keys a) -> key_only ck
  | _ => True
  end.

Lemma steady_keys n : steady_node n -> length (node_child_keys n) <= 1 /\ forall ck, In ck (node_child_keys n) -> key_only ck.
Proof. destruct n as [|a|k]; cbn; auto; intros _; split; auto; intros ck []. Qed.

Lemma every_element P t te : elements t te -> every_field P t -> every_field P te.
Proof. intros [-> | [k ->]]; auto. Qed.

Lemma map_assign_keep k y m k' v : NoDup (map fst m) -> In (k', v) m -> k' <> k -> In (k', v) (map_assign k y m).
Proof.
  intros Hn Hin Hne. apply map_find_in. rewrite map_assign_find, (map_find_nodup _ _ _ Hn Hin).
  assert (str_eqb k k' = false) as ->; [|reflexivity]. apply str_eqb_false. congruence.
Qed.

Lemma map_assign_new k y m v : map_find k m = Some v -> In (k, y) (map_assign k y m).
Proof. intros H. apply map_find_in. now rewrite map_assign_find, H, str_eqb_refl. Qed.

Lemma stable t n v pre tr t1 n1 v1 x : reaches t n v pre tr t1 n1 v1 -> steady_node n -> steady t -> typed t v ->
  unlocked tr -> preserves_identity n1 v1 x = true ->
  forall segs tr' t2 n2 v2, reaches t n v segs tr' t2 n2 v2 ->
  (inside (map snd tr') (map snd tr) -> map snd tr' = map snd tr) ->
  exists v2', reaches t n (set_at v (map snd tr) x) segs tr' t2 n2 v2'.
Proof.
  intros R. induction R as [t n v|fs n vs i a t v pre tr t' n' v' Hf Hv Hb H IH|t n v s pre tr t' n' v' H IH
    |t n m s v pre tr t' n' v' Hin H IH|t te n vs s i v pre tr t' n' v' He Hk Hi Hv H IH
    |t te n vs s ck i v pre tr t' n' v' He Hk Hv H IH]; intros Sn St Ht Hu Hp segs tr' t2 n2 v2 R2 Hins; cbn [map snd set_at].
  - assert (map snd tr' = []) as En by (apply Hins; exists (map snd tr'); reflexivity).
    destruct tr' as [|]; [|discriminate]. inversion R2; subst. eexists. constructor.
  - rewrite Hv. assert (Hu' : unlocked tr) by (intros q Hq; apply Hu; now right).
    inversion R2; subst; try no_elements; [eexists; constructor|].
    match goal with G : nth_error fs i0 = Some (a0, t0), G' : nth_error vs i0 = Some v0, R' : reaches t0 _ v0 _ _ _ _ _ |- _ =>
      rename G into Gf; rename G' into Gv; rename R' into GR end.
    destruct (Nat.eq_dec i0 i) as [->|Hne].
    + rewrite Hf in Gf. injection Gf as <- <-. rewrite Hv in Gv. injection Gv as <-.
      destruct (every_field_in _ _ _ _ _ St Hf) as [S1 S2].
      destruct (IH S1 S2 (typed_nth _ _ _ _ _ _ Ht Hf Hv) Hu' Hp _ _ _ _ _ GR) as [w Hw].
      { intros (rest & Er). cbn [map snd] in Hins. assert (inside (SField i :: map snd tr0) (SField i :: map snd tr)) as Hi'
          by (exists rest; cbn; congruence). apply Hins in Hi'. congruence. }
      exists w. econstructor; eauto. now rewrite (nth_set_same _ _ _ _ Hv).
    + exists v2. econstructor; eauto. now rewrite nth_set_other.
  - assert (Hu' : unlocked tr) by (intros q Hq; apply Hu; now right).
    inversion R2; subst; try no_elements; [eexists; constructor|].
    match goal with R' : reaches t _ v (_ :: _) _ _ _ _ |- _ => destruct (IH I St Ht Hu' Hp _ _ _ _ _ R') as [w Hw] end.
    { intros (rest & Er). cbn [map snd] in Hins. assert (inside (SSome :: map snd tr0) (SSome :: map snd tr)) as Hi'
        by (exists rest; cbn; congruence). apply Hins in Hi'. congruence. }
    exists w. now constructor.
  - destruct (typed_entry _ _ _ _ Ht Hin) as [Htv Hfd]. rewrite Hfd. assert (Hu' : unlocked tr) by (intros q Hq; apply Hu; now right).
    inversion R2; subst; try no_elements; [eexists; constructor|].
    match goal with G : In (s0, v0) m, R' : reaches t _ v0 _ _ _ _ _ |- _ => rename G into Gi; rename R' into GR end.
    destruct (str_dec s0 s) as [->|Hne].
    + destruct (typed_entry _ _ _ _ Ht Gi) as [_ Hfd']. assert (v0 = v) as -> by congruence.
      destruct (IH I St Htv Hu' Hp _ _ _ _ _ GR) as [w Hw].
      { intros (rest & Er). cbn [map snd] in Hins. assert (inside (SKey s :: map snd tr0) (SKey s :: map snd tr)) as Hi'
          by (exists rest; cbn; congruence). apply Hins in Hi'. congruence. }
      exists w. econstructor; [|exact Hw]. eapply map_assign_new; eauto.
    + exists v2. econstructor; [|exact GR]. apply map_assign_keep; auto. cbn [typed] in Ht. now apply sorted_keys_nodup.
  - rewrite Hv. assert (Hu' : unlocked tr) by (intros q Hq; apply Hu; now right).
    assert (Htv : typed te v) by (eapply typed_element; eauto using nth_error_In).
    inversion R2; subst; try no_elements; [eexists; constructor| |].
    2: { exfalso. match goal with K : key_name _ _ _ _ _ |- _ => rewrite Hk in K; exact (key_name_nil _ _ _ _ K) end. }
    match goal with G : elements t te0 |- _ => assert (te0 = te) as -> by (eapply elements_fun; eassumption) end.
    match goal with G : nth_error vs i0 = Some v0, R' : reaches te _ v0 _ _ _ _ _ |- _ => rename G into Gv; rename R' into GR end.
    destruct (Nat.eq_dec i0 i) as [->|Hne].
    + assert (v0 = v) as -> by congruence.
      destruct (IH I (every_element _ _ _ He St) Htv Hu' Hp _ _ _ _ _ GR) as [w Hw].
      { intros (rest & Er). cbn [map snd] in Hins. assert (inside (SIndex i :: map snd tr0) (SIndex i :: map snd tr)) as Hi'
          by (exists rest; cbn; congruence). apply Hins in Hi'. congruence. }
      exists w. eapply reach_index; eauto. now rewrite (nth_set_same _ _ _ _ Hv).
    + exists v2. eapply reach_index; eauto. now rewrite nth_set_other.
  - rewrite Hv. assert (Hu' : unlocked tr) by (intros q Hq; apply Hu; now right).
    assert (Htv : typed te v) by (eapply typed_element; eauto using nth_error_In).
    destruct (steady_keys _ Sn) as [S1 S2].
    inversion R2; subst; try no_elements; [eexists; constructor| |].
    { exfalso. match goal with K : node_child_keys n = [] |- _ => rewrite K in Hk; exact (key_name_nil _ _ _ _ Hk) end. }
    match goal with G : elements t te0 |- _ => assert (te0 = te) as -> by (eapply elements_fun; eassumption) end.
    match goal with G : nth_error vs i0 = Some v0, R' : reaches te _ v0 _ _ _ _ _, K : key_name _ _ _ ck0 i0 |- _ =>
      rename G into Gv; rename R' into GR; rename K into GK end.
    assert (ck0 = ck) as -> by (exact (single_key _ _ _ S1 (key_name_in _ _ _ _ _ GK) (key_name_in _ _ _ _ _ Hk))).
    assert (K' : key_name (node_child_keys n) (set_nth i (set_at v (map snd tr) x) vs) s0 ck i0).
    { eapply key_name_ext; [exact S1|exact S2|apply set_nth_length| |exact GK].
      apply set_nth_keys with (e := v); [exact Hv|]. exact (key_kept _ _ _ _ _ _ _ _ _ H Hu' Hp). }
    destruct (Nat.eq_dec i0 i) as [->|Hne].
    + assert (v0 = v) as -> by congruence.
      destruct (IH I (every_element _ _ _ He St) Htv Hu' Hp _ _ _ _ _ GR) as [w Hw].
      { intros (rest & Er). cbn [map snd] in Hins. assert (inside (SIndex i :: map snd tr0) (SIndex i :: map snd tr)) as Hi'
          by (exists rest; cbn; congruence). apply Hins in Hi'. congruence. }
      exists w. eapply reach_keyed; eauto. now rewrite (nth_set_same _ _ _ _ Hv).
    + exists v2. eapply reach_keyed; eauto. now rewrite nth_set_other.
Qed.

(** The changed place itself. *)
Lemma stable_self t v pre tr t1 n1 v1 x : reaches t NRoot v pre tr t1 n1 v1 -> steady t -> typed t v -> unlocked tr ->
  preserves_identity n1 v1 x = true -> typed t1 x -> reaches t NRoot (set_at v (map snd tr) x) pre tr t1 n1 x.
Proof.
  intros R St Ht Hu Hp Hx. destruct (stable _ _ _ _ _ _ _ _ _ R I St Ht Hu Hp _ _ _ _ _ R) as [w Hw]; [auto|].
  pose proof (reaches_set_typed _ _ _ _ _ _ _ _ _ R Ht Hx) as Ht'.
  destruct (reaches_get _ _ _ _ _ _ _ _ Hw Ht') as [Hg _]. destruct (reaches_get _ _ _ _ _ _ _ _ R Ht) as [Hg0 _].
  rewrite (get_set _ _ _ _ Hg0) in Hg. injection Hg as <-. exact Hw.
Qed.

(** Somewhere else. *)
Lemma stable_other t v pre tr t1 n1 v1 x segs tr' t2 n2 v2 : reaches t NRoot v pre tr t1 n1 v1 -> steady t -> typed t v ->
  unlocked tr -> preserves_identity n1 v1 x = true -> typed t1 x -> reaches t NRoot v segs tr' t2 n2 v2 ->
  ~ inside (map snd tr') (map snd tr) -> ~ inside (map snd tr) (map snd tr') ->
  reaches t NRoot (set_at v (map snd tr) x) segs tr' t2 n2 v2.
Proof.
  intros R St Ht Hu Hp Hx R2 H1 H2. destruct (stable _ _ _ _ _ _ _ _ _ R I St Ht Hu Hp _ _ _ _ _ R2) as [w Hw]; [tauto|].
  pose proof (reaches_set_typed _ _ _ _ _ _ _ _ _ R Ht Hx) as Ht'.
  destruct (reaches_get _ _ _ _ _ _ _ _ Hw Ht') as [Hg _]. destruct (reaches_get _ _ _ _ _ _ _ _ R2 Ht) as [Hg0 _].
  rewrite get_set_other in Hg by assumption. assert (w = v2) as -> by congruence. exact Hw.
Qed.

(* ------------------------------------------------------------------ *)
(** ** Different names are different places *)

Lemma numeral_bound s : Forall (fun c => 48 <= c <= 57)%N s -> (TextSpec.numeral s < 10 ^ N.of_nat (length s))%N.
Proof.
  induction s as [|c s IH]; intros F; cbn [TextSpec.numeral length]; [reflexivity|]. inversion F; subst.
  specialize (IH H2). rewrite Nat2N.inj_succ, N.pow_succ_r'. set (p := (10 ^ N.of_nat (length s))%N) in *.
  assert ((c - 48) * p <= 9 * p)%N by (apply N.mul_le_mono_r; lia). lia.
Qed.

Lemma numeral_inj s : forall s', length s = length s' -> Forall (fun c => 48 <= c <= 57)%N s -> Forall (fun c => 48 <= c <= 57)%N s' ->
  TextSpec.numeral s = TextSpec.numeral s' -> s = s'.
Proof.
  induction s as [|c s IH]; intros [|c' s'] Hl F F' E; try discriminate; [reflexivity|]. inversion F; inversion F'; subst.
  injection Hl as Hl. pose proof (numeral_bound s H2) as B. pose proof (numeral_bound s' H6) as B'.
  cbn [TextSpec.numeral] in E. rewrite <- Hl in *. set (p := (10 ^ N.of_nat (length s))%N) in *.
  assert (Hc : (c - 48 = c' - 48)%N).
  { transitivity (((c - 48) * p + TextSpec.numeral s) / p)%N; [apply (N.div_unique _ p _ (TextSpec.numeral s)); lia|].
    rewrite E. symmetry. apply (N.div_unique _ p (c' - 48) (TextSpec.numeral s')); lia. }
  assert (c = c') by lia. subst c'. f_equal. apply IH; auto. lia.
Qed.

Lemma numeral_lead c s : (48 < c)%N -> (10 ^ N.of_nat (length s) <= TextSpec.numeral (c :: s))%N.
Proof.
  intros H. cbn [TextSpec.numeral]. set (p := (10 ^ N.of_nat (length s))%N).
  assert (1 * p <= (c - 48) * p)%N by (apply N.mul_le_mono_r; lia). lia.
Qed.

Lemma canonical_length s s' : TextSpec.decimal s -> TextSpec.decimal s' -> canonical [s] -> canonical [s'] ->
  TextSpec.numeral s = TextSpec.numeral s' -> length s <= length s'.
Proof.
  intros [Hn F] [Hn' F'] C C' E. destruct s as [|c s]; [congruence|]. destruct s' as [|c' s']; [congruence|].
  pose proof (C _ (or_introl eq_refl) (conj Hn F) c s eq_refl) as L. inversion F; subst.
  destruct (N.eq_dec c 48) as [->|Hc]; [rewrite (L eq_refl); cbn; lia|].
  pose proof (numeral_lead c s ltac:(lia)) as B. pose proof (numeral_bound _ F') as B'. rewrite E in B.
  assert (Hp : (10 ^ N.of_nat (length s) < 10 ^ N.of_nat (length (c' :: s')))%N) by lia.
  apply N.pow_lt_mono_r_iff in Hp; [|lia]. cbn [length] in *. lia.
Qed.

Lemma canonical_index s s' i : index_name s i -> index_name s' i -> canonical [s] -> canonical [s'] -> s = s'.
Proof.
  intros (D & E & _) (D' & E' & _) C C'. apply numeral_inj; [|apply D|apply D'|congruence].
  assert (length s <= length s') by (apply canonical_length; auto; congruence).
  assert (length s' <= length s) by (apply canonical_length; auto; congruence). lia.
Qed.

Lemma canonical_cons s segs : canonical (s :: segs) -> canonical [s] /\ canonical segs.
Proof. intros H. split; intros x Hx; apply H; [destruct Hx as [<-|[]]; now left|now right]. Qed.

Definition exact_node (n : nkind) : Prop :=
  match n with NField a => forall ck, In ck (a_child_keys a) -> one_name ck | _ => True end.

Lemma exact_keys n : exact_node n -> forall ck, In ck (node_child_keys n) -> one_name ck.
Proof. destruct n as [|a|k]; cbn; auto; intros _ ck []. Qed.

Lemma matches_one_name ck e s s' : one_name ck -> matches ck e s -> matches ck e s' -> s = s'.
Proof.
  intros Ho (k & H1 & H2) (k' & H1' & H2'). assert (k' = k) as -> by congruence.
  destruct (ck_match ck) as [f|] eqn:Ef; [exact (Ho f Ef e k s s' H2 H2')|congruence].
Qed.

(** A place inside another one is reached through it. *)
Lemma inside_prefix t n v pre tr t1 n1 v1 : reaches t n v pre tr t1 n1 v1 -> steady_node n -> steady t -> exact_node n ->
  exactly_named t -> typed t v -> canonical pre ->
  forall segs tr' t2 n2 v2, reaches t n v segs tr' t2 n2 v2 -> canonical segs ->
  inside (map snd tr') (map snd tr) -> exists rest, segs = pre ++ rest.
Proof.
  intros R. induction R as [t n v|fs n vs i a t v pre tr t' n' v' Hf Hv Hb H IH|t n v s pre tr t' n' v' H IH
    |t n m s v pre tr t' n' v' Hin H IH|t te n vs s i v pre tr t' n' v' He Hk Hi Hv H IH
    |t te n vs s ck i v pre tr t' n' v' He Hk Hv H IH]; intros Sn St Xn Xt Ht C segs tr' t2 n2 v2 R2 C2 (rest & Er).
  - exists segs. reflexivity.
  - destruct (canonical_cons _ _ C) as [Cs Cp]. inversion R2; subst; cbn [map snd app] in Er; try discriminate Er.
    destruct (canonical_cons _ _ C2) as [Cs2 Cp2].
    injection Er as -> Er. match goal with G : nth_error fs i = Some (a0, t0) |- _ => rewrite Hf in G; injection G as <- <- end.
    match goal with G : nth_error vs i = Some v0 |- _ => rewrite Hv in G; injection G as <- end.
    destruct (every_field_in _ _ _ _ _ St Hf) as [S1 S2]. destruct (every_field_in _ _ _ _ _ Xt Hf) as [X1 X2].
    match goal with R' : reaches t _ v segs0 _ _ _ _ |- _ =>
      destruct (IH S1 S2 X1 X2 (typed_nth _ _ _ _ _ _ Ht Hf Hv) Cp _ _ _ _ _ R' Cp2 (ex_intro _ rest Er)) as [r ->] end.
    exists r. reflexivity.
  - inversion R2; subst; cbn [map snd app] in Er; try discriminate Er; try no_elements. injection Er as Er.
    match goal with R' : reaches t _ v (s0 :: segs0) _ _ _ _ |- _ =>
      exact (IH I St I Xt Ht C _ _ _ _ _ R' C2 (ex_intro _ rest Er)) end.
  - destruct (canonical_cons _ _ C) as [Cs Cp]. inversion R2; subst; cbn [map snd app] in Er; try discriminate Er; try no_elements.
    destruct (canonical_cons _ _ C2) as [Cs2 Cp2]. injection Er as -> Er.
    destruct (typed_entry _ _ _ _ Ht Hin) as [Htv Hfd].
    match goal with G : In (s, v0) m |- _ => destruct (typed_entry _ _ _ _ Ht G) as [_ Hfd'] end. assert (v0 = v) as -> by congruence.
    match goal with R' : reaches t _ v segs0 _ _ _ _ |- _ =>
      destruct (IH I St I Xt Htv Cp _ _ _ _ _ R' Cp2 (ex_intro _ rest Er)) as [r ->] end.
    exists r. reflexivity.
  - destruct (canonical_cons _ _ C) as [Cs Cp].
    assert (Htv : typed te v) by (eapply typed_element; eauto using nth_error_In).
    inversion R2; subst; cbn [map snd app] in Er; try discriminate Er.
    2: { exfalso. match goal with K : key_name _ _ _ _ _ |- _ => rewrite Hk in K; exact (key_name_nil _ _ _ _ K) end. }
    destruct (canonical_cons _ _ C2) as [Cs2 Cp2]. injection Er as -> Er.
    match goal with G : elements t te0 |- _ => assert (te0 = te) as -> by (eapply elements_fun; eassumption) end.
    match goal with G : nth_error vs i = Some v0 |- _ => rewrite Hv in G; injection G as <- end.
    match goal with G : index_name s0 i |- _ => rewrite (canonical_index s s0 i Hi G Cs Cs2) in * end.
    match goal with R' : reaches te _ v segs0 _ _ _ _ |- _ =>
      destruct (IH I (every_element _ _ _ He St) I (every_element _ _ _ He Xt) Htv Cp _ _ _ _ _ R' Cp2 (ex_intro _ rest Er)) as [r ->] end.
    exists r. reflexivity.
  - destruct (canonical_cons _ _ C) as [Cs Cp]. destruct (steady_keys _ Sn) as [S1 S2].
    assert (Htv : typed te v) by (eapply typed_element; eauto using nth_error_In).
    inversion R2; subst; cbn [map snd app] in Er; try discriminate Er.
    { exfalso. match goal with K : node_child_keys n = [] |- _ => rewrite K in Hk; exact (key_name_nil _ _ _ _ Hk) end. }
    destruct (canonical_cons _ _ C2) as [Cs2 Cp2]. injection Er as -> Er.
    match goal with G : elements t te0 |- _ => assert (te0 = te) as -> by (eapply elements_fun; eassumption) end.
    match goal with G : nth_error vs i = Some v0 |- _ => rewrite Hv in G; injection G as <- end.
    match goal with K : key_name _ _ _ ck0 i |- _ => rename K into GK end.
    assert (ck0 = ck) as -> by (exact (single_key _ _ _ S1 (key_name_in _ _ _ _ _ GK) (key_name_in _ _ _ _ _ Hk))).
    assert (Hs : s = s0).
    { pose proof (exact_keys _ Xn ck (key_name_in _ _ _ _ _ Hk)) as Ho.
      destruct Hk as (b & a & _ & (e & He1 & M1) & _). destruct GK as (b' & a' & _ & (e' & He2 & M2) & _).
      assert (e' = e) as -> by congruence. exact (matches_one_name ck e s s0 Ho M1 M2). }
    subst s0. match goal with R' : reaches te _ v segs0 _ _ _ _ |- _ =>
      destruct (IH I (every_element _ _ _ He St) I (every_element _ _ _ He Xt) Htv Cp _ _ _ _ _ R' Cp2 (ex_intro _ rest Er)) as [r ->] end.
    exists r. reflexivity.
Qed.
