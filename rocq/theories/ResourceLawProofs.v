(** The properties of single requests. *)
From Coq Require Import List NArith ZArith Arith Bool Lia.
From Verif Require Import Base PathModel PathSpec PathProofs TrackerModel TrackerSpec EnumModel EnumProofs
  SerialModel SerialSpec SerialBaseProofs SerialTypeProofs SerialDumpProofs SerialKeyProofs SerialPatchProofs
  ResourceModel ResourceSpec ResourceBaseProofs ResourcePathProofs ResourceOpProofs ResourceCaseProofs ResourceFrameProofs
  ResourceMainProofs.
From Verif Require TrackerProofs TextModel TextSpec TextProofs.
Import ListNotations.

Local Notation str := (list N) (only parsing).

Lemma remove_nth_nth i l : i < length l -> forall j,
  nth_error (remove_nth i l) j = nth_error l (if j <? i then j else S j).
Proof.
  revert l. induction i as [|i IH]; intros [|x l]; cbn [remove_nth length]; intros H j; try lia.
  - now destruct j.
  - destruct j as [|j]; [reflexivity|]. cbn [nth_error]. rewrite IH by lia.
    destruct (Nat.ltb_spec j i), (Nat.ltb_spec (S j) (S i)); reflexivity || lia.
Qed.

Lemma remove_nth_split i l x : nth_error l i = Some x -> exists a b, l = a ++ x :: b /\ length a = i /\ remove_nth i l = a ++ b.
Proof.
  revert l. induction i as [|i IH]; intros [|y l]; cbn; try discriminate.
  - intros [= ->]. exists [], l. auto.
  - intros H. destruct (IH l H) as (a & b & -> & <- & E). exists (y :: a), b. cbn. now rewrite E.
Qed.

Lemma map_erase_find k k' m : map_find k' (map_erase k m) = if str_eqb k k' then None else map_find k' m.
Proof.
  unfold map_erase. induction m as [|[k0 v] m IH]; cbn [filter map_find fst].
  - now destruct (str_eqb k k').
  - destruct (str_eqb k0 k) eqn:E0; cbn [negb map_find].
    + rewrite IH. destruct (str_eqb k k') eqn:E1; [reflexivity|]. apply str_eqb_true in E0. subst k0.
      now rewrite E1.
    + rewrite IH. destruct (str_eqb k0 k') eqn:E2; [|reflexivity]. apply str_eqb_true in E2. subst k0.
      destruct (str_eqb k k') eqn:E1; [|reflexivity]. apply str_eqb_true in E1. subst k'. now rewrite str_eqb_refl in E0.
Qed.

Lemma get_set_prefix v l1 l2 x w : get_at v l1 = Some w -> get_at (set_at v (l1 ++ l2) x) l1 = Some (set_at w l2 x).
Proof.
  intros H. assert (E : set_at v (l1 ++ l2) x = set_at v l1 (set_at w l2 x)); [|rewrite E; exact (get_set _ _ _ _ H)].
  revert v H. induction l1 as [|s l1 IH]; intros v; cbn; [congruence|].
  destruct s as [i| |i|k], v; cbn; try discriminate.
  - destruct (nth_error vs i); [|discriminate]. intros H. now rewrite (IH _ H).
  - intros H. now rewrite (IH _ H).
  - destruct (nth_error vs i); [|discriminate]. intros H. now rewrite (IH _ H).
  - destruct (map_find k _); [|discriminate]. intros H. now rewrite (IH _ H).
Qed.

Section WithEnv.
Context (E : env).

(* ------------------------------------------------------------------ *)
(** ** Nothing happens where a path leads nowhere *)

Lemma child_removed_resolves t1 n1 v1 s v2 : child_removed t1 n1 v1 s v2 -> exists tr t2 n2 v, reaches t1 n1 v1 [s] tr t2 n2 v.
Proof.
  intros [(te & m & v & -> & -> & Hin & ->)|(te & vs & i & v & n2 & -> & -> & Hv & R & ->)].
  - do 4 eexists. eapply reach_entry; [exact Hin|constructor].
  - eauto 6.
Qed.

Lemma success_resolves t r q segs r' a : schema t -> typed t (value r) -> at_path q segs -> modifying q ->
  perform E t r q = (r', a) -> success a = true -> resolves t (value r) segs.
Proof.
  intros Hsch Ht D Hm H Hs.
  assert (K : forall tr t1 n1 v1, reaches t NRoot (value r) segs tr t1 n1 v1 -> resolves t (value r) segs).
  { intros tr t1 n1 v1 R. exists (map snd tr), t1, v1, tr, n1. auto. }
  unfold at_path in D. destruct q as [skip p|p j|p j|p j|p]; cbn [path_of perform modifying] in *; [contradiction| | | |].
  - destruct (put_cases E _ t r p segs j r' a Hsch Ht D (deser_good E) H) as [(tr & t1 & n1 & v1 & x & (R & _) & _)|(_ & H2 & _)];
      [exact (K _ _ _ _ R)|congruence].
  - destruct (post_cases E t r p segs j r' a Hsch Ht D H) as [(tr & te & n1 & vs & c & (R & _) & _)|(_ & H2 & _)];
      [exact (K _ _ _ _ R)|congruence].
  - destruct (put_cases E _ t r p segs j r' a Hsch Ht D (patch_good E) H) as [(tr & t1 & n1 & v1 & x & (R & _) & _)|(_ & H2 & _)];
      [exact (K _ _ _ _ R)|congruence].
  - destruct (del_cases E t r p segs r' a Hsch Ht D H) as [[_ [(tr & te & n1 & v1 & (R & _))|(pre & s & tr & t1 & n1 & v1 & v2 & -> & (R & _) & _ & Hc)]]|(_ & H2 & _)];
      [exact (K _ _ _ _ R)| |congruence].
    destruct (child_removed_resolves _ _ _ _ _ Hc) as (tr' & t2 & n2 & v & R'). exact (K _ _ _ _ (reaches_trans _ _ _ _ _ _ _ _ R _ _ _ _ _ R')).
Qed.

(** C79 *)
Lemma get_answers skip t r p segs : schema t -> typed t (value r) -> denotes p segs ->
  (forall loc t1 v1, refers t (value r) segs loc t1 v1 ->
     (forall j, serialize (conv E) skip t1 v1 = Ok j -> get E skip t r p = Answer s_ok (accept j)) /\
     (~ writable skip t1 None v1 -> get E skip t r p = Escapes XOther)) /\
  (~ resolves t (value r) segs -> get E skip t r p = Answer s_not_found []).
Proof.
  intros Hsch Ht D. split.
  - intros loc t1 v1 (tr & n1 & R & ->). rewrite (get_reached E skip t r p segs tr t1 n1 v1 Ht D R). split.
    + intros j ->. reflexivity.
    + intros Hn. destruct (reaches_get _ _ _ _ _ _ _ _ R Ht) as [_ Ht1]. destruct (root_fits _ _ _ _ _ _ _ Hsch R) as (Hw1 & _ & _).
      now rewrite (proj2 (proj2 (serialize_succeeds (conv E) skip t1 v1 Hw1 Ht1)) Hn).
  - intros Hn. apply (get_unreached E skip t r p segs Ht D). intros tr t1 n1 v1 R. apply Hn. exists (map snd tr), t1, v1, tr, n1. auto.
Qed.

Lemma unresolved_answers t r q segs : schema t -> typed t (value r) -> at_path q segs -> ~ resolves t (value r) segs ->
  (forall p, q <> Delete p) -> perform E t r q = (r, Answer s_not_found []).
Proof.
  intros Hsch Ht D Hn Hd. assert (N : forall tr t1 n1 v1, ~ reaches t NRoot (value r) segs tr t1 n1 v1).
  { intros tr t1 n1 v1 R. apply Hn. exists (map snd tr), t1, v1, tr, n1. auto. }
  unfold at_path in D. destruct q as [skip p|p j|p j|p j|p]; cbn [path_of perform] in *.
  - now rewrite (get_unreached E skip t r p segs Ht D N).
  - unfold put, put_or_patch. destruct (visit_path t (value r) p segs Ht D) as [(tr & t1 & n1 & v1 & rest & R & _)|[[-> | ->] _]]; auto.
    exfalso. exact (N _ _ _ _ R).
  - unfold post. destruct (visit_path t (value r) p segs Ht D) as [(tr & t1 & n1 & v1 & rest & R & _)|[[-> | ->] _]]; auto.
    exfalso. exact (N _ _ _ _ R).
  - unfold patch_op, put_or_patch. destruct (visit_path t (value r) p segs Ht D) as [(tr & t1 & n1 & v1 & rest & R & _)|[[-> | ->] _]]; auto.
    exfalso. exact (N _ _ _ _ R).
  - now elim (Hd p).
Qed.

(* ------------------------------------------------------------------ *)
(** ** Read-only locations *)

Lemma subtree_flag tr a s : In (NField a, s) tr -> a_subtree_read_only a = true -> subtree_read_only (ctx_along access0 tr) = true.
Proof.
  intros Hin Ha. rewrite (proj1 (ctx_along_flags _ _)). cbn. apply existsb_exists. exists (NField a, s). auto.
Qed.

Lemma protected_node tr n : 
  (exists a, n = NField a /\ a_read_only a = true) \/ (exists a s, In (NField a, s) tr /\ a_subtree_read_only a = true) ->
  is_node_read_only (ctx_along access0 tr) n = true.
Proof.
  unfold is_node_read_only. intros [(a & -> & Ha)|(a & s & Hin & Ha)].
  - cbn [node_read_only_attr]. now rewrite Ha.
  - rewrite (subtree_flag _ _ _ Hin Ha). now rewrite orb_true_r.
Qed.

Lemma protected_child tr n st k : 
  (exists a, NElem k = NField a /\ a_read_only a = true) \/
  (exists a s, In (NField a, s) (tr ++ [(n, st)]) /\ a_subtree_read_only a = true) ->
  is_child_node_read_only (ctx_along access0 tr) n = true.
Proof.
  unfold is_child_node_read_only. intros [(a & [=] & _)|(a & s & Hin & Ha)].
  apply in_app_or in Hin. destruct Hin as [Hin|[[= -> _]|[]]].
  - unfold is_node_read_only. rewrite (subtree_flag _ _ _ Hin Ha). now rewrite orb_true_r.
  - cbn [node_subtree_attr]. now rewrite Ha, orb_true_r.
Qed.

(** C43 *)
Lemma protected_refused t r q segs : schema t -> typed t (value r) -> at_path q segs -> modifying q ->
  protected t (value r) segs -> perform E t r q = (r, Answer s_method_not_allowed []).
Proof.
  intros Hsch Ht D Hm (tr & t1 & n1 & v1 & R & Hp). pose proof (protected_node _ _ Hp) as Hro.
  assert (V : forall p, denotes p segs -> exists rest, visit_at_path t (value r) p 0 = Visit (mkplace (map snd tr) t1 n1 v1 rest (ctx_along access0 tr))).
  { intros p Dp. destruct (visit_path t (value r) p segs Ht Dp) as [(tr' & t' & n' & v' & rest & R' & Hv)|[_ N]]; [|elim (N _ _ _ _ R)].
    destruct (reaches_fun _ _ _ _ _ _ _ _ R Ht _ _ _ _ R') as (-> & -> & -> & ->). eauto. }
  unfold at_path in D. destruct q as [skip p|p j|p j|p j|p]; cbn [path_of perform modifying] in *; [contradiction| | | |].
  - unfold put, put_or_patch. destruct (V p D) as [rest ->]. cbn [pl_ctx pl_node]. now rewrite Hro.
  - unfold post. destruct (V p D) as [rest ->]. cbn [pl_ctx pl_node]. unfold is_child_node_read_only. now rewrite Hro.
  - unfold patch_op, put_or_patch. destruct (V p D) as [rest ->]. cbn [pl_ctx pl_node]. now rewrite Hro.
  - assert (Reset : reset_optional E t r p = (r, Answer s_method_not_allowed [])).
    { unfold reset_optional. destruct (V p D) as [rest ->]. cbn [pl_ctx pl_node]. now rewrite Hro. }
    unfold del. destruct (view_empty p); [exact Reset|].
    destruct (exists_last (l := segs)) as (pre & s & ->).
    { intros ->. inversion R; subst. destruct Hp as [(a & [=] & _)|(a & s & [] & _)]. }
    destruct (reaches_split _ _ _ _ _ _ _ _ _ R) as (tr1 & tr2 & t2 & n2 & v2 & -> & R1 & R2).
    destruct (visit_parent t (value r) p pre s Ht D) as [(tr' & t' & n' & v' & rest & R' & Hf & ->)|[_ N]]; [|elim (N _ _ _ _ R1)].
    destruct (reaches_fun _ _ _ _ _ _ _ _ R1 Ht _ _ _ _ R') as (-> & -> & -> & ->).
    unfold delete_direct_child. cbn [pl_rest pl_ty pl_val pl_ctx pl_node]. rewrite Hf.
    destruct (reaches_get _ _ _ _ _ _ _ _ R1 Ht) as [_ Ht2].
    inversion R2; subst; try exact Reset.
    + match goal with G : reaches _ _ _ [] _ _ _ _ |- _ => inversion G; subst end.
      match goal with G : In _ _ |- _ => destruct (typed_entry _ _ _ _ Ht2 G) as [_ Hfd] end. rewrite Hfd, (protected_child _ _ _ _ Hp). reflexivity.
    + match goal with G : reaches _ _ _ [] _ _ _ _ |- _ => inversion G; subst end.
      match goal with G : index_name _ _ |- _ => apply index_name_parse in G; rename G into Hi end.
      match goal with G : node_child_keys _ = [] |- _ => rewrite G end.
      rewrite Hi, (protected_child _ _ _ _ Hp).
      match goal with G : elements _ _ |- _ => destruct G as [-> | [? ->]]; reflexivity end.
    + match goal with G : reaches _ _ _ [] _ _ _ _ |- _ => inversion G; subst end.
      match goal with G : key_name _ _ _ _ _ |- _ => rename G into Hk end.
      pose proof (key_name_found _ _ _ _ _ Hk) as Hfk. rewrite (protected_child _ _ _ _ Hp).
      destruct (node_child_keys n2) as [|c cks]; [elim (key_name_nil _ _ _ _ Hk)|]. rewrite Hfk.
      match goal with G : elements _ _ |- _ => destruct G as [-> | [? ->]]; reflexivity end.
Qed.

Lemma subtree_post_refused t r p j segs : typed t (value r) -> denotes p segs ->
  subtree_protected t (value r) segs -> post E t r p j = (r, Answer s_method_not_allowed []).
Proof.
  intros Ht D (tr & t1 & a & v1 & R & Ha). unfold post.
  destruct (visit_path t (value r) p segs Ht D) as [(tr' & t' & n' & v' & rest & R' & ->)|[_ N]]; [|elim (N _ _ _ _ R)].
  destruct (reaches_fun _ _ _ _ _ _ _ _ R Ht _ _ _ _ R') as (-> & -> & -> & ->). cbn [pl_ctx pl_node].
  unfold is_child_node_read_only. cbn [node_subtree_attr]. now rewrite Ha, orb_true_r.
Qed.

(* ------------------------------------------------------------------ *)
(** ** Elsewhere *)

Lemma inside_app l a b : inside l (a ++ b) -> inside l a.
Proof. intros [rest ->]. exists (b ++ rest). now rewrite app_assoc. Qed.

Lemma step_eq_dec (a b : step) : {a = b} + {a <> b}.
Proof. decide equality; try apply Nat.eq_dec. apply (list_eq_dec N.eq_dec). Qed.

Lemma inside_dec l l' : inside l l' \/ ~ inside l l'.
Proof.
  revert l. induction l' as [|s l' IH]; intros l; [left; now exists l|]. destruct l as [|s0 l]; [right; intros [r [=]]|].
  destruct (step_eq_dec s0 s) as [->|Hn]; [|right; intros [r [= ? _]]; now apply Hn].
  destruct (IH l) as [[r ->]|Hi]; [left; now exists r|right]. intros [r [= ->]]. apply Hi. now exists r.
Qed.

(** C41 *)
Lemma frame t r q segs r' a loc t1 v1 loc' : schema t -> typed t (value r) -> at_path q segs -> perform E t r q = (r', a) ->
  refers t (value r) segs loc t1 v1 -> ~ inside loc' loc -> ~ inside loc loc' ->
  (forall p, q = Delete p -> ~ later_element loc loc') ->
  get_at (value r') loc' = get_at (value r) loc'.
Proof.
  intros Hsch Ht D H (tr & n1 & R & ->) Hn1 Hn2 Hl.
  assert (K : forall whole tr' t' n' v' x, replaced E t r segs whole tr' t' n' v' x r' -> get_at (value r') loc' = get_at (value r) loc').
  { intros whole tr' t' n' v' x (R' & _ & _ & _ & _ & (p0 & m & g & _ & _ & ->)). cbn [value].
    destruct (reaches_fun _ _ _ _ _ _ _ _ R Ht _ _ _ _ R') as (-> & -> & -> & ->). now apply get_set_other. }
  unfold at_path in D. destruct q as [skip p|p j|p j|p j|p]; cbn [path_of perform] in *.
  - now injection H as <- _.
  - destruct (put_cases E _ t r p segs j r' a Hsch Ht D (deser_good E) H) as [(tr' & t' & n' & v' & x & Hr & _)|(-> & _)]; eauto.
  - destruct (post_cases E t r p segs j r' a Hsch Ht D H) as [(tr' & te & n' & vs & c & Hr & _)|(-> & _)]; eauto.
  - destruct (put_cases E _ t r p segs j r' a Hsch Ht D (patch_good E) H) as [(tr' & t' & n' & v' & x & Hr & _)|(-> & _)]; eauto.
  - destruct (del_cases E t r p segs r' a Hsch Ht D H) as [[_ [(tr' & te & n' & v' & Hr)|(pre & s & trp & t2 & n2 & v2 & w & -> & Hr & _ & Hc)]]|(-> & _)]; eauto.
    destruct Hr as (R1 & _ & _ & _ & _ & (p0 & m & g & _ & _ & ->)). cbn [value].
    destruct (reaches_split _ _ _ _ _ _ _ _ _ R) as (tra & trb & ta & na & va & -> & Ra & Rb).
    destruct (reaches_fun _ _ _ _ _ _ _ _ Ra Ht _ _ _ _ R1) as (-> & -> & -> & ->). rewrite map_app in *.
    destruct (reaches_get _ _ _ _ _ _ _ _ Ra Ht) as [Hg Hta].
    assert (Hna : ~ inside (map snd tra) loc') by (intros [rest Hr]; apply Hn2; exists (rest ++ map snd trb); rewrite Hr; now rewrite app_assoc).
    destruct (inside_dec loc' (map snd tra)) as [[rest ->]|Hi]; [|now apply get_set_other].
    rewrite get_set_below with (old := va) by exact Hg. rewrite get_at_app, Hg.
    destruct Hc as [(te & m0 & v & -> & -> & Hin & ->)|(te & vs & i & v & n2 & -> & -> & Hv & Rc & ->)].
    + assert (trb = [(na, SKey s)]) as ->.
      { inversion Rb; subst; try no_elements. match goal with G : reaches _ _ _ [] _ _ _ _ |- _ => inversion G; subst end. reflexivity. }
      destruct rest as [|st rest]; [elim Hna; exists []; now rewrite !app_nil_r|]. cbn [map snd] in *.
      destruct st as [i| |i|k]; cbn [get_at]; try reflexivity. rewrite map_erase_find.
      destruct (str_eqb s k) eqn:Ek; [|reflexivity]. apply str_eqb_true in Ek. subst k.
      elim Hn1. exists rest. now rewrite <- app_assoc.
    + destruct (reaches_fun _ _ _ _ _ _ _ _ Rc Hta _ _ _ _ Rb) as (-> & _). cbn [map snd] in *.
      destruct rest as [|st rest]; [elim Hna; exists []; now rewrite !app_nil_r|].
      destruct st as [i'| |i'|k]; cbn [get_at]; try reflexivity.
      rewrite remove_nth_nth by (apply nth_error_Some; congruence).
      destruct (Nat.ltb_spec i' i) as [Hlt|Hge]; [reflexivity|]. destruct (Nat.eq_dec i' i) as [->|Hne].
      * elim Hn1. exists rest. now rewrite <- app_assoc.
      * elim (Hl p eq_refl). exists (map snd tra), i, i', rest. repeat split; lia.
Qed.

Lemma canonical_tail pre l : canonical (pre ++ l) -> canonical l.
Proof. intros H s Hs. apply H, in_or_app. now right. Qed.

(** Named children survive the removal of another one. *)
Lemma key_name_removed ck vs s s' i e j : one_name ck -> nth_error vs i = Some e -> matches ck e s -> s' <> s ->
  (key_name [ck] vs s' ck j -> key_name [ck] (remove_nth i vs) s' ck (if j <? i then j else j - 1) /\
     nth_error (remove_nth i vs) (if j <? i then j else j - 1) = nth_error vs j) /\
  (key_name [ck] (remove_nth i vs) s' ck j -> key_name [ck] vs s' ck (if j <? i then j else S j) /\
     nth_error vs (if j <? i then j else S j) = nth_error (remove_nth i vs) j).
Proof.
  intros Ho Hi Hm Hne. assert (Hlt : i < length vs) by (apply nth_error_Some; congruence).
  assert (Hno : ~ matches ck e s') by (intros Hm'; apply Hne; exact (matches_one_name _ _ _ _ Ho Hm' Hm)).
  assert (B : forall l k, key_name [ck] l s' ck k <-> (exists x, nth_error l k = Some x /\ matches ck x s') /\
    (forall k' x, k' < k -> nth_error l k' = Some x -> ~ matches ck x s')).
  { intros l k. split.
    - intros (b & a & Eb & H1 & H2 & _). auto.
    - intros [H1 H2]. exists [], []. repeat split; auto. }
  pose proof (remove_nth_nth i vs Hlt) as Hr. split.
  - intros K. apply B in K. destruct K as [(x & Hx & Hxm) Hb].
    assert (j <> i) by (intros ->; congruence).
    assert (Hj : nth_error (remove_nth i vs) (if j <? i then j else j - 1) = nth_error vs j).
    { rewrite Hr. destruct (Nat.ltb_spec j i).
      - destruct (Nat.ltb_spec j i); [reflexivity|lia].
      - destruct (Nat.ltb_spec (j - 1) i); [lia|]. f_equal. lia. }
    split; [|exact Hj]. apply B. split.
    + exists x. now rewrite Hj.
    + intros k' y Hk' Hy. rewrite Hr in Hy. refine (Hb _ y _ Hy). destruct (Nat.ltb_spec j i), (Nat.ltb_spec k' i); lia.
  - intros K. apply B in K. destruct K as [(x & Hx & Hxm) Hb].
    assert (Hj : nth_error vs (if j <? i then j else S j) = nth_error (remove_nth i vs) j) by now rewrite Hr.
    split; [|exact Hj]. apply B. split.
    + exists x. now rewrite Hj.
    + intros k' y Hk' Hy. destruct (Nat.eq_dec k' i) as [->|Hn']; [congruence|].
      refine (Hb (if k' <? i then k' else k' - 1) y _ _).
      * destruct (Nat.ltb_spec j i), (Nat.ltb_spec k' i); lia.
      * rewrite Hr. destruct (Nat.ltb_spec k' i).
        -- destruct (Nat.ltb_spec k' i); [exact Hy|lia].
        -- destruct (Nat.ltb_spec (k' - 1) i); [lia|]. rewrite <- Hy. f_equal. lia.
Qed.

Lemma sibling_removed t1 n1 v1 s w s' rest : steady_node n1 -> exact_node n1 -> typed t1 v1 -> child_removed t1 n1 v1 s w ->
  (node_child_keys n1 <> [] \/ exists te, t1 = TMap te) -> s' <> s ->
  forall t2 n2 v2, (exists tr, reaches t1 n1 v1 (s' :: rest) tr t2 n2 v2) <-> (exists tr, reaches t1 n1 w (s' :: rest) tr t2 n2 v2).
Proof.
  intros Hs Hx Ht Hc Hn Hne t2 n2 v2.
  destruct Hc as [(te & m & v & -> & -> & Hin & ->)|(te & vs & i & v & nv & -> & -> & Hv & Rc & ->)].
  - split; intros [tr R]; inversion R; subst; try no_elements.
    + eexists. eapply reach_entry; [|eassumption]. unfold map_erase. apply filter_In. split; [assumption|]. cbn [fst].
      apply negb_true_iff. destruct (str_eqb s' s) eqn:Ee; [|reflexivity]. now apply str_eqb_true in Ee.
    + eexists. eapply reach_entry; [|eassumption]. match goal with G : In _ (map_erase _ _) |- _ => apply filter_In in G; apply G end.
  - destruct Hn as [Hn|[te' [=]]]. destruct (steady_keys _ Hs) as [Hl _].
    destruct (node_child_keys n1) as [|ck [|]] eqn:Eck; [now elim Hn| |cbn in Hl; lia].
    pose proof (exact_keys _ Hx ck) as Ho. rewrite Eck in Ho. specialize (Ho (or_introl eq_refl)).
    assert (Hm : matches ck v s).
    { inversion Rc; subst; [congruence|]. match goal with G : key_name _ _ _ _ _ |- _ => rewrite Eck in G; pose proof (key_name_in _ _ _ _ _ G) as Hin; destruct G as (b & a & _ & (e & He & Hme) & _) end.
      destruct Hin as [<-|[]]. congruence. }
    split; intros [tr R]; inversion R; subst; try congruence.
    + match goal with G : key_name _ _ _ _ _ |- _ => rewrite Eck in G; pose proof (key_name_in _ _ _ _ _ G) as Hin; rename G into K end.
      destruct Hin as [<-|[]]. destruct (proj1 (key_name_removed ck vs s s' i v i0 Ho Hv Hm Hne) K) as [K' Hj].
      eexists. eapply reach_keyed with (ck := ck); [eassumption|rewrite Eck; exact K'|rewrite Hj; eassumption|eassumption].
    + match goal with G : key_name _ _ _ _ _ |- _ => rewrite Eck in G; pose proof (key_name_in _ _ _ _ _ G) as Hin; rename G into K end.
      destruct Hin as [<-|[]]. destruct (proj2 (key_name_removed ck vs s s' i v i0 Ho Hv Hm Hne) K) as [K' Hj].
      eexists. eapply reach_keyed with (ck := ck); [eassumption|rewrite Eck; exact K'|rewrite Hj; eassumption|eassumption].
Qed.

Lemma reaches_every (P : attrs -> ty -> Prop) (Q : nkind -> Prop) t n v segs tr t1 n1 v1 : (forall a t, P a t -> Q (NField a)) -> (forall k, Q (NElem k)) ->
  reaches t n v segs tr t1 n1 v1 -> every_field P t -> Q n -> every_field P t1 /\ Q n1.
Proof.
  intros HP HE. induction 1 as [t n v|fs n vs i a t v segs tr t' n' v' Hf Hv Hb H IH|t n v s segs tr t' n' v' H IH
    |t n m s v segs tr t' n' v' Hin H IH|t te n vs s i v segs tr t' n' v' He Hk Hi Hv H IH
    |t te n vs s ck i v segs tr t' n' v' He Hk Hv H IH]; intros Ht Hn.
  - auto.
  - destruct (every_field_in _ _ _ _ _ Ht Hf) as [K1 K2]. apply IH; eauto.
  - apply IH; auto.
  - apply IH; auto.
  - apply IH; auto. exact (every_element _ _ _ He Ht).
  - apply IH; auto. exact (every_element _ _ _ He Ht).
Qed.

Lemma reaches_steady t v segs tr t1 n1 v1 : steady t -> reaches t NRoot v segs tr t1 n1 v1 -> steady_node n1.
Proof.
  intros St R. refine (proj2 (reaches_every _ steady_node t NRoot v segs tr t1 n1 v1 _ _ R St I)); cbn; auto.
Qed.
Lemma reaches_exact t v segs tr t1 n1 v1 : exactly_named t -> reaches t NRoot v segs tr t1 n1 v1 -> exact_node n1.
Proof.
  intros St R. refine (proj2 (reaches_every _ exact_node t NRoot v segs tr t1 n1 v1 _ _ R St I)); cbn; auto.
Qed.

(** What a change leaves at its target. *)
Lemma replaced_there t r pre whole tr t1 n1 v1 x r' : steady t -> typed t (value r) -> replaced E t r pre whole tr t1 n1 v1 x r' ->
  reaches t NRoot (value r') pre tr t1 n1 x.
Proof.
  intros St Ht (R & Hro & Hp & Hx & _ & (p0 & m & g & _ & _ & ->)). cbn [value].
  exact (stable_self _ _ _ _ _ _ _ _ R St Ht (writable_unlocked _ _ Hro) Hp Hx).
Qed.

Lemma removed_elsewhere t r pre s tr t1 n1 v1 w r' skip p rest s' : schema t -> steady t -> exactly_named t -> typed t (value r) ->
  replaced E t r pre true tr t1 n1 v1 w r' -> child_removed t1 n1 v1 s w ->
  (node_child_keys n1 <> [] \/ exists te, t1 = TMap te) -> s' <> s -> denotes p (pre ++ s' :: rest) ->
  get E skip t r p = get E skip t r' p.
Proof.
  intros Hsch St Xt Ht Hr Hc Hn Hne D. pose proof (replaced_typed E _ _ _ _ _ _ _ _ _ _ Ht Hr) as Ht'.
  pose proof (replaced_there _ _ _ _ _ _ _ _ _ _ St Ht Hr) as R'. destruct Hr as (R & _).
  destruct (reaches_get _ _ _ _ _ _ _ _ R Ht) as [_ Ht1].
  pose proof (sibling_removed t1 n1 v1 s w s' rest (reaches_steady _ _ _ _ _ _ _ St R) (reaches_exact _ _ _ _ _ _ _ Xt R) Ht1 Hc Hn Hne) as Hs.
  destruct (reaches_dec t (value r) p _ Ht D) as [(tr2 & t2 & n2 & v2 & R2)|N].
  - rewrite (get_reached E skip t r p _ _ _ _ _ Ht D R2).
    destruct (reaches_split _ _ _ _ _ _ _ _ _ R2) as (tra & trb & ta & na & va & -> & Ra & Rb).
    destruct (reaches_fun _ _ _ _ _ _ _ _ R Ht _ _ _ _ Ra) as (-> & -> & -> & ->).
    destruct (proj1 (Hs _ _ _) (ex_intro _ _ Rb)) as [trc Rc].
    symmetry. exact (get_reached E skip t r' p _ _ _ _ _ Ht' D (reaches_trans _ _ _ _ _ _ _ _ R' _ _ _ _ _ Rc)).
  - rewrite (get_unreached E skip t r p _ Ht D N). symmetry. apply (get_unreached E skip t r' p _ Ht' D).
    intros tr2 t2 n2 v2 R2. destruct (reaches_split _ _ _ _ _ _ _ _ _ R2) as (tra & trb & ta & na & va & -> & Ra & Rb).
    destruct (reaches_fun _ _ _ _ _ _ _ _ R' Ht' _ _ _ _ Ra) as (-> & -> & -> & ->).
    destruct (proj2 (Hs _ _ _) (ex_intro _ _ Rb)) as [trc Rc]. exact (N _ _ _ _ (reaches_trans _ _ _ _ _ _ _ _ R _ _ _ _ _ Rc)).
Qed.

(** C41, as a client sees it *)
Lemma get_elsewhere t r q segs r' a skip p l : schema t -> steady t -> exactly_named t -> typed t (value r) ->
  at_path q segs -> canonical segs -> perform E t r q = (r', a) ->
  denotes p l -> canonical l -> ~ at_or_above l segs -> ~ at_or_above segs l ->
  (forall pre s p', q = Delete p' -> segs = pre ++ [s] -> at_or_above pre l -> named_children t (value r) pre) ->
  get E skip t r p = get E skip t r' p.
Proof.
  intros Hsch St Xt Ht D Cs H Dl Cl H1 H2 Hd.
  destruct (perform_cases E t r q segs r' a Hsch Ht D H) as [(_ & _ & (pre & whole & tr & t1 & n1 & v1 & x & Hr & Hpre & _ & Hseg))|(-> & _)]; [|reflexivity].
  destruct Hseg as [->|(s & p' & -> & ->)].
  - exact (replaced_elsewhere E _ _ _ _ _ _ _ _ _ _ skip p l Hsch St Xt Ht Cs Hr Dl Cl H1 H2).
  - assert (H1' : ~ at_or_above l pre) by (intros [rest Hrest]; apply H1; exists (rest ++ [s]); rewrite Hrest; now rewrite app_assoc).
    destruct (TrackerProofs.is_prefix pre l) eqn:Ip.
    + apply TrackerProofs.is_prefix_spec in Ip. pose proof (Hd pre s p' eq_refl eq_refl Ip) as (trn & tn & nn & vn & Rn & Hn).
      destruct Ip as [rest ->]. destruct rest as [|s' rest]; [elim H1'; exists []; now rewrite !app_nil_r|].
      assert (Hne : s' <> s) by (intros ->; apply H2; exists rest; now rewrite <- app_assoc).
      cbn [perform] in H. unfold at_path in D. cbn [path_of] in D. destruct (del_cases E t r p' _ r' a Hsch Ht D H) as [[_ [Ho|Hc]]|(-> & _)]; [| |reflexivity].
      * destruct Ho as (tr0 & te & n0 & v0 & Hr0).
        exact (replaced_elsewhere E _ _ _ _ _ _ _ _ _ _ skip p _ Hsch St Xt Ht Cs Hr0 Dl Cl H1 H2).
      * destruct Hc as (pre0 & s0 & tr0 & t0 & n0 & v0 & w & Eq & Hr0 & _ & Hc). apply app_inj_tail in Eq. destruct Eq as [<- <-].
        assert (R0 := proj1 Hr0). destruct (reaches_fun _ _ _ _ _ _ _ _ R0 Ht _ _ _ _ Rn) as (-> & -> & -> & ->).
        exact (removed_elsewhere _ _ _ _ _ _ _ _ _ _ skip p rest s' Hsch St Xt Ht Hr0 Hc Hn Hne Dl).
    + assert (H2' : ~ at_or_above pre l) by (intros Hx; apply TrackerProofs.is_prefix_spec in Hx; congruence).
      exact (replaced_elsewhere E _ _ _ _ _ _ _ _ _ _ skip p l Hsch St Xt Ht (canonical_app _ _ Cs) Hr Dl Cl H1' H2').
Qed.

(* ------------------------------------------------------------------ *)
(** ** Child keys *)

Lemma prefix_of_last {A} (pre : list A) s rest pre0 s0 : pre ++ s :: rest = pre0 ++ [s0] -> rest <> [] ->
  exists rest0, pre0 = pre ++ s :: rest0.
Proof.
  intros H Hr. destruct (exists_last Hr) as (rest0 & x & ->). exists rest0.
  rewrite app_comm_cons, app_assoc in H. apply app_inj_tail in H. destruct H as [H _]. now symmetry.
Qed.

(** C44 *)
Lemma key_immutable t r q pre s rest tr tc n vs ck i r' a : schema t -> typed t (value r) -> at_path q (pre ++ s :: rest) ->
  (rest = [] -> forall p, q <> Delete p) -> reaches t NRoot (value r) pre tr tc n (VSeq vs) ->
  key_name (node_child_keys n) vs s ck i -> perform E t r q = (r', a) ->
  exists vs' e e', get_at (value r') (map snd tr) = Some (VSeq vs') /\ length vs' = length vs /\
    (forall j, j <> i -> nth_error vs' j = nth_error vs j) /\
    nth_error vs i = Some e /\ nth_error vs' i = Some e' /\ key_of (ck_member ck) e' = key_of (ck_member ck) e.
Proof.
  intros Hsch Ht D Hd R K H. destruct (reaches_get _ _ _ _ _ _ _ _ R Ht) as [Hg Htc].
  assert (Hi : exists e, nth_error vs i = Some e) by (destruct K as (b & c & _ & (e & He & _) & _); eauto). destruct Hi as [e He].
  destruct (perform_cases E t r q _ r' a Hsch Ht D H) as [(_ & _ & (pre0 & whole & tr0 & t1 & n1 & v1 & x & Hr & _ & _ & Hseg))|(-> & _)].
  2: { exists vs, e, e. repeat (split; [solve [auto]|]). reflexivity. }
  assert (Hp : exists rest0, pre0 = pre ++ s :: rest0).
  { destruct Hseg as [<-|(s0 & p & Hs & Hq)]; [now exists rest|].
    apply (prefix_of_last _ _ _ _ _ Hs). intros Hn. exact (Hd Hn p Hq). }
  destruct Hp as [rest0 ->]. destruct Hr as (R0 & Hro & Hp & _ & _ & (p0 & m & g & _ & _ & ->)). cbn [value].
  destruct (reaches_split _ _ _ _ _ _ _ _ _ R0) as (tra & trb & ta & na & va & -> & Ra & Rb).
  destruct (reaches_fun _ _ _ _ _ _ _ _ R Ht _ _ _ _ Ra) as (-> & -> & -> & ->).
  pose proof (writable_unlocked _ _ Hro) as Hu. rewrite map_app, (get_set_prefix _ _ _ x _ Hg).
  inversion Rb; subst.
  - match goal with G : node_child_keys n = [] |- _ => rewrite G in K end. elim (key_name_nil _ _ _ _ K).
  - match goal with G : key_name _ _ _ ck0 i0 |- _ => apply key_name_found in G; apply key_name_found in K; rewrite K in G; injection G as <- <- end.
    assert (v = e) as -> by congruence. cbn [map snd set_at]. rewrite He.
    assert (Hu' : unlocked tr0) by (intros y Hy; apply Hu, in_or_app; right; now right).
    assert (Hlt : i < length vs) by (apply nth_error_Some; congruence).
    exists (set_nth i (set_at e (map snd tr0) x) vs), e, (set_at e (map snd tr0) x).
    split; [reflexivity|]. split; [apply set_nth_length|]. split; [intros j Hj; now apply nth_set_other|].
    split; [reflexivity|]. split; [exact (nth_set_same _ _ _ _ He)|].
    match goal with G : reaches te _ e rest0 _ _ _ _ |- _ => exact (key_kept _ _ _ _ _ _ _ _ _ G Hu' Hp) end.
Qed.

(* ------------------------------------------------------------------ *)
(** ** Put then get *)

Lemma preserves_refl n a b : preserves_identity n a b = true -> preserves_identity n b b = true.
Proof. destruct n as [|x|[k|]]; cbn; auto. rewrite !same_key_true. intros (y & _ & H). eauto. Qed.

(** C45 *)
Lemma put_then_get t r p j segs r' a skip : schema t -> steady t -> typed t (value r) -> denotes p segs ->
  put E t r p j = (r', a) -> success a = true ->
  exists loc t1 v1 x, refers t (value r) segs loc t1 v1 /\ deser (conv E) t1 j v1 = (x, None) /\
    refers t (value r') segs loc t1 x /\
    get E skip t r' p = match serialize (conv E) skip t1 x with Ok d => Answer s_ok (accept d) | _ => Escapes XOther end /\
    exists r'', put E t r' p j = (r'', Answer s_ok []) /\ value r'' = value r'.
Proof.
  intros Hsch St Ht D H Hs. destruct (put_cases E _ t r p segs j r' a Hsch Ht D (deser_good E) H) as [(tr & t1 & n1 & v1 & x & Hr & Hx & _)|(_ & Hf & _)]; [|congruence].
  pose proof (replaced_typed E _ _ _ _ _ _ _ _ _ _ Ht Hr) as Ht'. pose proof (replaced_there _ _ _ _ _ _ _ _ _ _ St Ht Hr) as R'.
  destruct Hr as (R & Hro & Hp & Hxt & Hv & (p0 & m & g & _ & _ & Er)).
  exists (map snd tr), t1, v1, x. split; [exists tr, n1; auto|]. split; [exact Hx|]. split; [exists tr, n1; auto|].
  destruct (root_fits _ _ _ _ _ _ _ Hsch R) as (Hw1 & _ & _). split.
  - rewrite (get_reached E skip t r' p segs _ _ _ _ Ht' D R'). unfold serialize.
    pose proof (proj1 (ser_defined (conv E) skip t1 Hw1 None x Hxt)) as Hd. destruct (ser (conv E) skip t1 None x); congruence.
  - unfold put, put_or_patch. destruct (visit_path t (value r') p segs Ht' D) as [(tr' & t' & n' & v' & rest & R2 & ->)|[_ N]]; [|elim (N _ _ _ _ R')].
    destruct (reaches_fun _ _ _ _ _ _ _ _ R' Ht' _ _ _ _ R2) as (-> & -> & -> & ->). cbn [pl_ctx pl_node pl_ty pl_val pl_loc].
    rewrite Hro, (deser_idem (conv E) t1 j v1 x Hx), (preserves_refl _ _ _ Hp). cbn [negb].
    destruct (reaches_get _ _ _ _ _ _ _ _ R' Ht') as [Hg _].
    destruct (change_cases E t r' (map snd tr) x (fun _ => x) caught (Ok p) p segs (has_addressable_descendants t1) s_ok x Hg eq_refl eq_refl D)
      as [[_ (m' & g' & _ & Hc)]|(e & He & _)].
    + rewrite Hc. eexists. split; [reflexivity|]. cbn [value]. now apply set_back.
    + rewrite (set_back _ _ _ Hg), Er in He. cbn [value] in He. congruence.
Qed.

Lemma patch_then_get t r p j segs r' a skip : schema t -> steady t -> typed t (value r) -> denotes p segs ->
  patch_op E t r p j = (r', a) -> success a = true ->
  exists loc t1 v1 x, refers t (value r) segs loc t1 v1 /\ patch (conv E) t1 j v1 = (x, None) /\
    refers t (value r') segs loc t1 x /\
    get E skip t r' p = match serialize (conv E) skip t1 x with Ok d => Answer s_ok (accept d) | _ => Escapes XOther end.
Proof.
  intros Hsch St Ht D H Hs. destruct (put_cases E _ t r p segs j r' a Hsch Ht D (patch_good E) H) as [(tr & t1 & n1 & v1 & x & Hr & Hx & _)|(_ & Hf & _)]; [|congruence].
  pose proof (replaced_typed E _ _ _ _ _ _ _ _ _ _ Ht Hr) as Ht'. pose proof (replaced_there _ _ _ _ _ _ _ _ _ _ St Ht Hr) as R'.
  destruct Hr as (R & Hro & Hp & Hxt & Hv & (p0 & m & g & _ & _ & Er)).
  exists (map snd tr), t1, v1, x. split; [exists tr, n1; auto|]. split; [exact Hx|]. split; [exists tr, n1; auto|].
  destruct (root_fits _ _ _ _ _ _ _ Hsch R) as (Hw1 & _ & _).
  rewrite (get_reached E skip t r' p segs _ _ _ _ Ht' D R'). unfold serialize.
  pose proof (proj1 (ser_defined (conv E) skip t1 Hw1 None x Hxt)) as Hd. destruct (ser (conv E) skip t1 None x); congruence.
Qed.

Lemma plain_writable skip t : forall flat v, extra_free t -> typed t v -> writable skip t flat v.
Proof.
  induction t as [ |it| | | |t IH|t IH|n t IH|t IH|ts IH|e|e|fs IH] using ty_ind1; intros flat v Hp Ht;
    destruct v as [b|z|b|b|s| |v|vs|m|vs]; cbn [typed] in Ht; try contradiction; cbn [writable extra_free] in *; auto.
  - apply all1_Forall. apply all1_Forall in Ht. eapply Forall_impl; [|exact Ht]. auto.
  - destruct Ht as [_ Ht]. apply all1_Forall. apply all1_Forall in Ht. eapply Forall_impl; [|exact Ht]. auto.
  - destruct Ht as [_ Ht]. apply all1_Forall. apply all1_Forall in Ht. eapply Forall_impl; [|exact Ht]. cbn. auto.
  - revert vs Ht. induction IH as [|t ts H1 IH IHl]; intros [|v vs] Ht; cbn in *; try contradiction; auto.
    destruct Hp, Ht. split; auto.
  - destruct Hp as [Hd Hp].
    assert (K : forall names, all2 (field_writable skip (writable skip) names) fs vs).
    { clear Hd. intros names. revert vs Ht. induction IH as [|[a0 t0] fs H1 IH IHl]; intros [|v vs] Ht; cbn in Ht |- *; try contradiction; auto.
      cbn in Hp. destruct Hp as [[He Hp1] Hp2]. destruct Ht as [Ht1 Ht2]. split; [|exact (IHl Hp2 vs Ht2)].
      right. rewrite He. cbn in H1. destruct H1 as [H1 _]. destruct (a_flatten a0); auto. }
    destruct flat; auto.
Qed.

(** C45: without extra fields the answer is a document. *)
Lemma put_then_get_plain t r p j segs r' a skip : schema t -> steady t -> typed t (value r) -> denotes p segs ->
  put E t r p j = (r', a) -> success a = true ->
  (forall loc t1 v1, refers t (value r) segs loc t1 v1 -> extra_free t1) ->
  exists loc t1 v1 x d, refers t (value r) segs loc t1 v1 /\ deser (conv E) t1 j v1 = (x, None) /\
    serialize (conv E) skip t1 x = Ok d /\ get E skip t r' p = Answer s_ok (accept d).
Proof.
  intros Hsch St Ht D H Hs Hpl. destruct (put_then_get t r p j segs r' a skip Hsch St Ht D H Hs) as (loc & t1 & v1 & x & R & Hx & R' & Hg & _).
  pose proof (Hpl _ _ _ R) as P. destruct R as (tr & n1 & R & ->). destruct (root_fits _ _ _ _ _ _ _ Hsch R) as (Hw1 & _ & _).
  destruct (reaches_get _ _ _ _ _ _ _ _ R Ht) as [_ Ht1].
  assert (Hxt : typed t1 x).
  { pose proof (proj1 (deser_good E t1 Hw1 j v1 Ht1)) as Hgx. now rewrite Hx in Hgx. }
  destruct (proj2 (proj1 (serialize_succeeds (conv E) skip t1 x Hw1 Hxt)) (plain_writable skip t1 None x P Hxt)) as [d Hd].
  exists (map snd tr), t1, v1, x, d. split; [exists tr, n1; auto|]. split; [exact Hx|]. split; [exact Hd|]. now rewrite Hg, Hd.
Qed.

(* ------------------------------------------------------------------ *)
(** ** Post and delete *)

Lemma replaced_value t r pre whole tr t1 n1 v1 x r' : typed t (value r) -> replaced E t r pre whole tr t1 n1 v1 x r' ->
  get_at (value r') (map snd tr) = Some x.
Proof.
  intros Ht (R & _ & _ & _ & _ & (p0 & m & g & _ & _ & ->)). destruct (reaches_get _ _ _ _ _ _ _ _ R Ht) as [Hg _].
  exact (get_set _ _ _ _ Hg).
Qed.

Lemma reaches_within t n v segs tr t1 n1 v1 : reaches t n v segs tr t1 n1 v1 ->
  forall n', node_child_keys n' = node_child_keys n -> exists n1', node_child_keys n1' = node_child_keys n1 /\ within t n' v t1 n1' v1.
Proof.
  induction 1 as [t n v|fs n vs i a t v segs tr t' n1 v' Hf Hv Hb H IH|t n v s segs tr t' n1 v' H IH
    |t n m s v segs tr t' n1 v' Hin H IH|t te n vs s i v segs tr t' n1 v' He Hk Hi Hv H IH
    |t te n vs s ck i v segs tr t' n1 v' He Hk Hv H IH]; intros n' Hn.
  - exists n'. split; [exact Hn|constructor].
  - destruct (IH (NField a) eq_refl) as (n1' & H1 & H2). exists n1'. split; [exact H1|]. eapply within_field; eassumption.
  - destruct (IH (NElem None) eq_refl) as (n1' & H1 & H2). exists n1'. split; [exact H1|]. now apply within_some.
  - destruct (IH (NElem None) eq_refl) as (n1' & H1 & H2). exists n1'. split; [exact H1|]. eapply within_entry; eassumption.
  - destruct (IH (NElem None) eq_refl) as (n1' & H1 & H2). exists n1'. split; [exact H1|].
    eapply within_element; [exact He|exact (nth_error_In _ _ Hv)|exact H2].
  - destruct (IH (NElem None) eq_refl) as (n1' & H1 & H2). exists n1'. split; [exact H1|].
    eapply within_element; [exact He|exact (nth_error_In _ _ Hv)|exact H2].
Qed.

Lemma reaches_unique_keys t v segs tr t1 n1 v1 : valid E t v -> reaches t NRoot v segs tr t1 n1 v1 ->
  forall ck, In ck (node_child_keys n1) -> exists vs, v1 = VSeq vs /\ distinct_keys (ck_member ck) vs.
Proof.
  intros Hv R ck Hin. destruct (reaches_within _ _ _ _ _ _ _ _ R NRoot eq_refl) as (n1' & H1 & W).
  destruct (Hv _ _ _ W) as [_ Hk]. apply Hk. now rewrite H1.
Qed.

(** C46 *)
Lemma post_appends t r p j segs r' a : schema t -> typed t (value r) -> denotes p segs ->
  post E t r p j = (r', a) -> success a = true -> 
  exists tr te n vs c, reaches t NRoot (value r) segs tr (TSeq te) n (VSeq vs) /\
    deser (conv E) te j (default_of te) = (c, None) /\ a = Answer s_created [] /\
    get_at (value r') (map snd tr) = Some (VSeq (vs ++ [c])) /\
    (steady t -> node_child_keys n = [] -> forall s, index_name s (length vs) ->
       refers t (value r') (segs ++ [s]) (map snd tr ++ [SIndex (length vs)]) te c) /\
    (steady t -> forall ck, node_child_keys n = [ck] -> ck_match ck = None -> forall s, key_of (ck_member ck) c = Some (VStr s) ->
       refers t (value r') (segs ++ [s]) (map snd tr ++ [SIndex (length vs)]) te c).
Proof.
  intros Hsch Ht D H Hs. destruct (post_cases E t r p segs j r' a Hsch Ht D H) as [(tr & te & n & vs & c & Hr & _ & Hc & Ha)|(_ & Hf & _)]; [|congruence].
  exists tr, te, n, vs, c. split; [exact (proj1 Hr)|]. split; [exact Hc|]. split; [exact Ha|].
  split; [exact (replaced_value _ _ _ _ _ _ _ _ _ _ Ht Hr)|].
  assert (Hn : nth_error (vs ++ [c]) (length vs) = Some c) by (rewrite nth_error_app2, Nat.sub_diag by lia; reflexivity).
  pose proof (replaced_typed E _ _ _ _ _ _ _ _ _ _ Ht Hr) as Ht'.
  split.
  - intros St Hk s Hi. pose proof (replaced_there _ _ _ _ _ _ _ _ _ _ St Ht Hr) as R'.
    exists (tr ++ [(n, SIndex (length vs))]), (NElem None). split; [|now rewrite map_app].
    refine (reaches_trans _ _ _ _ _ _ _ _ R' _ _ _ _ _ _).
    eapply reach_index; [now left|exact Hk|exact Hi|exact Hn|constructor].
  - intros St ck Hk Hm s Hks. pose proof (replaced_there _ _ _ _ _ _ _ _ _ _ St Ht Hr) as R'.
    exists (tr ++ [(n, SIndex (length vs))]), (NElem (Some (ck_member ck))). split; [|now rewrite map_app].
    refine (reaches_trans _ _ _ _ _ _ _ _ R' _ _ _ _ _ _).
    eapply reach_keyed with (ck := ck); [now left| |exact Hn|constructor]. rewrite Hk.
    exists [], []. split; [reflexivity|]. split; [|split; [|intros ? ? []]].
    + exists c. split; [exact Hn|]. exists (VStr s). split; [exact Hks|]. now rewrite Hm.
    + intros k e Hlt He (key & Hke & Hme). rewrite Hm in Hme. subst key.
      (* the keys are unique *)
      assert (Hv : valid E t (value r')).
      { apply validate_tree_none; auto. destruct Hr as (_ & _ & _ & _ & Hv & (p0 & m & g & _ & _ & ->)). exact Hv. }
      destruct (reaches_unique_keys t (value r') segs tr (TSeq te) n (VSeq (vs ++ [c])) Hv R' ck) as (vs0 & [= <-] & Hdk);
        [rewrite Hk; now left|].
      rewrite nth_error_app1 in He by exact Hlt.
      apply (Hdk k (length vs) e c (VStr s)); auto; [lia|]. now rewrite nth_error_app1.
Qed.

Lemma erase_split s v m : sorted_keys m -> In (s, v) m -> exists a b, m = a ++ (s, v) :: b /\ map_erase s m = a ++ b.
Proof.
  intros Hs Hin. apply in_split in Hin. destruct Hin as (a & b & ->). exists a, b. split; [reflexivity|].
  assert (Hn : ~ In s (map fst a) /\ ~ In s (map fst b)).
  { pose proof (sorted_keys_nodup _ Hs) as Hd. rewrite map_app in Hd. cbn in Hd. apply NoDup_remove_2 in Hd.
    split; intros Hx; apply Hd, in_or_app; auto. }
  unfold map_erase. rewrite filter_app. cbn [filter fst]. rewrite str_eqb_refl. cbn [negb].
  assert (Hf : forall l : list (str * val), ~ In s (map fst l) -> filter (fun kv => negb (str_eqb (fst kv) s)) l = l).
  { induction l as [|[k w] l IH]; cbn; [reflexivity|]. intros Hx. destruct (str_eqb k s) eqn:Ek; cbn.
    - apply str_eqb_true in Ek. subst. tauto.
    - rewrite IH; tauto. }
  rewrite !Hf; tauto.
Qed.

Lemma delete_removes t r p segs r' a : schema t -> typed t (value r) -> denotes p segs ->
  del E t r p = (r', a) -> success a = true ->
  (exists loc te v, refers t (value r) segs loc (TOpt te) v /\ get_at (value r') loc = Some VNone) \/
  (exists pre s loc, segs = pre ++ [s] /\
     ((exists te ms ms' v, refers t (value r) pre loc (TMap te) (VMap (ms ++ (s, v) :: ms')) /\
         get_at (value r') loc = Some (VMap (ms ++ ms'))) \/
      (exists te vs vs' v, refers t (value r) pre loc (TSeq te) (VSeq (vs ++ v :: vs')) /\
         refers t (value r) segs (loc ++ [SIndex (length vs)]) te v /\
         get_at (value r') loc = Some (VSeq (vs ++ vs'))))).
Proof.
  intros Hsch Ht D H Hs. destruct (del_cases E t r p segs r' a Hsch Ht D H) as [[_ [Ho|Hc]]|(_ & Hf & _)]; [| |congruence].
  - left. destruct Ho as (tr & te & n1 & v1 & Hr). exists (map snd tr), te, v1. split; [exists tr, n1; split; [exact (proj1 Hr)|reflexivity]|].
    exact (replaced_value _ _ _ _ _ _ _ _ _ _ Ht Hr).
  - right. destruct Hc as (pre & s & tr & t1 & n1 & v1 & w & -> & Hr & _ & Hc). exists pre, s, (map snd tr). split; [reflexivity|].
    pose proof (replaced_value _ _ _ _ _ _ _ _ _ _ Ht Hr) as Hg'. pose proof (proj1 Hr) as R.
    destruct (reaches_get _ _ _ _ _ _ _ _ R Ht) as [Hg Ht1].
    destruct Hc as [(te & m & v & -> & -> & Hin & ->)|(te & vs & i & v & n2 & -> & -> & Hv & Rc & ->)].
    + left. destruct (erase_split s v m) as (ms & ms' & -> & He); [apply Ht1|exact Hin|]. rewrite He in Hg'.
      exists te, ms, ms', v. split; [exists tr, n1; auto|exact Hg'].
    + right. destruct (remove_nth_split i vs v Hv) as (vs1 & vs2 & -> & <- & He). rewrite He in Hg'.
      exists te, vs1, vs2, v. split; [exists tr, n1; auto|]. split; [|exact Hg'].
      exists (tr ++ [(n1, SIndex (length vs1))]), n2. split; [exact (reaches_trans _ _ _ _ _ _ _ _ R _ _ _ _ _ Rc)|now rewrite map_app].
Qed.

End WithEnv.
