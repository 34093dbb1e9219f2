(** Lemmas for the names of places. *)
From Coq Require Import String List NArith ZArith Arith Bool Lia.
From Verif Require Import Base PathModel PathSpec PathProofs TrackerModel TrackerSpec EnumModel SerialModel SerialSpec SerialSamples ResourceModel ResourceSpec
  ResourcePathProofs ResourceSamples NameSpec.
Import ListNotations.

Local Notation str := (list N) (only parsing).
Local Open Scope string_scope.
Local Open Scope list_scope.

(* ---------- names is the meaning ---------- *)

Lemma list_ext {A} (l1 : list A) : forall l2, length l1 = length l2 ->
  (forall i x, nth_error l1 i = Some x -> nth_error l2 i = Some x) -> l1 = l2.
Proof.
  induction l1 as [|x l1 IH]; intros [|y l2] L H; cbn in L; try discriminate; [reflexivity|].
  pose proof (H 0 x eq_refl) as H0. injection H0 as ->. f_equal. apply IH; [lia|]. intros i z. exact (H (S i) z).
Qed.

Lemma meaning_names s segs : path_meaning s = Some segs -> names s segs.
Proof.
  intros M q. pose proof (path_set_spec q s) as HS. rewrite M in HS. destruct HS as (p & E & R). exists p. split; [exact E|].
  destruct (path_accessors q s segs p M E) as [_ V]. destruct (V _ _ _ (view_start p)) as (_ & Hs & Ha & _).
  assert (L : path_size p = length segs).
  { unfold path_size. destruct R as (_ & -> & _). apply length_offs. }
  split; [congruence|]. intros i seg Hi. destruct (Ha i) as (x & Hx & Hv).
  { rewrite L. apply nth_error_Some. congruence. }
  cbn in Hx. congruence.
Qed.

Lemma names_meaning s segs : names s segs <-> path_meaning s = Some segs.
Proof.
  split; [|apply meaning_names]. intros H. destruct (H (mkpath [] [])) as (p & E & Hs & Ha).
  pose proof (path_set_spec (mkpath [] []) s) as HS. destruct (path_meaning s) as [l|] eqn:M.
  - destruct (meaning_names s l M (mkpath [] [])) as (p' & E' & Hs' & Ha'). assert (p' = p) as -> by congruence.
    f_equal. apply list_ext; [congruence|]. intros i x Hi. pose proof (Ha' i x Hi) as Hv.
    destruct (nth_error segs i) as [y|] eqn:Ey; [rewrite (Ha i y Ey) in Hv; congruence|].
    apply nth_error_None in Ey. assert (i < length l) by (apply nth_error_Some; congruence). lia.
  - exfalso. destruct HS as (p' & junk & E' & _). congruence.
Qed.

Lemma names_ok s segs : names s segs -> Forall segment_ok segs.
Proof. intros H. apply names_meaning in H. eapply meaning_ok; eauto. Qed.

(* ---------- a text for every list ---------- *)

Fixpoint escape (s : str) : str :=
  match s with
  | [] => []
  | c :: t => if N.eqb c 37 then 37 :: 50 :: 53 :: escape t else if N.eqb c 46 then 37 :: 50 :: 69 :: escape t else c :: escape t
  end%N.

Lemma unescape_escape s : unescape (escape s) = Some s.
Proof.
  induction s as [|c t IH]; [reflexivity|]. cbn [escape]. destruct (N.eqb_spec c 37) as [->|H37].
  { cbn. now rewrite IH. }
  destruct (N.eqb_spec c 46) as [->|H46]. { cbn. now rewrite IH. }
  cbn [unescape]. change percent with 37%N. destruct (N.eqb_spec c 37); [contradiction|]. now rewrite IH.
Qed.

Lemma escape_slash s : ~ In slash s -> ~ In slash (escape s).
Proof.
  induction s as [|c t IH]; cbn [escape]; [tauto|]. intros H K. assert (Ht : ~ In slash t) by (intros X; apply H; now right).
  destruct (c =? 37)%N; [|destruct (c =? 46)%N]; cbn [In] in K.
  - destruct K as [K|[K|[K|K]]]; try discriminate. exact (IH Ht K).
  - destruct K as [K|[K|[K|K]]]; try discriminate. exact (IH Ht K).
  - destruct K as [K|K]; [apply H; now left|exact (IH Ht K)].
Qed.

Lemma escape_dot s : ~ In 46%N (escape s).
Proof.
  induction s as [|c t IH]; cbn [escape]; [tauto|].
  destruct (c =? 37)%N eqn:E1; [|destruct (N.eqb_spec c 46)]; cbn [In]; intros K.
  - destruct K as [K|[K|[K|K]]]; try discriminate. exact (IH K).
  - destruct K as [K|[K|[K|K]]]; try discriminate. exact (IH K).
  - destruct K as [K|K]; [congruence|exact (IH K)].
Qed.

Lemma escape_nil s : s <> [] -> escape s <> [].
Proof. destruct s as [|c t]; [congruence|]. intros _. cbn. destruct (c =? 37)%N; [|destruct (c =? 46)%N]; discriminate. Qed.

Lemma apply_piece_escape segs s : s <> [] -> apply_piece segs (escape s) = Some (segs ++ [s]).
Proof.
  intros H. unfold apply_piece. pose proof (escape_dot s) as D.
  destruct (list_eq_dec N.eq_dec (escape s) []) as [E|_]; [now apply escape_nil in H|].
  destruct (list_eq_dec N.eq_dec (escape s) dot) as [E|_]; [rewrite E in D; cbn in D; tauto|].
  destruct (list_eq_dec N.eq_dec (escape s) dotdot) as [E|_]; [rewrite E in D; cbn in D; tauto|].
  now rewrite unescape_escape.
Qed.

Lemma apply_pieces_escape l : forall segs, Forall segment_ok l -> apply_pieces segs (map escape l) = Some (segs ++ l).
Proof.
  induction l as [|s l IH]; intros segs H; cbn [map apply_pieces]; [now rewrite app_nil_r|].
  inversion H as [|? ? [Hn _] Hl]; subst. rewrite apply_piece_escape by assumption. rewrite IH by assumption.
  now rewrite <- app_assoc.
Qed.

Lemma pieces_plain s : ~ In slash s -> pieces s = [s].
Proof.
  induction s as [|c t IH]; [reflexivity|]. intros H. cbn. destruct (N.eqb_spec c slash) as [->|_].
  { exfalso. apply H. now left. }
  rewrite IH; [reflexivity|]. intros K. apply H. now right.
Qed.

Lemma pieces_app s r : ~ In slash s -> pieces (s ++ slash :: r) = s :: pieces r.
Proof.
  induction s as [|c t IH]; [reflexivity|]. intros H. cbn [app pieces]. destruct (N.eqb_spec c slash) as [->|_].
  { exfalso. apply H. now left. }
  rewrite IH; [reflexivity|]. intros K. apply H. now right.
Qed.

Lemma pieces_join l : l <> [] -> Forall (fun s => ~ In slash s) l -> pieces (join l) = l.
Proof.
  induction l as [|s l IH]; [congruence|]. intros _ H. inversion H; subst. destruct l as [|s' l].
  - now apply pieces_plain.
  - rewrite join_cons by discriminate. rewrite pieces_app by assumption. f_equal. apply IH; [discriminate|assumption].
Qed.

Lemma text_exists segs : Forall segment_ok segs -> exists s, path_meaning s = Some segs.
Proof.
  intros H. destruct segs as [|s l]; [now exists []|]. exists (join (map escape (s :: l))). unfold path_meaning.
  rewrite pieces_join; [now apply apply_pieces_escape|discriminate|].
  rewrite Forall_forall in *. intros x Hx. apply in_map_iff in Hx. destruct Hx as (y & <- & Hy).
  apply escape_slash. apply (H y Hy).
Qed.

Lemma text_iff segs : (exists s, names s segs) <-> Forall segment_ok segs.
Proof.
  split.
  - intros [s H]. eapply names_ok; eauto.
  - intros H. destruct (text_exists segs H) as [s M]. exists s. now apply names_meaning.
Qed.

(* ---------- the text of a path read again ---------- *)

Lemma unescape_plain s : ~ In percent s -> unescape s = Some s.
Proof.
  induction s as [|c t IH]; [reflexivity|]. intros H. cbn. destruct (N.eqb_spec c percent) as [->|_].
  { exfalso. apply H. now left. }
  rewrite IH; [reflexivity|]. intros K. apply H. now right.
Qed.

Lemma unescape_length : forall n s d, length s <= n -> unescape s = Some d ->
  length d <= length s /\ (In percent s -> length d < length s).
Proof.
  induction n as [|n IH]; intros s d L H.
  { destruct s; [|cbn in L; lia]. injection H as <-. cbn. split; [lia|tauto]. }
  destruct s as [|c t]; [injection H as <-; cbn; split; [lia|tauto]|]. cbn in H, L.
  destruct (N.eqb_spec c percent) as [->|Hc].
  - destruct t as [|h [|l t']]; try discriminate. destruct (hex_value h); [|discriminate]. destruct (hex_value l); [|discriminate].
    destruct (_ =? slash)%N; [discriminate|]. destruct (unescape t') as [d'|] eqn:E; [|discriminate]. injection H as <-.
    cbn in L. destruct (IH t' d') as [K _]; [lia|exact E|]. cbn. split; [lia|intros _; lia].
  - destruct (unescape t) as [d'|] eqn:E; [|discriminate]. injection H as <-.
    destruct (IH t d') as [K1 K2]; [lia|exact E|]. cbn. split; [lia|]. intros [?|K]; [congruence|]. specialize (K2 K). lia.
Qed.

Lemma apply_pieces_length ps : forall segs r, apply_pieces segs ps = Some r -> length r <= length segs + length ps.
Proof.
  induction ps as [|p ps IH]; intros segs r H; cbn in H; [injection H as <-; lia|].
  destruct (apply_piece segs p) as [s'|] eqn:E; [|discriminate]. apply IH in H. cbn.
  assert (length s' <= S (length segs)); [|lia]. unfold apply_piece in E.
  destruct (list_eq_dec N.eq_dec p []); [injection E as <-; lia|].
  destruct (list_eq_dec N.eq_dec p dot); [injection E as <-; lia|].
  destruct (list_eq_dec N.eq_dec p dotdot).
  { injection E as <-. rewrite removelast_firstn_len, firstn_length. lia. }
  destruct (unescape p); [|discriminate]. injection E as <-. rewrite app_length. cbn. lia.
Qed.

Lemma apply_pieces_grow ps : forall segs r, apply_pieces segs ps = Some r -> length r = length segs + length ps ->
  exists ds, r = segs ++ ds /\ Forall2 (fun p d => unescape p = Some d /\ p <> dot /\ p <> dotdot) ps ds.
Proof.
  induction ps as [|p ps IH]; intros segs r H L; cbn in H.
  { injection H as <-. exists []. rewrite app_nil_r. auto. }
  destruct (apply_piece segs p) as [s'|] eqn:E; [|discriminate]. pose proof (apply_pieces_length _ _ _ H) as L'.
  cbn in L. unfold apply_piece in E.
  destruct (list_eq_dec N.eq_dec p []); [injection E as <-; lia|].
  destruct (list_eq_dec N.eq_dec p dot); [injection E as <-; lia|].
  destruct (list_eq_dec N.eq_dec p dotdot).
  { injection E as <-. rewrite removelast_firstn_len, firstn_length in L'. lia. }
  destruct (unescape p) as [d|] eqn:U; [|discriminate]. injection E as <-.
  destruct (IH _ _ H) as (ds & -> & F); [rewrite app_length; cbn; lia|].
  exists (d :: ds). rewrite <- app_assoc. auto.
Qed.

Lemma Forall2_same {A} (P : A -> A -> Prop) l : Forall2 P l l -> Forall (fun x => P x x) l.
Proof. induction l; intros H; inversion H; subst; constructor; auto. Qed.

Lemma apply_pieces_unchanged l : forall segs, Forall segment_ok l -> Forall unchanged l -> apply_pieces segs l = Some (segs ++ l).
Proof.
  induction l as [|s l IH]; intros segs H U; cbn [apply_pieces]; [now rewrite app_nil_r|].
  inversion H as [|? ? [Hn _] Hl]; subst. inversion U as [|? ? (Up & U1 & U2) Ul]; subst. unfold apply_piece.
  destruct (list_eq_dec N.eq_dec s []); [contradiction|]. destruct (list_eq_dec N.eq_dec s dot); [contradiction|].
  destruct (list_eq_dec N.eq_dec s dotdot); [contradiction|]. rewrite unescape_plain by assumption. cbn [option_map].
  rewrite IH by assumption. now rewrite <- app_assoc.
Qed.

Lemma join_meaning segs : Forall segment_ok segs -> path_meaning (join segs) = Some segs <-> Forall unchanged segs.
Proof.
  intros H. destruct segs as [|s l]; [split; [constructor|reflexivity]|]. unfold path_meaning.
  rewrite pieces_join; [|discriminate|eapply Forall_impl; [|exact H]; now intros a []].
  split; [|now apply apply_pieces_unchanged]. intros E.
  destruct (apply_pieces_grow _ _ _ E eq_refl) as (ds & Ed & F). cbn [app] in Ed. subst ds. apply Forall2_same in F.
  eapply Forall_impl; [|exact F]. intros a (U & H1 & H2). split; [|auto]. intros K.
  destruct (unescape_length (length a) a a (le_n _) U) as [_ L]. specialize (L K). lia.
Qed.

Lemma text_again q s segs p : names s segs -> path_set q s = POk p ->
  exists t, joined p 0 = Ok t /\ (names t segs <-> Forall unchanged segs).
Proof.
  intros H E. apply names_meaning in H. destruct (path_accessors q s segs p H E) as [J _].
  exists (join segs). split; [exact (J 0)|]. rewrite names_meaning. apply join_meaning. eapply meaning_ok; eauto.
Qed.

(* ---------- places ---------- *)

Lemma reaches_nil t n v segs tr t' n' v' : reaches t n v segs tr t' n' v' -> (tr = [] <-> segs = []).
Proof. intros H. inversion H; subst; split; intros E; discriminate || reflexivity. Qed.

Lemma last_cons {A} (x : A) l d : l <> [] -> last (x :: l) d = last l d.
Proof. destruct l; [congruence|reflexivity]. Qed.

Ltac bad_elements := match goal with H : elements _ _ |- _ => destruct H as [H|[? H]]; discriminate H end.

Lemma list_eq_nil {A} (l : list A) : l = [] \/ l <> [].
Proof. destruct l; [now left|right; discriminate]. Qed.

Lemma last_pair (x y : str) segs segs' (tr tr' : trail) : (tr = [] <-> segs = []) -> (tr' = [] <-> segs' = []) ->
  map snd tr = map snd tr' -> (tr = [] -> x = y) -> (tr <> [] -> last segs [] = last segs' []) ->
  last (x :: segs) [] = last (y :: segs') [].
Proof.
  intros N1 N2 E H1 H2. destruct tr as [|p tr].
  - destruct tr'; [|discriminate E]. rewrite (proj1 N1 eq_refl), (proj1 N2 eq_refl). cbn. auto.
  - destruct tr'; [discriminate E|]. rewrite !last_cons; [apply H2; discriminate| |].
    + intros K. apply N2 in K. discriminate.
    + intros K. apply N1 in K. discriminate.
Qed.

Definition ends_named (tr : trail) : Prop := let '(n, st) := last tr (NRoot, SSome) in by_name n st.

Lemma ends_tail p (tr : trail) : ends_named (p :: tr) -> tr <> [] -> ends_named tr.
Proof. unfold ends_named. intros B N. rewrite last_cons in B by exact N. exact B. Qed.

Definition same_kind (n n2 : nkind) : Prop := n = n2 \/ exists k k', n = NElem k /\ n2 = NElem k'.

Lemma same_last t n v segs tr t1 n1 v1 : reaches t n v segs tr t1 n1 v1 -> typed t v ->
  forall n2 segs' tr' t2 n2' v2, same_kind n n2 -> reaches t n2 v segs' tr' t2 n2' v2 -> map snd tr = map snd tr' ->
  ends_named tr -> last segs [] = last segs' [].
Proof.
  induction 1 as [t n v|fs n vs i a t v segs tr t' n' v' Hf Hv Hb H IH|t n v s segs tr t' n' v' H IH
    |t n m s v segs tr t' n' v' Hin H IH|t te n vs s i v segs tr t' n' v' He Hk Hi Hv H IH
    |t te n vs s ck i v segs tr t' n' v' He Hk Hv H IH]; intros Ht n2 segs2 tr2 t2 n2' v2 SK R Et B.
  - cbn in B. contradiction.
  - inversion R; subst; try bad_elements; cbn [map snd] in Et; try discriminate Et. injection Et as -> Et.
    match goal with G : nth_error fs _ = Some (?b, ?u), G' : nth_error vs _ = Some ?w, R2 : reaches ?u _ ?w _ _ _ _ _ |- _ =>
      assert (b = a /\ u = t /\ w = v) as (-> & -> & ->) by (repeat split; congruence); rename R2 into R' end.
    apply (last_pair _ _ _ _ tr tr0); [eapply reaches_nil; eauto|eapply reaches_nil; eauto|exact Et|reflexivity|].
    intros Nt. destruct (typed_field _ _ _ _ _ Ht Hf) as (w & Hw & Htw). assert (w = v) as -> by congruence.
    eapply IH; [exact Htw| |exact R'|exact Et|eapply ends_tail; eauto]. now left.
  - inversion R; subst; try bad_elements; cbn [map snd] in Et; try discriminate Et. injection Et as Et.
    match goal with R2 : reaches t _ v (_ :: _) _ _ _ _ |- _ => eapply IH; [exact Ht|left; reflexivity|exact R2|exact Et|] end.
    eapply ends_tail; [exact B|]. intros K. apply (reaches_nil _ _ _ _ _ _ _ _ H) in K. discriminate.
  - inversion R; subst; try bad_elements; cbn [map snd] in Et; try discriminate Et. injection Et as <- Et.
    destruct (typed_entry _ _ _ _ Ht Hin) as [Htv F].
    match goal with G : In (s, ?w) m |- _ => destruct (typed_entry _ _ _ _ Ht G) as [_ F']; assert (w = v) as -> by congruence end.
    apply (last_pair _ _ _ _ tr tr0); [eapply reaches_nil; eauto|eapply reaches_nil; eauto|exact Et|reflexivity|].
    intros Nt. eapply IH; [exact Htv|left; reflexivity|eassumption|exact Et|]. eapply ends_tail; eauto.
  - assert (exists i' te' w sg tt m', tr2 = (n2, SIndex i') :: tt /\ nth_error vs i' = Some w /\ elements t te' /\
      reaches te' (NElem m') w sg tt t2 n2' v2 /\ exists s2, segs2 = s2 :: sg) as (i' & te' & w & sg & tt & m' & -> & Hw & He' & R' & s2 & ->).
    { inversion R; subst; try bad_elements; cbn [map snd] in Et; try discriminate Et; repeat eexists; eauto. }
    cbn [map snd] in Et. injection Et as <- Et. assert (w = v) as -> by congruence.
    assert (te' = te) as -> by (eapply elements_fun; eauto).
    apply (last_pair _ _ _ _ tr tt); [eapply reaches_nil; eauto|eapply reaches_nil; eauto|exact Et| |].
    + intros ->. unfold ends_named in B. cbn in B. destruct B as (ck & Ek & _). congruence.
    + intros Nt. eapply IH; [eapply typed_element; eauto using nth_error_In| |exact R'|exact Et|eapply ends_tail; eauto].
      right. eauto.
  - destruct (list_eq_nil tr) as [->|Nt].
    + unfold ends_named in B. cbn in B. destruct B as (c & Ek & Em).
      assert (En : node_child_keys n2 = node_child_keys n).
      { destruct SK as [->|(k & k' & -> & ->)]; [reflexivity|cbn in Ek; discriminate]. }
      assert (N1 : segs = []) by (eapply reaches_nil; eauto). subst segs.
      inversion R; subst; try bad_elements; cbn [map snd] in Et; try discriminate Et.
      * exfalso. congruence.
      * injection Et as <- Et. cbn [map] in Et. match type of Et with _ = map snd ?x => destruct x; [|discriminate Et] end.
        match goal with G : reaches _ _ _ ?sg [] _ n2' _ |- _ =>
          pose proof (proj1 (reaches_nil _ _ _ _ _ _ _ _ G) eq_refl) end. subst. cbn [last].
        match goal with G : key_name (node_child_keys n2) _ _ _ _ |- _ => rewrite En, Ek in G; rename G into K2 end.
        rewrite Ek in Hk. destruct Hk as (b1 & a1 & E1 & (e1 & X1 & M1) & _). destruct K2 as (b2 & a2 & E2 & (e2 & X2 & M2) & _).
        assert (ck = c) as ->. { destruct b1 as [|? [|]]; cbn in E1; congruence. }
        match type of M2 with matches ?c2 _ _ => assert (c2 = c) as -> by (destruct b2 as [|? [|]]; cbn in E2; congruence) end.
        assert (e2 = e1) as -> by congruence. destruct M1 as (k1 & K1 & M1). destruct M2 as (k2 & K2 & M2). rewrite Em in *.
        congruence.
    + assert (exists i' te' w sg tt m', tr2 = (n2, SIndex i') :: tt /\ nth_error vs i' = Some w /\ elements t te' /\
        reaches te' (NElem m') w sg tt t2 n2' v2 /\ exists s2, segs2 = s2 :: sg) as (i' & te' & w & sg & tt & m' & -> & Hw & He' & R' & s2 & ->).
      { inversion R; subst; try bad_elements; cbn [map snd] in Et; try discriminate Et; repeat eexists; eauto. }
      cbn [map snd] in Et. injection Et as <- Et. assert (w = v) as -> by congruence.
      assert (te' = te) as -> by (eapply elements_fun; eauto).
      apply (last_pair _ _ _ _ tr tt); [eapply reaches_nil; eauto|eapply reaches_nil; eauto|exact Et|contradiction|].
      intros _. eapply IH; [eapply typed_element; eauto using nth_error_In| |exact R'|exact Et|eapply ends_tail; eauto].
      right. eauto.
Qed.

Lemma child_addressable t v segs k tr n st t' n' v' : typed t v ->
  reaches t NRoot v (segs ++ [k]) (tr ++ [(n, st)]) t' n' v' -> by_name n st ->
  Forall segment_ok segs -> addressable t v (map snd tr ++ [st]) <-> segment_ok k.
Proof.
  intros Ht R B Hs. assert (El : map snd (tr ++ [(n, st)]) = map snd tr ++ [st]) by (now rewrite map_app). split.
  - intros (s & segs' & t2 & v2 & Hn & tr' & n2 & R' & El'). apply names_ok in Hn.
    assert (E : last (segs ++ [k]) [] = last segs' []).
    { eapply same_last; [exact R|exact Ht|left; reflexivity|exact R'|congruence|]. unfold ends_named. rewrite last_last. exact B. }
    rewrite last_last in E. subst k. destruct segs' as [|x l].
    + inversion R'; subst. destruct tr; discriminate.
    + rewrite Forall_forall in Hn. apply Hn. clear. revert x. induction l as [|y l IH]; intros x; [now left|].
      right. exact (IH y).
  - intros Hk. destruct (proj2 (text_iff (segs ++ [k]))) as [s Hn].
    { apply Forall_app. auto. }
    exists s, (segs ++ [k]), t', v'. split; [exact Hn|]. exists (tr ++ [(n, st)]), n'. auto.
Qed.

Lemma addressable_if t v segs loc t' v' : refers t v segs loc t' v' -> Forall segment_ok segs -> addressable t v loc.
Proof. intros R H. destruct (proj2 (text_iff segs) H) as [s Hn]. exists s, segs, t', v'. auto. Qed.

(* ---------- elements that cannot be named ---------- *)

Lemma posted_lost name : In name [txt ""; txt "a/b"] -> exists r' a,
  perform E0 root_ty root_res (Post (at_ "/items") (JObj [(txt "name", JStr name); (txt "n", JInt 3)])) = (r', a) /\
  (exists p, a = Answer s_created p) /\ get_at (value r') [SField 0; SIndex 2] = Some (VRec [VStr name; VInt 3]) /\
  ~ addressable root_ty (value r') [SField 0; SIndex 2].
Proof.
  set (v' := VRec [VSeq [item "p" 1; item "q" 2; VRec [VStr name; VInt 3]]; VSeq [VInt 7; VInt 8];
    VMap [(txt "u", VInt 5); (txt "w", VInt 6)]; VSome (VSeq [VInt 9]); VInt 3; VRec [VInt 4]; VInt 10]).
  intros Hn.
  assert (Bad : ~ segment_ok name).
  { intros [K1 K2]. destruct Hn as [<-|[<-|[]]]; [now apply K1|]. apply K2. right. now left. }
  assert (P : value (fst (perform E0 root_ty root_res (Post (at_ "/items") (JObj [(txt "name", JStr name); (txt "n", JInt 3)])))) = v' /\
    exists p, snd (perform E0 root_ty root_res (Post (at_ "/items") (JObj [(txt "name", JStr name); (txt "n", JInt 3)]))) = Answer s_created p).
  { subst v'. clear Bad. destruct Hn as [<-|[<-|[]]]; split; try (vm_compute; reflexivity); eexists; vm_compute; reflexivity. }
  destruct P as [Pv [p Pa]]. destruct (perform _ _ _ _) as [r' a]. cbn [fst snd] in Pv, Pa.
  exists r', a. split; [reflexivity|]. split; [eauto|]. rewrite Pv. split; [reflexivity|].
  intros (s & segs & t1 & v1 & Hs & tr & n1 & R & El). apply names_ok in Hs. subst v'.
  unfold root_ty in R. inversion R; subst; try bad_elements; try discriminate El.
  match goal with G : reaches _ _ _ _ _ _ _ _ |- _ => clear R; rename G into R end.
  cbn [map snd] in El. injection El as <- El.
  match goal with G : nth_error _ 0 = Some (_, _), G' : nth_error _ 0 = Some _ |- _ => cbn in G, G'; injection G as <- <-; injection G' as <- end.
  inversion R; subst; try discriminate El.
  - match goal with G : node_child_keys _ = [] |- _ => discriminate G end.
  - cbn [map snd] in El. injection El as <- El.
    match goal with G : key_name _ _ _ _ _ |- _ => destruct G as (b & a' & Eb & (e & Xe & M) & _) end.
    cbn in Eb. destruct b as [|? [|]]; try discriminate Eb. injection Eb as <- _. cbn in Xe. injection Xe as <-.
    destruct M as (k & K & M). cbn in K, M. injection K as <-. injection M as ->.
    inversion Hs as [|? ? _ Hs']; subst. inversion Hs'; subst. contradiction.
Qed.

Lemma again_differs : exists s segs q p t, names s segs /\ segs <> [] /\ path_set q s = POk p /\ joined p 0 = Ok t /\ names t [].
Proof.
  exists (txt "a/%2E%2E"), [txt "a"; dotdot], (mkpath [] []).
  eexists. exists (txt "a/.."). split; [apply names_meaning; reflexivity|]. split; [discriminate|]. split; [vm_compute; reflexivity|].
  split; [vm_compute; reflexivity|]. apply names_meaning. reflexivity.
Qed.

Lemma again_throws : exists s segs q p t, names s segs /\ path_set q s = POk p /\ joined p 0 = Ok t /\
  forall q', exists p', path_set q' t = PThrow p'.
Proof.
  exists (txt "a/%25zz"), [txt "a"; txt "%zz"], (mkpath [] []).
  eexists. exists (txt "a/%zz"). split; [apply names_meaning; reflexivity|]. split; [vm_compute; reflexivity|].
  split; [vm_compute; reflexivity|]. intros q'. pose proof (path_set_spec q' (txt "a/%zz")) as H.
  change (path_meaning (txt "a/%zz")) with (@None (list str)) in H. destruct H as (p' & _ & H & _). eauto.
Qed.
