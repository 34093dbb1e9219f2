(** Nothing else is written, and all ways of writing and reading agree: lemmas. *)
From Coq Require Import List Arith Bool Lia.
From Verif Require Import PickModel PickSpec PickProofs.
Import ListNotations.

(** * Classes without conversions and bases *)

Definition ranged (c : option (container ty)) : bool := match c with Some k => k_begin k && k_end k | None => false end.
Definition keyed (c : option (container ty)) : bool := match c with Some k => present (k_key k) && present (k_mapped k) | None => false end.
Definition filled (c : option (container ty)) : bool := match c with Some k => k_value k && (k_push k || k_size k) | None => false end.

Lemma class_plain_pick : forall llp b m c fs, pick llp b m (Class c fs [] None) =
  match fs with
  | Some l => if ranged c && (writing m || keyed c || filled c) then None else option_map_ SObject (all (map (pick llp b m) l))
  | None =>
      if ranged c then
        match c with
        | Some k =>
            match k_key k, k_mapped k with
            | Some ky, Some u => if key_works m ky then option_map_ SMap (pick llp b m u) else None
            | _, _ =>
                if writing m then option_map_ SSeq (pick llp b m (k_item k))
                else if k_value k && (k_push k || (k_size k && negb (k_const k))) then option_map_ SSeq (pick llp b m (k_item k)) else None
            end
        | None => None
        end
      else None
  end.
Proof.
  intros llp b m c fs. rewrite pick_whole. unfold whole. rewrite class_plain_act. cbv zeta. unfold ranged, keyed, filled.
  destruct fs as [l|].
  - destruct (_ && _); [reflexivity|]. reflexivity.
  - destruct c as [k|]; [|reflexivity]. destruct (k_begin k && k_end k) eqn:R; [|reflexivity].
    destruct (k_key k) as [ky|] eqn:K; [destruct (k_mapped k) as [u|] eqn:U|]; cbn [present andb].
    + cbn [members]. rewrite K. cbn [analyse p_mapped]. rewrite U. reflexivity.
    + destruct (writing m) eqn:W; cbn [orb].
      * cbn [nested]. destruct m; try discriminate W; reflexivity.
      * destruct m; try discriminate W. unfold is_fixed_size_range, is_range, has. cbn [members nested]. rewrite R. cbn [andb].
        cbn [analyse p_item]. destruct (k_value k), (k_push k), (k_size k), (k_const k); reflexivity.
    + destruct (writing m) eqn:W; cbn [orb].
      * cbn [nested]. destruct m; try discriminate W; reflexivity.
      * destruct m; try discriminate W. unfold is_fixed_size_range, is_range, has. cbn [members nested]. rewrite R. cbn [andb].
        cbn [analyse p_item]. destruct (k_value k), (k_push k), (k_size k), (k_const k); reflexivity.
Qed.

Lemma no_number_plain : forall c fs base, no_number (Class c fs [] base).
Proof. intros c fs base c0 fs0 cv bs x E I. injection E as <- <- <- <-. destruct I. Qed.

Lemma some_map : forall {A B} (f : A -> B) o y, option_map_ f o = Some y -> exists x, o = Some x /\ y = f x.
Proof. intros A B f [x|] y H; [|discriminate H]. injection H as <-. eauto. Qed.

Lemma forall2_map : forall (R : ty -> shape -> Prop) (f : ty -> option shape) ts ss,
  (forall x s, In x ts -> f x = Some s -> R x s) -> all (map f ts) = Some ss -> Forall2 R ts ss.
Proof.
  intros R f ts ss H A. apply all_some in A. induction A; constructor.
  - apply H; [left; reflexivity | assumption].
  - apply IHA. intros z s I. apply H. right. exact I.
Qed.

Theorem picked_meant : forall llp b m t s, plain t -> pick llp b m t = Some s -> meant true llp b m t s.
Proof.
  intros llp b m t. pattern t. apply size_ind. clear t. intros t IH s P H. destruct t.
  - apply number_only. exact H.
  - destruct llp, b, m; vm_compute in H; try discriminate H; injection H as <-; apply m_null; discriminate.
  - destruct (match t with Arith Char => true | _ => false end) eqn:E.
    + assert (Et : t = Arith Char) by (destruct t; try discriminate E; destruct a; try discriminate E; reflexivity). subst t.
      destruct llp, b, m; vm_compute in H; try discriminate H; injection H as <-; apply m_chars; discriminate.
    + assert (Ne : t <> Arith Char) by (intros ->; discriminate E). rewrite pointer_pick in H by exact Ne.
      destruct m; try discriminate H. injection H as <-. apply o_pointer; [reflexivity | reflexivity | exact Ne].
  - destruct (match t with Arith Char => true | _ => false end) eqn:E.
    + assert (Et : t = Arith Char) by (destruct t; try discriminate E; destruct a; try discriminate E; reflexivity). subst t.
      destruct llp, b, m; vm_compute in H; try discriminate H; injection H as <-; apply m_literal; discriminate.
    + assert (Ne : t <> Arith Char) by (intros ->; discriminate E). rewrite array_pick in H by exact Ne.
      destruct m; try discriminate H. injection H as <-. apply o_array; [reflexivity | reflexivity | exact Ne].
  - destruct (arith_eqb ch Char) eqn:E.
    + assert (ch = Char) as -> by (destruct ch; try discriminate E; reflexivity).
      destruct llp, b, m; vm_compute in H; injection H as <-; apply m_string.
    + assert (Ne : ch <> Char) by (intros ->; discriminate E). rewrite string_pick in H by exact Ne.
      assert (Q : ~ (b = Json /\ m = Tree)) by (intros [-> ->]; discriminate H).
      assert (H2 : option_map_ SSeq (pick llp b m (Arith ch)) = Some s) by (destruct b, m; try exact H; discriminate H).
      apply some_map in H2 as (x & H2 & ->). apply o_string; [reflexivity | exact Ne | exact Q | apply number_only, H2].
  - destruct (arith_eqb ch Char) eqn:E.
    + assert (ch = Char) as -> by (destruct ch; try discriminate E; reflexivity).
      destruct llp, b, m; vm_compute in H; injection H as <-; solve [apply m_view; auto | apply o_view; try reflexivity; discriminate].
    + assert (Ne : ch <> Char) by (intros ->; discriminate E). rewrite view_pick in H by exact Ne.
      assert (Q : ~ (b = Json /\ m = Tree)) by (intros [-> ->]; discriminate H).
      assert (Q2 : m <> Read) by (intros ->; destruct b; discriminate H).
      assert (H2 : option_map_ SSeq (pick llp b m (Arith ch)) = Some s) by (destruct b, m; try exact H; discriminate H).
      apply some_map in H2 as (x & H2 & ->). apply o_wide_view; [reflexivity | exact Ne | exact Q | exact Q2 | apply number_only, H2].
  - destruct llp, b, m; vm_compute in H; try discriminate H; injection H as <-; apply m_jview; reflexivity.
  - destruct llp, b, m; vm_compute in H; try discriminate H; injection H as <-; apply m_yview; reflexivity.
  - destruct llp, b, m; vm_compute in H; try discriminate H; injection H as <-; apply o_value; reflexivity.
  - destruct llp, b, m; vm_compute in H; try discriminate H; injection H as <-; apply o_node; try reflexivity; discriminate.
  - rewrite enum_pick in H. destruct reflected; [injection H as <-; apply m_name | apply m_value, number_only, H].
  - rewrite set_pick in H. destruct reflected; [injection H as <-; apply m_set|].
    destruct m; try discriminate H. apply some_map in H as (x & H & ->). apply m_set_values; [reflexivity | apply number_only, H].
  - rewrite tuple_pick in H. apply some_map in H as (ss & H & ->). apply m_tuple. apply (forall2_map _ _ _ _) with (2 := H).
    intros x s I E. apply IH; [apply direct_smaller; exact I | | exact E].
    inversion P as [? F| | | |]; subst; [|contradiction]. rewrite Forall_forall in F. exact (F x I).
  - rewrite pair_pick in H. apply some_map in H as (ss & H & ->). cbn [all] in H.
    destruct (pick llp b m t1) as [x|] eqn:E1; [|discriminate H]. destruct (pick llp b m t2) as [y|] eqn:E2; [|discriminate H].
    cbn in H. injection H as <-. inversion P; subst; [|contradiction].
    apply m_pair; apply IH; try assumption; cbn [size]; lia.
  - rewrite opt_pick in H. apply some_map in H as (x & H & ->). inversion P; subst; [|contradiction].
    apply m_opt, IH; [cbn [size]; lia | assumption | assumption].
  - inversion P as [| | |c0 fs0 P1 P2 P3|]; subst; [|contradiction].
    assert (N : b = Json -> m = Tree -> no_number (Class c fields [] None)) by (intros _ _; apply no_number_plain).
    rewrite class_plain_pick in H. destruct fields as [l|].
    + destruct (ranged c && (writing m || keyed c || filled c)) eqn:R; [discriminate H|].
      apply some_map in H as (ss & H & ->).
      apply m_struct.
      * intros k Pk [[B E] F]. inversion Pk; subst. cbn [ranged keyed filled] in R. rewrite B, E in R. cbn [andb] in R.
        destruct (writing m) eqn:W; [discriminate R|]. cbn [orb] in R. assert (m = Read) as -> by (destruct m; try discriminate W; reflexivity).
        apply orb_false_iff in R as [R1 R2]. destruct (F eq_refl) as [[A1 A2]|[V [A|A]]].
        -- destruct (k_key k), (k_mapped k); try discriminate R1; [contradiction A2 | contradiction A1 | contradiction A1]; reflexivity.
        -- rewrite V, A in R2. discriminate R2.
        -- rewrite V, A, orb_true_r in R2. discriminate R2.
      * intros _. destruct c; reflexivity.
      * exact N.
      * apply (forall2_map _ _ _ _) with (2 := H). intros x s I E. apply IH; [| | exact E].
        -- apply direct_smaller. cbn [direct]. apply in_app_iff. right. apply in_app_iff. left. exact I.
        -- specialize (P3 l eq_refl). rewrite Forall_forall in P3. exact (P3 x I).
    + destruct (ranged c) eqn:R; [|discriminate H]. destruct c as [k|]; [|discriminate H]. cbn [ranged] in R. apply andb_true_iff in R as [B E].
      assert (NR : ~ PickSpec.reflected (Class (Some k) None [] None)) by (intros (? & ? & ? & ? & Eq); discriminate Eq).
      assert (Sq : option_map_ SSeq (pick llp b m (k_item k)) = Some s -> ~ associative k -> (m = Read -> fillable k) ->
        meant true llp b m (Class (Some k) None [] None) s).
      { intros X A Fi. apply some_map in X as (x & X & ->).
        apply (m_seq _ _ _ _ _ k); try assumption; [repeat eexists | constructor | split; assumption |].
        apply IH; [cbn [size]; lia | exact (P1 k eq_refl) | exact X]. }
      destruct (k_key k) as [ky|] eqn:K; [destruct (k_mapped k) as [u|] eqn:U|].
      * destruct (key_works m ky) eqn:W; [|discriminate H]. apply some_map in H as (x & H & ->).
        apply (m_map _ _ _ _ _ k ky u); try assumption; [constructor | split; assumption | apply key_good, W |].
        apply IH; [cbn [size]; rewrite U; lia | exact (P2 k u eq_refl U) | exact H].
      * destruct (writing m) eqn:W.
        -- apply Sq; [exact H | intros [_ A]; apply A, U | intros ->; discriminate W].
        -- destruct (k_value k && _) eqn:V; [|discriminate H]. apply Sq; [exact H | intros [_ A]; apply A, U|].
           intros _. apply andb_true_iff in V as [V1 V2]. split; [exact V1|]. destruct (k_push k), (k_size k), (k_const k); try discriminate V2; auto.
      * destruct (writing m) eqn:W.
        -- apply Sq; [exact H | intros [A _]; apply A, K | intros ->; discriminate W].
        -- destruct (k_value k && _) eqn:V; [|discriminate H]. apply Sq; [exact H | intros [A _]; apply A, K|].
           intros _. apply andb_true_iff in V as [V1 V2]. split; [exact V1|]. destruct (k_push k), (k_size k), (k_const k); try discriminate V2; auto.
Qed.

(** * Agreement *)

Lemma comparable_down : forall b m b' m' t x, comparable b m b' m' t -> (forall y, within y x -> within y t) -> comparable b m b' m' x.
Proof.
  intros b m b' m' t x [H|[H|[H1 H2]]] W; [left; exact H | right; left; exact H | right; right].
  split; intros I; [apply H1, W, I | apply H2, W, I].
Qed.

Lemma arith_agree : forall llp b m llp' b' m' a s s', comparable b m b' m' (Arith a) ->
  pick llp b m (Arith a) = Some s -> pick llp' b' m' (Arith a) = Some s' -> s = s'.
Proof.
  intros llp b m llp' b' m' a s s' C H H'.
  assert (D : a = Char \/ a <> Char) by (destruct a; (left; reflexivity) + (right; discriminate)).
  destruct D as [->|N].
  - assert (Eb : b = b') by (destruct C as [[-> ->]|[(-> & -> & _)|[C _]]]; [reflexivity | reflexivity | contradiction C; constructor]). subst b'.
    destruct b, llp, llp', m, m'; vm_compute in H, H'; injection H as <-; injection H' as <-; reflexivity.
  - clear C. destruct a; try (contradiction N; reflexivity); destruct llp, b, m; vm_compute in H; try discriminate H; injection H as <-;
      destruct llp', b', m'; vm_compute in H'; try discriminate H'; injection H' as <-; reflexivity.
Qed.

Lemma all_agree : forall (f g : ty -> option shape) ts ss ss',
  (forall x s s', In x ts -> f x = Some s -> g x = Some s' -> s = s') ->
  all (map f ts) = Some ss -> all (map g ts) = Some ss' -> ss = ss'.
Proof.
  intros f g. induction ts as [|t ts IH]; intros ss ss' H A B; cbn [map all] in A, B.
  - injection A as <-. injection B as <-. reflexivity.
  - destruct (f t) as [x|] eqn:F; [|discriminate A]. destruct (g t) as [y|] eqn:G; [|discriminate B].
    apply some_map in A as (l & A & ->). apply some_map in B as (l' & B & ->).
    f_equal; [apply (H t); auto; left; reflexivity|]. apply IH; auto. intros z s s' I. apply H. right. exact I.
Qed.

Theorem picks_agree : forall llp b m llp' b' m' t s s', plain t -> comparable b m b' m' t ->
  pick llp b m t = Some s -> pick llp' b' m' t = Some s' -> s = s'.
Proof.
  intros llp b m llp' b' m' t. pattern t. apply size_ind. clear t. intros t IH s s' P C H H'. destruct t.
  - exact (arith_agree _ _ _ _ _ _ _ _ _ C H H').
  - destruct llp, b, m, llp', b', m'; vm_compute in H, H'; congruence.
  - assert (D : t = Arith Char \/ t <> Arith Char).
    { destruct t; try (right; discriminate). destruct a; (left; reflexivity) + (right; discriminate). }
    destruct D as [->|Ne].
    + destruct llp, b, m; vm_compute in H; try discriminate H; injection H as <-; destruct llp', b', m'; vm_compute in H'; congruence.
    + rewrite pointer_pick in H, H' by exact Ne. destruct m, m'; congruence.
  - assert (D : t = Arith Char \/ t <> Arith Char).
    { destruct t; try (right; discriminate). destruct a; (left; reflexivity) + (right; discriminate). }
    destruct D as [->|Ne].
    + destruct llp, b, m; vm_compute in H; try discriminate H; injection H as <-; destruct llp', b', m'; vm_compute in H'; congruence.
    + rewrite array_pick in H, H' by exact Ne. destruct m, m'; congruence.
  - assert (D : ch = Char \/ ch <> Char) by (destruct ch; (left; reflexivity) + (right; discriminate)). destruct D as [->|Ne].
    + destruct llp, b, m; vm_compute in H; injection H as <-; destruct llp', b', m'; vm_compute in H'; congruence.
    + rewrite string_pick in H, H' by exact Ne.
      assert (H2 : option_map_ SSeq (pick llp b m (Arith ch)) = Some s) by (destruct b, m; try exact H; discriminate H).
      assert (H2' : option_map_ SSeq (pick llp' b' m' (Arith ch)) = Some s') by (destruct b', m'; try exact H'; discriminate H').
      apply some_map in H2 as (x & H2 & ->). apply some_map in H2' as (y & H2' & ->). f_equal.
      apply (arith_agree _ _ _ _ _ _ _ _ _) with (2 := H2) (3 := H2').
      right. right. split; intros W; inversion W; subst; contradiction Ne; reflexivity.
  - assert (D : ch = Char \/ ch <> Char) by (destruct ch; (left; reflexivity) + (right; discriminate)). destruct D as [->|Ne].
    + destruct C as [[-> ->]|[(-> & -> & W)|[_ C]]].
      * destruct llp, m; vm_compute in H; injection H as <-; destruct llp', m'; vm_compute in H'; congruence.
      * destruct m, m'; try discriminate W; destruct llp; vm_compute in H; injection H as <-; destruct llp'; vm_compute in H'; congruence.
      * contradiction C. constructor.
    + rewrite view_pick in H, H' by exact Ne.
      assert (H2 : option_map_ SSeq (pick llp b m (Arith ch)) = Some s) by (destruct b, m; try exact H; discriminate H).
      assert (H2' : option_map_ SSeq (pick llp' b' m' (Arith ch)) = Some s') by (destruct b', m'; try exact H'; discriminate H').
      apply some_map in H2 as (x & H2 & ->). apply some_map in H2' as (y & H2' & ->). f_equal.
      apply (arith_agree _ _ _ _ _ _ _ _ _) with (2 := H2) (3 := H2').
      right. right. split; intros W; inversion W; subst; contradiction Ne; reflexivity.
  - destruct llp, b, m; vm_compute in H; try discriminate H; injection H as <-; destruct llp', b', m'; vm_compute in H'; congruence.
  - destruct llp, b, m; vm_compute in H; try discriminate H; injection H as <-; destruct llp', b', m'; vm_compute in H'; congruence.
  - destruct llp, b, m; vm_compute in H; try discriminate H; injection H as <-; destruct llp', b', m'; vm_compute in H'; congruence.
  - destruct llp, b, m; vm_compute in H; try discriminate H; injection H as <-; destruct llp', b', m'; vm_compute in H'; congruence.
  - rewrite enum_pick in H, H'. destruct reflected; [congruence|].
    apply (arith_agree _ _ _ _ _ _ _ _ _) with (2 := H) (3 := H'). apply (comparable_down _ _ _ _ _ _ C). intros y W. constructor. exact W.
  - rewrite set_pick in H, H'. destruct reflected; [congruence|].
    destruct m; try discriminate H. destruct m'; try discriminate H'.
    apply some_map in H as (x & H & ->). apply some_map in H' as (y & H' & ->). f_equal.
    apply (arith_agree _ _ _ _ _ _ _ _ _) with (2 := H) (3 := H'). apply (comparable_down _ _ _ _ _ _ C). intros z W. constructor. exact W.
  - rewrite tuple_pick in H, H'. apply some_map in H as (ss & H & ->). apply some_map in H' as (ss' & H' & ->). f_equal.
    apply (all_agree _ _ _ _ _) with (2 := H) (3 := H'). intros x y y' I.
    inversion P as [? F| | | |]; subst; [|contradiction]. rewrite Forall_forall in F.
    apply IH; [apply direct_smaller; exact I | exact (F x I) |]. apply (comparable_down _ _ _ _ _ _ C). intros z W. exact (w_tuple z ts x I W).
  - rewrite pair_pick in H, H'. apply some_map in H as (ss & H & ->). apply some_map in H' as (ss' & H' & ->). cbn [all] in H, H'.
    destruct (pick llp b m t1) as [x|] eqn:E1; [|discriminate H]. destruct (pick llp b m t2) as [y|] eqn:E2; [|discriminate H].
    destruct (pick llp' b' m' t1) as [x'|] eqn:E1'; [|discriminate H']. destruct (pick llp' b' m' t2) as [y'|] eqn:E2'; [|discriminate H'].
    cbn in H, H'. injection H as <-. injection H' as <-. inversion P; subst; [|contradiction].
    rewrite (IH t1) with (s := x) (s' := x'), (IH t2) with (s := y) (s' := y'); try assumption; try reflexivity; try (cbn [size]; lia).
    + apply (comparable_down _ _ _ _ _ _ C). intros z W. apply w_second. exact W.
    + apply (comparable_down _ _ _ _ _ _ C). intros z W. apply w_first. exact W.
  - rewrite opt_pick in H, H'. apply some_map in H as (x & H & ->). apply some_map in H' as (x' & H' & ->). inversion P; subst; [|contradiction].
    f_equal. apply (IH t) with (4 := H) (5 := H'); [cbn [size]; lia | assumption |].
    apply (comparable_down _ _ _ _ _ _ C). intros z W. apply w_opt. exact W.
  - inversion P as [| | |c0 fs0 P1 P2 P3|]; subst; [|contradiction].
    rewrite class_plain_pick in H, H'. destruct fields as [l|].
    + destruct (ranged c && (writing m || _ || _)); [discriminate H|]. destruct (ranged c && (writing m' || _ || _)); [discriminate H'|].
      apply some_map in H as (ss & H & ->). apply some_map in H' as (ss' & H' & ->). f_equal.
      apply (all_agree _ _ _ _ _) with (2 := H) (3 := H'). intros x y y' I.
      specialize (P3 l eq_refl). rewrite Forall_forall in P3.
      apply IH; [apply direct_smaller; cbn [direct]; apply in_app_iff; right; apply in_app_iff; left; exact I | exact (P3 x I) |].
      apply (comparable_down _ _ _ _ _ _ C). intros z W. exact (w_field z c l x [] None I W).
    + destruct (ranged c) eqn:R; [|discriminate H]. destruct c as [k|]; [|discriminate H].
      assert (Sq : forall x x', option_map_ SSeq (pick llp b m (k_item k)) = Some x -> option_map_ SSeq (pick llp' b' m' (k_item k)) = Some x' -> x = x').
      { intros x x' X X'. apply some_map in X as (y & X & ->). apply some_map in X' as (y' & X' & ->). f_equal.
        apply (IH (k_item k)) with (4 := X) (5 := X'); [cbn [size]; lia | exact (P1 k eq_refl) |].
        apply (comparable_down _ _ _ _ _ _ C). intros z W. apply w_item. exact W. }
      destruct (k_key k) as [ky|] eqn:K; [destruct (k_mapped k) as [u|] eqn:U|].
      * destruct (key_works m ky); [|discriminate H]. destruct (key_works m' ky); [|discriminate H'].
        apply some_map in H as (x & H & ->). apply some_map in H' as (x' & H' & ->). f_equal.
        apply (IH u) with (4 := H) (5 := H'); [cbn [size]; rewrite U; lia | exact (P2 k u eq_refl U) |].
        apply (comparable_down _ _ _ _ _ _ C). intros z W. exact (w_mapped z k u None [] None U W).
      * apply Sq.
        -- destruct (writing m); [exact H|]. destruct (k_value k && _); [exact H | discriminate H].
        -- destruct (writing m'); [exact H'|]. destruct (k_value k && _); [exact H' | discriminate H'].
      * apply Sq.
        -- destruct (writing m); [exact H|]. destruct (k_value k && _); [exact H | discriminate H].
        -- destruct (writing m'); [exact H'|]. destruct (k_value k && _); [exact H' | discriminate H'].
Qed.

(** * Types that something else happens to *)

Lemma pointers_true : forall llp b t n, t <> Arith Char ->
  pick llp b Dump (Ptr t) = Some SBool /\ pick llp b Dump (Arr t n) = Some SBool /\
  pick llp b Tree (Ptr t) = None /\ pick llp b Tree (Arr t n) = None.
Proof. intros llp b t n N. rewrite !pointer_pick, !array_pick by exact N. auto. Qed.

Lemma reflected_containers : forall llp b m k l, m <> Read -> iterable k -> pick llp b m (Class (Some k) (Some l) [] None) = None.
Proof.
  intros llp b m k l M [B E]. rewrite class_plain_pick. cbn [ranged]. rewrite B, E. destruct m; try reflexivity. contradiction M. reflexivity.
Qed.

Lemma struct_to_number : forall llp l a, is_floating_point (Arith a) = false -> a <> Boolean ->
  pick llp Json Dump (Class None (Some l) [Arith a] None) = option_map_ SObject (all (map (pick llp Json Dump) l)) /\
  (is_json_constructible llp (Arith a) = true -> pick llp Json Tree (Class None (Some l) [Arith a] None) = None).
Proof.
  intros llp l a F B. split.
  - apply struct_pick; [reflexivity | discriminate].
  - intros C. destruct llp, a; try discriminate F; try (contradiction B; reflexivity); try (vm_compute in C; discriminate C); vm_compute; reflexivity.
Qed.

Lemma derived_string : forall llp b m,
  pick llp b m (Class None None [] (Some (Str Char))) = option_map_ SSeq (pick llp b m (Arith Char)) /\ pick llp b m (Str Char) = Some SString.
Proof. intros llp b m. split; destruct llp, b, m; vm_compute; reflexivity. Qed.
