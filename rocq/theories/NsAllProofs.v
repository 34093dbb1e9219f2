(** When the operators are called, hidden, ambiguous. *)
From Coq Require Import List Arith Bool Lia.
From Verif Require Import Base NsModel NsSpec NsProofs NsCallProofs.
Import ListNotations.

Lemma usable_cases : forall P p o e x, proper P p -> alone P (operands o e x) -> number x ->
  exists l, usable P p o (operands o e x) = l /\
    (forall f, In f l -> can P (operands o e x) f = true /\ (f = Global o \/ f = Inner o)) /\ length l <= 2 /\
    ((l = [] /\ ~ by_traits P p o e /\ ~ by_name P p o e) \/
     (l = [Global o] /\ by_traits P p o e /\ ~ by_name P p o e) \/
     (l = [Inner o] /\ ~ by_traits P p o e /\ by_name P p o e) \/
     ((l = [Global o; Inner o] \/ l = [Inner o; Global o]) /\ by_traits P p o e /\ by_name P p o e)).
Proof.
  intros P p o e x Hp Ha Hx. destruct (usable_enum P p o e x Hp Ha Hx) as [Hn Hu].
  exists (usable P p o (operands o e x)). split; [reflexivity|]. remember (usable P p o (operands o e x)) as l eqn:E. clear E.
  assert (In (Global o) l <-> by_traits P p o e) as HG.
  { rewrite Hu, (can_global P o e x Hx). unfold by_traits. tauto. }
  assert (In (Inner o) l <-> by_name P p o e) as HI.
  { rewrite Hu, (can_inner P o e x Hx). unfold by_name. tauto. }
  split; [intros f Hf; apply Hu in Hf; tauto|].
  assert (Global o <> Inner o) as Hne by discriminate.
  destruct (two l (Global o) (Inner o) Hn) as [->|[->|[->|[->| ->]]]]; [intros f Hf; apply Hu in Hf; tauto| | | | |];
    (split; [cbn; lia|]); cbn in HG, HI.
  - left. split; [reflexivity|]. tauto.
  - right. left. split; [reflexivity|]. split; [tauto|]. intros H. apply HI in H. destruct H as [H|[]]. congruence.
  - right. right. left. split; [reflexivity|]. split; [|tauto]. intros H. apply HG in H. destruct H as [H|[]]. congruence.
  - right. right. right. split; [auto|]. tauto.
  - right. right. right. split; [auto|]. tauto.
Qed.

Theorem operator_called : forall P p o e x, proper P p -> alone P (operands o e x) -> number x -> settled o e x ->
  (resolve P p o (operands o e x) = Chosen (Global o) <-> by_traits P p o e /\ ~ by_name P p o e) /\
  (resolve P p o (operands o e x) = Chosen (Inner o) <-> ~ by_traits P p o e /\ by_name P p o e) /\
  (resolve P p o (operands o e x) = Ambiguous <-> by_traits P p o e /\ by_name P p o e) /\
  (resolve P p o (operands o e x) = Language <->
     ~ by_traits P p o e /\ ~ by_name P p o e /\ computes o /\ e_scoped e = false) /\
  (resolve P p o (operands o e x) = Missing <->
     ~ by_traits P p o e /\ ~ by_name P p o e /\ ~ (computes o /\ e_scoped e = false)).
Proof.
  intros P p o e x Hp Ha Hx Hw. destruct (usable_cases P p o e x Hp Ha Hx) as (l & Hl & Hf & Hlen & Hc).
  rewrite (resolve_usable P p o e x l Hx Hw Hl Hf Hlen).
  assert (assigns o = false <-> computes o) as Hcomp by (destruct o; cbn; split; (discriminate || tauto || reflexivity)).
  destruct Hc as [(-> & H1 & H2)|[(-> & H1 & H2)|[(-> & H1 & H2)|([->| ->] & H1 & H2)]]].
  - destruct (assigns o) eqn:Eo; cbn [orb].
    + assert (~ computes o) as Hno by (intros H; apply Hcomp in H; discriminate).
      repeat (split; [split; [discriminate|tauto]|]). split; [tauto|reflexivity].
    + assert (computes o) as Hyes by (apply Hcomp; reflexivity). destruct (e_scoped e).
      * repeat (split; [split; [discriminate|]; try tauto; intros (_ & _ & _ & H); discriminate|]).
        split; [|reflexivity]. intros _. split; [exact H1|split; [exact H2|]]. intros [_ H]. discriminate.
      * split; [split; [discriminate|tauto]|]. split; [split; [discriminate|tauto]|]. split; [split; [discriminate|tauto]|].
        split; [tauto|]. split; [discriminate|]. intros (_ & _ & H). tauto.
  - split; [tauto|]. repeat (split; [split; [discriminate|tauto]|]). split; [discriminate|tauto].
  - split; [split; [discriminate|tauto]|]. split; [tauto|]. repeat (split; [split; [discriminate|tauto]|]). split; [discriminate|tauto].
  - split; [split; [discriminate|tauto]|]. split; [split; [discriminate|tauto]|]. split; [tauto|].
    split; [split; [discriminate|tauto]|]. split; [discriminate|tauto].
  - split; [split; [discriminate|tauto]|]. split; [split; [discriminate|tauto]|]. split; [tauto|].
    split; [split; [discriminate|tauto]|]. split; [discriminate|tauto].
Qed.

(** ** Hidden *)

Lemma nearest_nil : forall m k, nearest m [] k -> k = [].
Proof. intros m k (_ & H & _). exact (inside_of_nil _ H). Qed.

Lemma introduced_nil : forall P p t f n, (forall d, In d (decls P) -> d_func d = f -> d_ns d = []) ->
  introduced P p t n f -> n = [].
Proof.
  intros P p t f n Hg [(d & Hd & <- & _ & Hf & _)|(m & q & _ & Hn & (d & Hd & Hq & _ & Hf & _))].
  - exact (Hg d Hd Hf).
  - rewrite (Hg d Hd Hf) in Hq. subst q. exact (nearest_nil _ _ Hn).
Qed.

(** A declaration in the global namespace is seen unless one nearer is there. *)
Lemma seen_global : forall P p t f, (forall g, ~ In (t, g) (p_decls p)) ->
  (forall d, In d (decls P) -> d_func d = f -> d_ns d = []) ->
  declares P [] t f (p_at p) ->
  (seen P p t f <-> ~ hidden P p t).
Proof.
  intros P p t f Hl Hg Hd. split.
  - intros [H|(_ & n & Hn & Hi & Hk)]; [destruct (Hl _ H)|]. apply (introduced_nil _ _ _ _ _ Hg) in Hi. subst n.
    intros (k & g & Hk1 & Hk2 & Hk3). exact (Hk k g Hk1 (inside_nil k) Hk2 Hk3).
  - intros H. right. split; [exact Hl|]. exists []. split; [apply inside_nil|]. split; [left; exact Hd|].
    intros k g Hk _ Hne Hi. apply H. exists k, g. auto.
Qed.

Lemma hidden_global : forall P p t f, (forall g, ~ In (t, g) (p_decls p)) ->
  (forall d, In d (decls P) -> d_func d = f -> d_ns d = []) ->
  hidden P p t -> ~ seen P p t f.
Proof.
  intros P p t f Hl Hg (k & g & Hk1 & Hk2 & Hk3) [H|(_ & n & Hn & Hi & Hk)]; [destruct (Hl _ H)|].
  apply (introduced_nil _ _ _ _ _ Hg) in Hi. subst n. exact (Hk k g Hk1 (inside_nil k) Hk2 Hk3).
Qed.

Lemma traits_declare : forall P o at_, includes P enum_traits_hpp at_ ->
  declares P [] (token o) (Global o) at_ /\ declares P ns_operators (token o) (Inner o) at_.
Proof.
  intros P o at_ (h & Hh & Hi). split.
  - exists (mkdecl [] (token o) (Global o) h). split; [|cbn; auto].
    apply Hi. unfold enum_traits_hpp. apply in_or_app. right. apply in_map_iff. exists o. split; [reflexivity|].
    destruct o; cbn; auto 16.
  - exists (mkdecl ns_operators (token o) (Inner o) h). split; [|cbn; auto].
    apply Hi. unfold enum_traits_hpp. apply in_or_app. left. apply in_map_iff. exists o. split; [reflexivity|].
    destruct o; cbn; auto 16.
Qed.

Theorem found_unless_hidden : forall P p o e x,
  proper P p -> alone P (operands o e x) -> number x -> settled o e x ->
  includes P enum_traits_hpp (p_at p) ->
  (forall d, In d (decls P) -> d_func d = Global o -> d_ns d = []) ->
  (forall g, ~ In (token o, g) (p_decls p)) ->
  enabled P e o -> ~ by_name P p o e ->
  (resolve P p o (operands o e x) = Chosen (Global o) <-> e_ns e = [] \/ ~ hidden P p (token o)).
Proof.
  intros P p o e x Hp Ha Hx Hw Hinc Hg Hl He Hn. rewrite (proj1 (operator_called P p o e x Hp Ha Hx Hw)).
  destruct (traits_declare P o (p_at p) Hinc) as [Hd _].
  pose proof (seen_global P p (token o) (Global o) Hl Hg Hd) as Hs. unfold by_traits, reached. rewrite Hs. split.
  - intros [[_ [H|H]] _]; [right; exact H|left]. destruct H as (d & Hd1 & <- & _ & Hf & _). exact (Hg d Hd1 Hf).
  - intros [H|H]; (split; [split; [exact He|]|exact Hn]); [right|left; exact H].
    rewrite H. destruct Hd as (d & H1 & H2 & H3 & H4 & H5). exists d. destruct Hp as (_ & _ & Hle).
    repeat split; try assumption. lia.
Qed.

(** binary_rw.hpp hides both shifts in [kl]. *)
Theorem hidden_in_kl : forall P p o e x, (o = Shl \/ o = Shr) ->
  proper P p -> alone P (operands o e x) -> number x -> settled o e x ->
  includes P binary_rw_hpp (p_at p) ->
  (forall d, In d (decls P) -> d_func d = Global o -> d_ns d = []) ->
  (forall g, ~ In (token o, g) (p_decls p)) ->
  inside (p_ns p) ns_kl -> e_ns e <> [] -> ~ by_name P p o e ->
  resolve P p o (operands o e x) = if e_scoped e then Missing else Language.
Proof.
  intros P p o e x Ho Hp Ha Hx Hw (h & Hh & Hinc) Hg Hl Hin He Hn.
  assert (hidden P p (token o)) as Hhid.
  { exists ns_kl. destruct Ho; subst o.
    - exists Put. split; [exact Hin|split; [discriminate|]]. left. exists (mkdecl ns_kl (token Shl) Put h).
      split; [apply Hinc; left; reflexivity|cbn; auto].
    - exists Get. split; [exact Hin|split; [discriminate|]]. left. exists (mkdecl ns_kl (token Shr) Get h).
      split; [apply Hinc; right; left; reflexivity|cbn; auto]. }
  assert (~ by_traits P p o e) as Ht.
  { intros [_ [Hs|(d & Hd & Hns & _ & Hf & _)]].
    - exact (hidden_global P p (token o) (Global o) Hl Hg Hhid Hs).
    - apply He. rewrite <- Hns. exact (Hg d Hd Hf). }
  destruct (operator_called P p o e x Hp Ha Hx Hw) as (_ & _ & _ & HL & HM).
  assert (computes o) as Hc by (destruct Ho; subst o; exact I).
  destruct (e_scoped e) eqn:Es.
  - apply HM. split; [exact Ht|split; [exact Hn|]]. intros [_ H]. congruence.
  - apply HL. auto.
Qed.

(** A using-declaration beside the enum. *)
Theorem using_declaration_beside : forall P p o e x,
  proper P p -> alone P (operands o e x) -> number x -> settled o e x ->
  declares P (e_ns e) (token o) (Global o) (p_known p) -> enabled P e o -> ~ by_name P p o e ->
  resolve P p o (operands o e x) = Chosen (Global o).
Proof.
  intros P p o e x Hp Ha Hx Hw Hd He Hn. apply (proj1 (operator_called P p o e x Hp Ha Hx Hw)).
  split; [split; [exact He|right; exact Hd]|exact Hn].
Qed.

(** ** A using-directive in a block *)

Lemma nearest_operators : forall n k, ~ inside n ns_kl -> nearest n ns_operators k -> k = [].
Proof.
  intros n k Hn (H1 & [z Hz] & _). unfold ns_operators in Hz.
  destruct z as [|a [|b [|c [|d z]]]]; cbn in Hz.
  - subst k. exfalso. apply Hn. destruct H1 as [y ->]. exists (y ++ [3; 2]). rewrite <- app_assoc. reflexivity.
  - injection Hz as _ <-. exfalso. apply Hn. destruct H1 as [y ->]. exists (y ++ [2]). rewrite <- app_assoc. reflexivity.
  - injection Hz as _ _ <-. exfalso. apply Hn. exact H1.
  - injection Hz as _ _ _ <-. reflexivity.
  - discriminate.
Qed.

Lemma nearest_nil_operators : forall n, ~ inside n ns_kl -> nearest n ns_operators [].
Proof.
  intros n Hn. pose proof (meet_nearest n ns_operators) as H. rewrite (nearest_operators n _ Hn H) in H. exact H.
Qed.

Theorem directive_in_block : forall P p o e x,
  proper P p -> alone P (operands o e x) -> number x -> settled o e x ->
  includes P enum_traits_hpp (p_at p) ->
  (forall d, In d (decls P) -> d_func d = Global o -> d_ns d = []) ->
  (forall d, In d (decls P) -> d_func d = Inner o -> d_ns d = ns_operators) ->
  (forall g, ~ In (token o, g) (p_decls p)) ->
  directives P = [] -> p_directives p = [ns_operators] -> ~ inside (p_ns p) ns_kl -> e_ns e <> ns_operators ->
  (hidden P p (token o) -> enabled P e o -> e_ns e = [] -> resolve P p o (operands o e x) = Chosen (Global o)) /\
  (hidden P p (token o) -> ~ (enabled P e o /\ e_ns e = []) ->
     resolve P p o (operands o e x) = Language \/ resolve P p o (operands o e x) = Missing) /\
  (~ hidden P p (token o) -> enabled P e o -> resolve P p o (operands o e x) = Ambiguous) /\
  (~ hidden P p (token o) -> ~ enabled P e o -> resolve P p o (operands o e x) = Chosen (Inner o)).
Proof.
  intros P p o e x Hp Ha Hx Hw Hinc Hg Hi Hl HD Hpd Hkl He.
  destruct (traits_declare P o (p_at p) Hinc) as [Hd1 Hd2].
  pose proof (seen_global P p (token o) (Global o) Hl Hg Hd1) as HsG.
  assert (declares P (e_ns e) (token o) (Global o) (p_known p) <-> e_ns e = []) as HdG.
  { split.
    - intros (d & Hd & <- & _ & Hf & _). exact (Hg d Hd Hf).
    - intros ->. destruct Hd1 as (d & H1 & H2 & H3 & H4 & H5). exists d. destruct Hp as (_ & _ & Hle). repeat split; try assumption. lia. }
  assert (by_name P p o e <-> ~ hidden P p (token o)) as HN.
  { unfold by_name, reached. split.
    - intros [[H|(_ & n & Hn & Hint & Hk)]|(d & Hd & Hns & _ & Hf & _)].
      + destruct (Hl _ H).
      + assert (n = []) as ->.
        { destruct Hint as [(d & Hd & <- & _ & Hf & _)|(m & q & Hm & Hne & (d & Hd & Hq & _ & Hf & _))].
          - exfalso. apply Hkl. rewrite (Hi d Hd Hf) in Hn. apply inside_trans with ns_operators; [exact Hn|]. exists [3; 2]. reflexivity.
          - rewrite (Hi d Hd Hf) in Hq. subst q. destruct Hm as [[-> _]|(u & Hu & _)]; [|rewrite HD in Hu; destruct Hu].
            exact (nearest_operators _ _ Hkl Hne). }
        intros (k & g & Hk1 & Hk2 & Hk3). exact (Hk k g Hk1 (inside_nil k) Hk2 Hk3).
      + exfalso. apply He. rewrite <- Hns. exact (Hi d Hd Hf).
    - intros H. left. right. split; [exact Hl|]. exists []. split; [apply inside_nil|split].
      + right. exists (p_ns p), ns_operators. split; [left; rewrite Hpd; split; [reflexivity|left; reflexivity]|].
        split; [exact (nearest_nil_operators _ Hkl)|exact Hd2].
      + intros k g Hk _ Hne Hin. apply H. exists k, g. auto. }
  assert (by_traits P p o e <-> enabled P e o /\ (~ hidden P p (token o) \/ e_ns e = [])) as HT.
  { unfold by_traits, reached. rewrite HsG, HdG. tauto. }
  destruct (operator_called P p o e x Hp Ha Hx Hw) as (H1 & H2 & H3 & H4 & H5).
  assert (forall r : result, r = Language \/ r = Missing \/ r = Ambiguous \/ exists f, r = Chosen f) as Hr.
  { intros [f| | |]; eauto 6. }
  split; [|split; [|split]].
  - intros Hh Hen Hns. apply H1. tauto.
  - intros Hh Hno.
    assert (~ by_traits P p o e) as Ht by (rewrite HT; tauto).
    assert (~ by_name P p o e) as Hn by (rewrite HN; tauto).
    assert ({computes o} + {~ computes o}) as Dc by (destruct o; cbn; auto).
    destruct Dc as [Dc|Dc]; [|right; apply H5; split; [exact Ht|split; [exact Hn|intros [H _]; exact (Dc H)]]].
    destruct (e_scoped e) eqn:Es.
    + right. apply H5. split; [exact Ht|split; [exact Hn|intros [_ H]; discriminate]].
    + left. apply H4. split; [exact Ht|split; [exact Hn|split; [exact Dc|reflexivity]]].
  - intros Hh Hen. apply H3. tauto.
  - intros Hh Hen. apply H2. tauto.
Qed.

(** ** Shifts by numbers wider than [int] *)

Theorem wide_shift : forall P p o e n, (o = Shl \/ o = Shr) -> e_scoped e = false ->
  proper P p -> alone P (operands o e (Wide n)) ->
  by_traits P p o e \/ by_name P p o e ->
  resolve P p o (operands o e (Wide n)) = Ambiguous.
Proof.
  intros P p o e n Ho He Hp Ha H. destruct (usable_cases P p o e (Wide n) Hp Ha I) as (l & Hl & Hf & Hlen & Hc).
  rewrite (resolve_wide P p o e n l Ho He Hl Hf Hlen).
  destruct Hc as [(-> & H1 & H2)|[(-> & H1 & H2)|[(-> & H1 & H2)|([->| ->] & H1 & H2)]]]; tauto || reflexivity.
Qed.

(** ** Writers and readers *)

Lemma ty_eqb_refl : forall t, ty_eqb t t = true.
Proof. destruct t; cbn; try reflexivity; apply Nat.eqb_refl. Qed.

Lemma rank_refl : forall t, rank t t = Some 0.
Proof. intros t. unfold rank. rewrite ty_eqb_refl. reflexivity. Qed.

Lemma stream_called : forall P p o w f x,
  (o = Shl /\ w = Writer /\ f = Put) \/ (o = Shr /\ w = Reader /\ f = Get) ->
  proper P p -> alone P [w; x] -> traits P w Enable_bitshift <> Some true ->
  includes P binary_rw_hpp (p_known p) ->
  (x <> Int -> resolve P p o [w; x] = Chosen f) /\
  (seen P p (token o) (Inner o) \/ declares P ns_kl (token o) (Inner o) (p_known p) ->
     resolve P p o [w; Int] = Ambiguous \/ x <> Int) /\
  (~ (seen P p (token o) (Inner o) \/ declares P ns_kl (token o) (Inner o) (p_known p)) ->
     resolve P p o [w; Int] = Chosen f \/ x <> Int).
Proof.
  intros P p o w f x Hc Hp Ha Ht (h & Hh & Hinc).
  assert (In f (found P p (token o) [w; x])) as Hfnd.
  { apply found_in. right. exists w, ns_kl.
    destruct Hc as [(-> & -> & ->)|(-> & -> & ->)]; (split; [left; reflexivity|split; [left; reflexivity|]]).
    - exists (mkdecl ns_kl (token Shl) Put h). split; [apply Hinc; left; reflexivity|cbn; auto].
    - exists (mkdecl ns_kl (token Shr) Get h). split; [apply Hinc; right; left; reflexivity|cbn; auto]. }
  assert (forall g, In g (found P p (token o) [w; x]) -> can P [w; x] g = true -> g = f \/ g = Inner o) as Hg.
  { intros g Hin Hcan. pose proof (found_name _ _ _ _ _ Hp Hin) as Hname. unfold can in Hcan.
    destruct (viable P g [w; x]) as [r|] eqn:E; [|discriminate]. clear Hcan.
    destruct g as [o'|o'| | |n].
    - exfalso. assert (trait_of o' = Enable_bitshift /\ exists ps, deduce o' [w; x] = Some ps) as [Hto [ps Hps]].
      { destruct Hc as [(-> & -> & ->)|(-> & -> & ->)]; destruct o'; cbn in Hname; try discriminate; cbn; eauto. }
      cbn in E. rewrite Hto in E. destruct (traits P w Enable_bitshift) as [[]|]; [congruence| |];
        destruct Hc as [(-> & -> & ->)|(-> & -> & ->)]; destruct o'; discriminate.
    - right. f_equal. destruct Hc as [(-> & -> & ->)|(-> & -> & ->)]; destruct o'; cbn in Hname; discriminate || reflexivity.
    - destruct Hc as [(-> & -> & ->)|(-> & -> & ->)]; [left; reflexivity|discriminate].
    - destruct Hc as [(-> & -> & ->)|(-> & -> & ->)]; [discriminate|left; reflexivity].
    - exfalso. cbn [viable] in E. rewrite (Ha n) in E. discriminate. }
  assert (viable P f [w; x] = Some [0; 0]) as Hvf.
  { destruct Hc as [(-> & -> & ->)|(-> & -> & ->)]; cbn; rewrite rank_refl; reflexivity. }
  assert (viable P (Inner o) [w; x] = match rank x Int with Some r => Some [0; r] | None => None end) as Hvi.
  { destruct Hc as [(-> & -> & ->)|(-> & -> & ->)]; cbn; destruct (rank x Int); reflexivity. }
  assert (f <> Inner o) as Hne by (destruct Hc as [(-> & -> & ->)|(-> & -> & ->)]; discriminate).
  assert (is_template f = true) as Tf by (destruct Hc as [(-> & -> & ->)|(-> & -> & ->)]; reflexivity).
  assert (resolve P p o [w; x] =
    match candidates P o (found P p (token o) [w; x]) [w; x] with
    | [] => Missing
    | cs => match best_of [] cs with Some c => of_candidate c | None => Ambiguous end
    end) as Hres by (destruct Hc as [(-> & -> & ->)|(-> & -> & ->)]; reflexivity).
  assert (builtin_ranks [w; x] = None) as Hb by (destruct Hc as [(-> & -> & ->)|(-> & -> & ->)]; reflexivity).
  assert (assigns o = false) as Has by (destruct Hc as [(-> & -> & ->)|(-> & -> & ->)]; reflexivity).
  unfold candidates in Hres. rewrite candidates_filter, Hb, Has in Hres. rewrite app_nil_r in Hres.
  remember (filter (can P [w; x]) (found P p (token o) [w; x])) as l eqn:El.
  assert (NoDup l) as Hnd by (subst l; apply NoDup_filter, dedup_nodup).
  assert (In f l) as Hinf by (subst l; apply filter_In; split; [exact Hfnd|unfold can; rewrite Hvf; reflexivity]).
  assert (forall g, In g l -> g = f \/ g = Inner o) as Hl by (intros g Hin; subst l; apply filter_In in Hin; apply Hg; tauto).
  assert (forall rx, rank x Int = Some rx -> (In (Inner o) l <-> In (Inner o) (found P p (token o) [w; x]))) as Hin.
  { intros rx Hrx. subst l. rewrite filter_In. unfold can. rewrite Hvi, Hrx. tauto. }
  assert (x = Int -> In (Inner o) (found P p (token o) [w; x]) <->
     seen P p (token o) (Inner o) \/ declares P ns_kl (token o) (Inner o) (p_known p)) as Hfi.
  { intros ->. rewrite found_in. split.
    - intros [H|(a & n & [<-|[<-|[]]] & Hn & Hd)]; [left; exact H| |destruct Hn]. right.
      destruct Hc as [(-> & -> & ->)|(-> & -> & ->)]; destruct Hn as [<-|[]]; exact Hd.
    - intros [H|H]; [left; exact H|right]. exists w, ns_kl. split; [left; reflexivity|]. split; [|exact H].
      destruct Hc as [(-> & -> & ->)|(-> & -> & ->)]; left; reflexivity. }
  assert (l = [f] \/ ((l = [f; Inner o] \/ l = [Inner o; f]) /\ In (Inner o) l)) as Hll.
  { destruct (two l f (Inner o) Hnd Hl) as [->|[->|[->|[->| ->]]]]; [destruct Hinf|left; reflexivity| |right; cbn; auto|right; cbn; auto].
    destruct Hinf as [H|[]]. congruence. }
  assert (l = [f] -> resolve P p o [w; x] = Chosen f) as Hone.
  { intros ->. rewrite Hres. cbn [flat_map app]. rewrite Hvf. reflexivity. }
  assert (x <> Int -> (l = [f; Inner o] \/ l = [Inner o; f]) -> In (Inner o) l -> resolve P p o [w; x] = Chosen f) as Htwo.
  { intros Hx Hl2 Hi. assert (exists rx, rank x Int = Some rx /\ 0 < rx) as (rx & Hrx & Hpos).
    { rewrite El in Hi. apply filter_In in Hi. destruct Hi as [_ Hi]. unfold can in Hi. rewrite Hvi in Hi.
      destruct x; cbn in Hi |- *; try discriminate; try congruence; eauto; destruct (e_scoped e); [discriminate|eauto]. }
    rewrite Hrx in Hvi. destruct rx as [|rx]; [lia|].
    rewrite Hres. destruct Hl2 as [->| ->]; cbn [flat_map app]; rewrite Hvf, Hvi; cbn; reflexivity. }
  split; [|split].
  - intros Hx. destruct Hll as [H|[H Hi]]; [exact (Hone H)|exact (Htwo Hx H Hi)].
  - intros H. destruct x; try (right; discriminate). left. apply (Hfi eq_refl) in H. apply (Hin 0 eq_refl) in H.
    destruct Hll as [->|[Hl2 _]]; [destruct H as [H|[]]; congruence|].
    change (viable P (Inner o) [w; Int] = Some [0; 0]) in Hvi.
    rewrite Hres. destruct Hl2 as [->| ->]; cbn [flat_map app]; rewrite Hvf, Hvi; cbn; rewrite ?Tf; reflexivity.
  - intros H. destruct x; try (right; discriminate). left. destruct Hll as [Hl1|[_ Hi]]; [exact (Hone Hl1)|].
    exfalso. apply H. apply (Hfi eq_refl). apply (Hin 0 eq_refl). exact Hi.
Qed.

Theorem writers_beside_operators : forall P p o w f x,
  (o = Shl /\ w = Writer /\ f = Put) \/ (o = Shr /\ w = Reader /\ f = Get) ->
  proper P p -> alone P [w; x] -> traits P w Enable_bitshift <> Some true ->
  includes P binary_rw_hpp (p_known p) ->
  (x <> Int -> resolve P p o [w; x] = Chosen f) /\
  (x = Int ->
    (resolve P p o [w; x] = Ambiguous <-> seen P p (token o) (Inner o) \/ declares P ns_kl (token o) (Inner o) (p_known p)) /\
    (resolve P p o [w; x] = Chosen f <-> ~ (seen P p (token o) (Inner o) \/ declares P ns_kl (token o) (Inner o) (p_known p)))).
Proof.
  intros P p o w f x Hc Hp Ha Ht Hi. destruct (stream_called P p o w f x Hc Hp Ha Ht Hi) as (H1 & H2 & H3).
  split; [exact H1|]. intros ->.
  assert ({In (Inner o) (found P p (token o) [w; Int])} + {~ In (Inner o) (found P p (token o) [w; Int])}) as D.
  { apply in_dec. intros a b. destruct (func_eqb a b) eqn:E; [left; apply func_eqb_spec; exact E|].
    right. intros ->. rewrite (proj2 (func_eqb_spec b b) eq_refl) in E. discriminate. }
  assert (In (Inner o) (found P p (token o) [w; Int]) <->
     seen P p (token o) (Inner o) \/ declares P ns_kl (token o) (Inner o) (p_known p)) as Hfi.
  { rewrite found_in. split.
    - intros [H|(a & n & [<-|[<-|[]]] & Hn & Hd)]; [left; exact H| |destruct Hn]. right.
      destruct Hc as [(-> & -> & ->)|(-> & -> & ->)]; destruct Hn as [<-|[]]; exact Hd.
    - intros [H|H]; [left; exact H|right]. exists w, ns_kl. split; [left; reflexivity|]. split; [|exact H].
      destruct Hc as [(-> & -> & ->)|(-> & -> & ->)]; left; reflexivity. }
  rewrite <- Hfi in *. destruct D as [D|D].
  - destruct (H2 D) as [E|E]; [|congruence]. rewrite E. split; [tauto|]. split; [discriminate|tauto].
  - destruct (H3 D) as [E|E]; [|congruence]. rewrite E. split; [split; [discriminate|tauto]|tauto].
Qed.
