(** Instantiation of the templates of kl. *)
From Coq Require Import String List Arith NArith Bool Lia.
From Verif Require Import TmplModel TmplSpec.
Import ListNotations.
Local Open Scope string_scope.
Local Open Scope list_scope.

Definition Ev W en e r := exists k, forall f, k <= f -> ev W f en e = Some r.
Definition Evs W en es r := exists k, forall f, k <= f -> evs W f en es = Some r.
Definition Insts W n args c := exists k, forall f, k <= f -> inst W f n args = Some c.
Definition Ths W en ms c := exists k, forall f, k <= f -> things W f en ms = Some c.

(** * Rules *)

Ltac step k := exists (S k); intros [|f] Hf; [lia|].

Lemma Ev_T : forall W en t r, subst en t = Some r -> Ev W en (T t) r.
Proof. intros W en t r H. step 0. exact H. Qed.

Lemma Ev_Of : forall W en n t args vs c m u, single (subst en n) = Some (Tm t) -> Evs W en args vs -> Insts W t vs c ->
  lookup m c = Some (Is u) -> Ev W en (Of n args m) [u].
Proof.
  intros W en n t args vs c m u Hn (k1 & H1) (k2 & H2) L. step (Nat.max k1 k2). cbn [ev].
  rewrite Hn, H1, H2, L by lia. reflexivity.
Qed.

Lemma Ev_Pred : forall W en a k, Ev W en a [Num k] -> Ev W en (Pred a) [Num (k - 1)].
Proof. intros W en a k (k1 & H1). step k1. cbn [ev]. rewrite H1 by lia. reflexivity. Qed.

Lemma Ev_Succ : forall W en a k, Ev W en a [Num k] -> Ev W en (Succ a) [Num (1 + k)].
Proof. intros W en a k (k1 & H1). step k1. cbn [ev]. rewrite H1 by lia. reflexivity. Qed.

Lemma Ev_Size : forall W en x l, lookup x en = Some l -> Ev W en (Size x) [Num (N.of_nat (length l))].
Proof. intros W en x l H. step 0. cbn [ev]. rewrite H. reflexivity. Qed.

Lemma Ev_Less : forall W en a b j k, Ev W en a [Num j] -> Ev W en b [Num k] -> Ev W en (Less a b) [number (N.ltb j k)].
Proof. intros W en a b j k (k1 & H1) (k2 & H2). step (Nat.max k1 k2). cbn [ev]. rewrite H1, H2 by lia. reflexivity. Qed.

Lemma Ev_Both : forall W en a b j k, Ev W en a [Num j] -> Ev W en b [Num k] ->
  Ev W en (Both a b) [number (negb (N.eqb j 0) && negb (N.eqb k 0))].
Proof. intros W en a b j k (k1 & H1) (k2 & H2). step (Nat.max k1 k2). cbn [ev]. rewrite H1, H2 by lia. reflexivity. Qed.

Lemma Ev_CallOp : forall W en a t d s, Ev W en a [t] -> is_class (no_cv t) = true -> w_call W (no_cv t) = Some (d, s) ->
  Ev W en (CallOp a) [MemPtr d s].
Proof. intros W en a t d s (k1 & H1) C L. step k1. cbn [ev]. rewrite H1 by lia. cbn [single]. rewrite C, L. reflexivity. Qed.

Lemma Evs_nil : forall W en, Evs W en [] [].
Proof. intros W en. step 0. reflexivity. Qed.

Lemma Evs_cons : forall W en e es us vs, Ev W en e us -> Evs W en es vs -> Evs W en (e :: es) (us ++ vs).
Proof. intros W en e es us vs (k1 & H1) (k2 & H2). step (Nat.max k1 k2). cbn [evs]. rewrite H1, H2 by lia. reflexivity. Qed.

Lemma Ths_nil : forall W en, Ths W en [] [].
Proof. intros W en. step 0. reflexivity. Qed.

Lemma Ths_type : forall W en x e ms u rest, Ev W en e [u] -> Ths W en ms rest -> Ths W en ((x, Alias e) :: ms) ((x, Is u) :: rest).
Proof. intros W en x e ms u rest (k1 & H1) (k2 & H2). step (Nat.max k1 k2). cbn [things]. rewrite H1, H2 by lia. reflexivity. Qed.

Lemma Ths_nested : forall W en x p m e ms rest, Ths W en ms rest ->
  Ths W en ((x, Nested p m e) :: ms) ((x, Inner en p m e) :: rest).
Proof. intros W en x p m e ms rest (k1 & H1). step k1. cbn [things]. rewrite H1 by lia. reflexivity. Qed.

Lemma Insts_plain : forall W n args t c en vs own, lookup n kl_templates = Some t -> choose t args = Some (c, en) ->
  Evs W en (c_asserts c) vs -> existsb (ty_eqb (Num 0)) vs = false -> c_base c = None -> Ths W en (c_members c) own ->
  Insts W n args own.
Proof.
  intros W n args t c en vs own L C (k1 & H1) A B (k2 & H2). step (Nat.max k1 k2). cbn [inst].
  rewrite L, C, H1 by lia. rewrite A, B, H2 by lia. rewrite app_nil_r. reflexivity.
Qed.

Lemma Insts_base : forall W n args t c en vs b bargs ws inh own, lookup n kl_templates = Some t -> choose t args = Some (c, en) ->
  Evs W en (c_asserts c) vs -> existsb (ty_eqb (Num 0)) vs = false -> c_base c = Some (Tm b, bargs) ->
  Evs W en bargs ws -> Insts W b ws inh -> Ths W en (c_members c) own ->
  Insts W n args (own ++ inh).
Proof.
  intros W n args t c en vs b bargs ws inh own L C (k1 & H1) A B (k3 & H3) (k4 & H4) (k2 & H2).
  step (Nat.max (Nat.max k1 k2) (Nat.max k3 k4)). cbn [inst].
  rewrite L, C, H1 by lia. rewrite A, B, H3, H4, H2 by lia. reflexivity.
Qed.

Lemma Insts_std : forall W n args c, lookup n kl_templates = None -> String.eqb n "std::conjunction" = false ->
  std_class n args = Some c -> Insts W n args c.
Proof. intros W n args c L N E. step 0. cbn [inst]. rewrite L, N, E. reflexivity. Qed.

Lemma Insts_unique : forall W n args c d, Insts W n args c -> Insts W n args d -> c = d.
Proof.
  intros W n args c d (k1 & H1) (k2 & H2). specialize (H1 (Nat.max k1 k2) ltac:(lia)). specialize (H2 (Nat.max k1 k2) ltac:(lia)). congruence.
Qed.

Lemma member_insts : forall W n args c m t, Insts W n args c -> lookup m c = Some (Is t) -> has_member W n args m t.
Proof. intros W n args c m t (k & H) L. exists k. intros f Hf. unfold member_of. rewrite H, L by lia. reflexivity. Qed.

Lemma insts_ill : forall W n args, ill_formed W n args -> forall m, no_member W n args m.
Proof. intros W n args H m f. unfold member_of. rewrite H. reflexivity. Qed.

(** The value of a predicate. *)
Lemma Ev_member : forall W en n t args vs m u, single (subst en n) = Some (Tm t) -> Evs W en args vs -> has_member W t vs m u ->
  Ev W en (Of n args m) [u].
Proof.
  intros W en n t args vs m u Hn (k1 & H1) (k2 & H2). step (Nat.max k1 k2). cbn [ev].
  rewrite Hn, H1 by lia. specialize (H2 f ltac:(lia)). unfold member_of in H2.
  destruct (inst W f t vs) as [c|]; [|discriminate]. destruct (lookup m c) as [[u'|]|]; [|discriminate|discriminate].
  injection H2 as ->. reflexivity.
Qed.

Definition prim (t : template) : class := match t_primary t with Some c => c | None => mkclass [] [] None [] end.

(** * filter *)

Lemma choose_nil : forall P, choose filter_t [Tm P] = Some (nth 0 (t_special filter_t) (mkclass [] [] None []), [("Predicate", [Tm P])]).
Proof. intros P. reflexivity. Qed.

Definition is_packed (t : ty) : bool := match t with App n _ => String.eqb n "type_pack" | _ => false end.

Lemma is_packed_spec : forall h, is_packed h = true -> exists us, h = pack us.
Proof. intros [| | | | | | | | | | | |] H; try discriminate. apply String.eqb_eq in H. subst. eexists. reflexivity. Qed.

Lemma not_packed : forall h ps en, is_packed h = false -> deduce (App "type_pack" ps) h en = None.
Proof.
  intros [n|n us|? ? ?|?|?|?|? ?|? ? ?|?|? ? ?|?|?|?] ps en H; try reflexivity.
  cbn [deduce]. change (String.eqb n "type_pack" = false) in H. rewrite String.eqb_sym, H. reflexivity.
Qed.

Lemma choose_cons : forall P h ts, argument h -> (is_packed h = false \/ ts <> []) ->
  choose filter_t (Tm P :: h :: ts)
  = Some (nth 1 (t_special filter_t) (mkclass [] [] None []), [("Tail", ts); ("Head", [h]); ("Predicate", [Tm P])]).
Proof.
  intros P h ts A Cs.
  assert (Third : deduce_list [Var "Predicate"; App "type_pack" [Pack "List"]] (Tm P :: h :: ts) [] = None).
  { cbn [deduce_list]. change (deduce (Var "Predicate") (Tm P) []) with (Some [("Predicate", [Tm P])]). cbv iota beta.
    destruct (is_packed h) eqn:E; [|rewrite (not_packed h _ _ E); reflexivity].
    destruct (is_packed_spec _ E) as (us & ->). destruct Cs as [Cs|Cs]; [discriminate|]. destruct ts; [contradiction | reflexivity]. }
  unfold choose, filter_t, matching. cbn [t_params t_special flat_map c_args]. rewrite Third.
  cbn [deduce_list deduce is_pack bind_to lookup String.eqb Ascii.eqb Bool.eqb]. rewrite A. reflexivity.
Qed.

Lemma choose_pack : forall P us,
  choose filter_t [Tm P; pack us]
  = Some (nth 2 (t_special filter_t) (mkclass [] [] None []), [("List", us); ("Predicate", [Tm P])]).
Proof. intros P us. reflexivity. Qed.

Definition packed (ts : list ty) : instance := [("type", Is (pack ts))].

Lemma filter_nil : forall W P, Insts W "filter" [Tm P] (packed []).
Proof.
  intros W P. eapply Insts_plain; [reflexivity | apply choose_nil | apply Evs_nil | reflexivity | reflexivity |].
  apply Ths_type; [apply Ev_T; reflexivity | apply Ths_nil].
Qed.

Lemma push_front_insts : forall W h us, argument h -> Insts W "push_front" [h; pack us] (packed (h :: us)).
Proof.
  intros W h us A. eapply Insts_plain with (c := nth 0 (t_special push_front_t) (mkclass [] [] None []));
    [reflexivity | | apply Evs_nil | reflexivity | reflexivity |].
  - unfold choose, push_front_t, matching. cbn [t_params t_special flat_map c_args deduce_list deduce]. rewrite A. reflexivity.
  - apply Ths_type; [apply Ev_T; cbn; rewrite app_nil_r; reflexivity | apply Ths_nil].
Qed.

Lemma filter_cons : forall W P p h ts us, decides W P p -> argument h -> (is_packed h = false \/ ts <> []) ->
  Insts W "filter" (Tm P :: ts) (packed us) ->
  Insts W "filter" (Tm P :: h :: ts) (packed (if p h then h :: us else us)).
Proof.
  intros W P p h ts us D A Cs H.
  eapply Insts_plain; [reflexivity | apply choose_cons; assumption | apply Evs_nil | reflexivity | reflexivity |].
  apply Ths_type; [|apply Ths_nil].
  assert (Et : forall l, Evs W [("Tail", ts); ("Head", [h]); ("Predicate", [Tm P])] [T (Var "Predicate"); T (Pack "Tail")] l <-> l = Tm P :: ts).
  { intros l. assert (E : Evs W [("Tail", ts); ("Head", [h]); ("Predicate", [Tm P])] [T (Var "Predicate"); T (Pack "Tail")] (Tm P :: ts)).
    { change (Tm P :: ts) with ([Tm P] ++ ts). rewrite <- (app_nil_r ts) at 2. apply Evs_cons; [apply Ev_T; reflexivity|].
      apply Evs_cons; [apply Ev_T; reflexivity | apply Evs_nil]. }
    split; [|intros ->; exact E]. intros (k2 & H2). destruct E as (k1 & H1). specialize (H1 (Nat.max k1 k2) ltac:(lia)).
    specialize (H2 (Nat.max k1 k2) ltac:(lia)). congruence. }
  assert (Ef : Ev W [("Tail", ts); ("Head", [h]); ("Predicate", [Tm P])] (Of (Tm "filter") [T (Var "Predicate"); T (Pack "Tail")] "type") [pack us]).
  { eapply Ev_Of; [reflexivity | apply Et; reflexivity | exact H | reflexivity]. }
  eapply Ev_Of; [reflexivity | | | ].
  - apply Evs_cons; [|apply Evs_cons; [|apply Evs_cons; [exact Ef | apply Evs_nil]]].
    + eapply Ev_member; [reflexivity | apply Evs_cons; [apply Ev_T; reflexivity | apply Evs_nil] | apply D; exact A].
    + eapply Ev_Of; [reflexivity | apply Evs_cons; [apply Ev_T; reflexivity | apply Evs_cons; [exact Ef | apply Evs_nil]]
        | apply push_front_insts; exact A | reflexivity].
  - apply Insts_std; reflexivity.
  - cbn [app]. destruct (p h); reflexivity.
Qed.

Lemma filter_pack_one : forall W P us r, Insts W "filter" (Tm P :: us) r -> lookup "type" r = Some (Is (match lookup "type" r with Some (Is t) => t | _ => Num 0 end)) ->
  Insts W "filter" [Tm P; pack us] [("type", Is (match lookup "type" r with Some (Is t) => t | _ => Num 0 end))].
Proof.
  intros W P us r H L. eapply Insts_plain; [reflexivity | apply choose_pack | apply Evs_nil | reflexivity | reflexivity |].
  apply Ths_type; [|apply Ths_nil]. eapply Ev_Of; [reflexivity | | exact H | exact L].
  change (Tm P :: us) with ([Tm P] ++ us). rewrite <- (app_nil_r us) at 2. apply Evs_cons; [apply Ev_T; reflexivity|].
  apply Evs_cons; [apply Ev_T; reflexivity | apply Evs_nil].
Qed.

Lemma arguments_app : forall ts us, arguments (ts ++ us) -> arguments ts /\ arguments us.
Proof.
  induction ts as [|t ts IH]; intros us H; [split; [constructor | exact H]|].
  inversion H as [|? ? A P R]; subst. destruct (IH _ R) as [B C]. split; [constructor; assumption | exact C].
Qed.

Lemma filter_none : forall W P p, decides W P p -> forall ts, arguments ts -> (forall us ts', ts <> (ts' ++ [pack us])) ->
  Insts W "filter" (Tm P :: ts) (packed (filter p ts)).
Proof.
  intros W P p D. induction ts as [|h ts IH]; intros A N; [apply filter_nil|].
  inversion A as [|? ? A1 _ A2]; subst.
  assert (Nt : forall us ts', ts <> (ts' ++ [pack us])) by (intros us ts' ->; exact (N us (h :: ts') eq_refl)).
  change (filter p (h :: ts)) with (if p h then h :: filter p ts else filter p ts).
  apply filter_cons; [exact D | exact A1 | | exact (IH A2 Nt)].
  destruct ts as [|t2 ts]; [|right; discriminate]. left. destruct (is_packed h) eqn:E; [|reflexivity].
  destruct (is_packed_spec _ E) as (us & ->). exfalso. exact (N us [] eq_refl).
Qed.

Lemma filter_spreads : forall W P p, decides W P p -> forall ts ws, spreads ts ws -> arguments ts ->
  Insts W "filter" (Tm P :: ts) (packed (filter p ws)).
Proof.
  intros W P p D ts ws H. induction H as [ts N | ts us vs H IH]; intros A; [apply (filter_none W P p D); assumption|].
  destruct (arguments_app _ _ A) as [At Au]. inversion Au as [|? ? _ Ap _]; subst. specialize (IH (Ap us eq_refl)).
  clear A Au Ap. induction ts as [|h ts IHt]; cbn [app].
  - exact (filter_pack_one W P us _ IH eq_refl).
  - inversion At as [|? ? A1 _ A2]; subst.
    change (filter p (h :: ts ++ vs)) with (if p h then h :: filter p (ts ++ vs) else filter p (ts ++ vs)).
    apply filter_cons; [exact D | exact A1 | right; destruct ts; discriminate | exact (IHt A2)].
Qed.

Fixpoint ty_size (t : ty) : nat :=
  match t with App _ ts => S (fold_right (fun t n => ty_size t + n) 0 ts) | _ => 1 end.
Definition tys_size (ts : list ty) : nat := fold_right (fun t n => ty_size t + n) 0 ts.

Lemma tys_size_app : forall a b, tys_size (a ++ b) = tys_size a + tys_size b.
Proof. induction a as [|t a IH]; intros b; [reflexivity|]. cbn [app]. change (tys_size (t :: a ++ b)) with (ty_size t + tys_size (a ++ b)). rewrite IH. change (tys_size (t :: a)) with (ty_size t + tys_size a). lia. Qed.

Lemma spreads_total : forall ts, exists ws, spreads ts ws.
Proof.
  intros ts. remember (tys_size ts) as n eqn:En. revert ts En. induction n as [n IH] using lt_wf_ind. intros ts ->.
  destruct ts as [|t0 ts0]; [exists []; apply spreads_none; intros us ts' H; destruct ts'; discriminate|].
  destruct (exists_last (l := t0 :: ts0) ltac:(discriminate)) as (ts' & l & El).
  assert (Sz : tys_size (t0 :: ts0) = tys_size ts' + tys_size [l]) by (rewrite El; apply tys_size_app).
  rewrite El. destruct (is_packed l) eqn:P.
  - destruct (is_packed_spec _ P) as (us & ->).
    destruct (IH (tys_size us)) with (ts := us) as (ws & Hw); [|reflexivity|].
    + rewrite Sz. unfold tys_size at 3. cbn [fold_right pack ty_size]. fold (tys_size us). lia.
    + exists (ts' ++ ws). apply spreads_last, Hw.
  - exists (ts' ++ [l]). apply spreads_none. intros us ts2 H. apply app_inj_tail in H. destruct H as [_ ->]. discriminate.
Qed.

Lemma filter_type : forall W P p ts ws, decides W P p -> spreads ts ws -> arguments ts ->
  has_member W "filter" (Tm P :: ts) "type" (pack (filter p ws)).
Proof. intros W P p ts ws D H A. eapply member_insts; [apply (filter_spreads W P p D); eassumption | reflexivity]. Qed.

(** * at_type *)

Lemma choose_at : forall k h ts, argument h -> k <> 0%N ->
  exists c, t_primary at_type_t = Some c /\
  choose at_type_t (Num k :: h :: ts) = Some (c, [("Tail", ts); ("Head", [h]); ("N", [Num k])]).
Proof.
  intros k h ts A K. eexists. split; [reflexivity|].
  unfold choose, at_type_t, matching. cbn [t_params t_special t_primary flat_map c_args].
  cbn [deduce_list deduce is_pack bind_to lookup String.eqb Ascii.eqb Bool.eqb]. rewrite A.
  destruct k as [|k]; [contradiction|]. reflexivity.
Qed.

Lemma choose_at_0 : forall h ts, argument h ->
  choose at_type_t (Num 0 :: h :: ts) = Some (nth 0 (t_special at_type_t) (mkclass [] [] None []), [("Tail", ts); ("Head", [h])]).
Proof.
  intros h ts A. unfold choose, at_type_t, matching. cbn [t_params t_special t_primary flat_map c_args].
  cbn [deduce_list deduce is_pack bind_to lookup String.eqb Ascii.eqb Bool.eqb N.eqb]. rewrite A. reflexivity.
Qed.

Lemma at_insts : forall W ts k t, Forall argument ts -> nth_error ts k = Some t ->
  Insts W "at_type" (Num (N.of_nat k) :: ts) [("type", Is t)].
Proof.
  intros W. induction ts as [|h ts IH]; intros k t A H; [destruct k; discriminate|]. inversion A as [|? ? A1 A2]; subst.
  destruct k as [|k].
  - injection H as ->. change (N.of_nat 0) with 0%N. eapply Insts_plain; [reflexivity | apply choose_at_0; exact A1 | apply Evs_nil | reflexivity | reflexivity |].
    apply Ths_type; [apply Ev_T; reflexivity | apply Ths_nil].
  - destruct (choose_at (N.of_nat (S k)) h ts A1 ltac:(lia)) as (c & Pc & C). injection Pc as <-.
    assert (Lt : N.ltb (N.of_nat (S k)) (1 + N.of_nat (length ts)) = true).
    { apply N.ltb_lt. assert (k < length ts) by (apply nth_error_Some; cbn in H; rewrite H; discriminate). lia. }
    eapply Insts_plain; [reflexivity | exact C | | | reflexivity |].
    + cbn [c_asserts]. apply Evs_cons; [|apply Evs_nil]. apply Ev_Less; [apply Ev_T; reflexivity|]. apply Ev_Succ. apply Ev_Size. reflexivity.
    + cbn [app existsb]. rewrite Lt. reflexivity.
    + apply Ths_type; [|apply Ths_nil]. eapply Ev_Of; [reflexivity | | apply (IH k t A2 H) | reflexivity].
      replace (N.of_nat k) with (N.of_nat (S k) - 1)%N by lia.
      change (Num (N.of_nat (S k) - 1) :: ts) with ([Num (N.of_nat (S k) - 1)] ++ ts). rewrite <- (app_nil_r ts) at 2.
      apply Evs_cons; [apply Ev_Pred; apply Ev_T; reflexivity|]. apply Evs_cons; [apply Ev_T; reflexivity | apply Evs_nil].
Qed.

Lemma at_ill : forall W ts k, (N.of_nat (length ts) <= k)%N -> ill_formed W "at_type" (Num k :: ts).
Proof.
  intros W ts k L f. destruct f as [|f]; [reflexivity|]. cbn [inst].
  change (lookup "at_type" kl_templates) with (Some at_type_t). cbv iota beta.
  destruct ts as [|h ts]; [reflexivity|].
  destruct (is_pack h) eqn:A.
  { unfold choose, at_type_t. cbn [t_params deduce_list deduce is_pack bind_to lookup String.eqb Ascii.eqb Bool.eqb]. rewrite A. reflexivity. }
  destruct (choose_at k h ts A ltac:(cbn [length] in L; lia)) as (c & Pc & C). injection Pc as <-. rewrite C. cbn [c_asserts].
  assert (B : N.ltb k (1 + N.of_nat (length ts)) = false) by (apply N.ltb_ge; cbn [length] in L; lia).
  destruct f as [|f]; [reflexivity|]. destruct f as [|f]; [reflexivity|]. destruct f as [|f]; [reflexivity|].
  destruct f as [|f]; [reflexivity|].
  cbn [evs ev subst lookup String.eqb Ascii.eqb Bool.eqb single app length N.of_nat]. rewrite B. reflexivity.
Qed.

Lemma at_type_exact : forall W ts k t, Forall argument ts ->
  (nth_error ts (N.to_nat k) = Some t <-> has_member W "at_type" (Num k :: ts) "type" t).
Proof.
  intros W ts k t A. split.
  - intros H. rewrite <- (N2Nat.id k). eapply member_insts; [apply at_insts; eassumption | reflexivity].
  - intros (b & H). destruct (N.ltb_spec k (N.of_nat (length ts))) as [L|L].
    + destruct (nth_error ts (N.to_nat k)) as [u|] eqn:E; [|apply nth_error_None in E; lia].
      pose proof (at_insts W ts (N.to_nat k) u A E) as I. rewrite N2Nat.id in I.
      destruct (member_insts W _ _ _ "type" u I eq_refl) as (b2 & H2).
      specialize (H (Nat.max b b2) ltac:(lia)). specialize (H2 (Nat.max b b2) ltac:(lia)). congruence.
    + specialize (H b (le_n b)). rewrite (insts_ill _ _ _ (at_ill W ts k L) "type" b) in H. discriminate.
Qed.

(** * type_pack *)

Definition extract_member (ts : list ty) : thing :=
  Inner [("Ts", ts)] "N" "type" (Of (Tm "at_type") [T (Var "N"); T (Pack "Ts")] "type").

Lemma type_pack_insts : forall W ts,
  Insts W "type_pack" ts [("extract", extract_member ts); ("value", Is (Num (N.of_nat (length ts))))].
Proof.
  intros W ts. change [("extract", extract_member ts); ("value", Is (Num (N.of_nat (length ts))))]
    with ([("extract", extract_member ts)] ++ [("value", Is (Num (N.of_nat (length ts))))]).
  eapply Insts_base with (c := prim type_pack_t) (en := [("Ts", ts)]) (vs := []); [reflexivity | | apply Evs_nil | reflexivity | reflexivity | | |].
  - unfold choose, type_pack_t, matching. cbn [t_params t_special t_primary flat_map c_args deduce_list bind_to lookup]. reflexivity.
  - apply Evs_cons; [apply Ev_Size; reflexivity | apply Evs_nil].
  - apply Insts_std; reflexivity.
  - apply Ths_nested, Ths_nil.
Qed.

(** The nested template of a pack of arguments. *)
Lemma nested_at : forall W n args c m x en ts k t, Insts W n args c -> lookup x en = Some ts ->
  lookup m c = Some (Inner en "N" "type" (Of (Tm "at_type") [T (Var "N"); T (Pack x)] "type")) -> x <> "N" ->
  Forall argument ts -> nth_error ts (N.to_nat k) = Some t -> has_nested W n args m k t.
Proof.
  intros W n args c m x en ts k t (b1 & H1) Xt L Nx A E.
  pose proof (at_insts W ts (N.to_nat k) t A E) as I. rewrite N2Nat.id in I.
  assert (Xx : lookup x (("N", [Num k]) :: en) = Some ts).
  { cbn [lookup]. destruct (String.eqb_spec x "N") as [->|_]; [contradiction | exact Xt]. }
  assert (V : Ev W (("N", [Num k]) :: en) (Of (Tm "at_type") [T (Var "N"); T (Pack x)] "type") [t]).
  { eapply Ev_Of; [reflexivity | | exact I | reflexivity].
    replace (Num k :: ts) with ([Num k] ++ (ts ++ [])) by (rewrite app_nil_r; reflexivity).
    apply Evs_cons; [apply Ev_T; reflexivity|]. apply Evs_cons; [apply Ev_T; exact Xx | apply Evs_nil]. }
  destruct V as (b2 & V). exists (Nat.max b1 b2). intros f Hf. unfold nested_of. rewrite H1, L by lia.
  change (String.eqb "type" "type") with true. cbv iota. rewrite V by lia. reflexivity.
Qed.

(** With little fuel, [None] can only become [Some] of the same. *)
Lemma nested_at_none : forall W n args c m x en ts k, (forall f d, inst W f n args = Some d -> d = c) -> lookup x en = Some ts ->
  lookup m c = Some (Inner en "N" "type" (Of (Tm "at_type") [T (Var "N"); T (Pack x)] "type")) -> x <> "N" ->
  (N.of_nat (length ts) <= k)%N -> no_nested W n args m k.
Proof.
  intros W n args c m x en ts k U Xt L Nx Le f. unfold nested_of. destruct (inst W f n args) as [d|] eqn:I; [|reflexivity].
  rewrite (U f d I), L. change (String.eqb "type" "type") with true. cbv iota.
  assert (Xx : lookup x (("N", [Num k]) :: en) = Some ts).
  { cbn [lookup]. destruct (String.eqb_spec x "N") as [->|_]; [contradiction | exact Xt]. }
  destruct f as [|f]; [reflexivity|]. cbn [ev subst single].
  destruct (evs W f (("N", [Num k]) :: en) [T (Var "N"); T (Pack x)]) as [vs|] eqn:V; [|reflexivity].
  assert (Ev2 : vs = Num k :: ts).
  { destruct f as [|[|[|f]]]; try discriminate V; cbn [evs ev] in V;
      change (subst (("N", [Num k]) :: en) (Var "N")) with (Some [Num k]) in V;
      change (subst (("N", [Num k]) :: en) (Pack x)) with (lookup x (("N", [Num k]) :: en)) in V; rewrite Xx in V;
      cbv iota beta in V; rewrite app_nil_r in V; injection V as <-; reflexivity. }
  rewrite Ev2, (at_ill W ts k Le). reflexivity.
Qed.
