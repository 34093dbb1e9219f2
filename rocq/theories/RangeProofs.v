(** Proofs about limits. *)
From Coq Require Import List NArith ZArith Bool SpecFloat Lia.
From Verif Require Import Base PathModel EnumModel EnumSpec EnumProofs EnumOpsModel SerialModel SerialSpec SerialBaseProofs SerialTypeProofs SerialFieldProofs FloatModel FloatSpec FloatProofs FloatMainProofs RangeModel
  RangeSpec.
Import ListNotations.
Local Open Scope Z_scope.

Lemma wrap_same t z : int_type t -> of_type t z -> wrap t z = z.
Proof. intros Hi. apply wrap_id. unfold int_type in Hi. cbn [In] in Hi. lia. Qed.

Lemma common_int a b : int_type a -> int_type b -> int_type (common a b).
Proof.
  destruct a as [sa na], b as [sb nb]. unfold int_type. cbn [isigned ibits In].
  intros Ha Hb.
  destruct Ha as [<- | [<- | [<- | [<- | []]]]], Hb as [<- | [<- | [<- | [<- | []]]]], sa, sb;
    cbn; auto.
Qed.

(** The common type contains the operands that keep their sign. *)
Lemma common_contains a b z : int_type a -> int_type b -> of_type a z -> keeps_sign a b z ->
  of_type (common a b) z /\ of_type (common b a) z.
Proof.
  destruct a as [sa na], b as [sb nb]. unfold int_type, keeps_sign. cbn [isigned ibits In].
  intros Ha Hb.
  destruct Ha as [<- | [<- | [<- | [<- | []]]]], Hb as [<- | [<- | [<- | [<- | []]]]], sa, sb;
    unfold of_type, common, promote; cbn; intros; lia.
Qed.

Lemma integer_less z w : less (integer z) (integer w) <-> z < w.
Proof.
  unfold integer, less. pose proof (pow_pos2 1074 ltac:(lia)) as P. split; intros H.
  - apply Z.mul_lt_mono_pos_r in H; [exact H | exact P].
  - apply Z.mul_lt_mono_pos_r; [exact P | exact H].
Qed.

Lemma widen_amount b : exists g, convert binary64 (decode binary32 b) = g /\ canon binary64 g /\ amount_of g = amount_of (decode binary32 b).
Proof.
  pose proof (ieee_fits binary64 f64) as [G6 K6]. pose proof (ieee_fits binary32 f32) as [G3 K3].
  pose proof (decode_canon binary32 b G3) as C. destruct (embed _ C) as (g & Cg & Ag & Ng). exists g. split; [|auto].
  apply convert_exact; [split; assumption | exact Cg | | congruence | congruence].
  destruct (decode binary32 b) eqn:E; try exact I. apply (small_exponent _ _ _ _ _ f32 E).
Qed.

(** What a number is converted to has its amount. *)
Lemma converted_flt v n : num_of_type n v -> (n <> NDbl) ->
  match v with VInt z => Z.abs z <= 2 ^ 24 | _ => True end ->
  exists g, convert_to NFlt v = Some (Flo g) /\ canon binary32 g /\ amount_of g = amount_of_num v.
Proof.
  intros Ht Hn Hz. destruct n as [t| |], v; cbn [num_of_type] in Ht; try contradiction; try congruence.
  - destruct (int_exact binary32 z f32) as (g & E & C & _ & A & _). { change (f_prec binary32) with 24. lia. }
    exists g. cbn [convert_to]. rewrite E. auto.
  - exists (decode binary32 bits). split; [reflexivity|]. split; [apply decode_canon; exact (ieee_good _ f32) | reflexivity].
Qed.

Lemma converted_dbl v n : num_of_type n v -> match v with VInt z => Z.abs z <= 2 ^ 53 | _ => True end ->
  exists g, convert_to NDbl v = Some (Flo g) /\ canon binary64 g /\ amount_of g = amount_of_num v.
Proof.
  intros Ht Hz. destruct n as [t| |], v; cbn [num_of_type] in Ht; try contradiction.
  - destruct (int_exact binary64 z f64) as (g & E & C & _ & A & _). { change (f_prec binary64) with 53. lia. }
    exists g. cbn [convert_to]. rewrite E. auto.
  - destruct (widen_amount bits) as (g & E & C & A). exists g. cbn [convert_to]. rewrite E. auto.
  - exists (decode binary64 bits). split; [reflexivity|]. split; [apply decode_canon; exact (ieee_good _ f64) | reflexivity].
Qed.

Lemma lt_mixed_lemma tx x ty y : num_of_type tx x -> num_of_type ty y -> compared_exactly tx x ty y ->
  lt_mixed tx x ty y = true <-> less (amount_of_num x) (amount_of_num y).
Proof.
  intros Hx Hy Hc. pose proof (ieee_fits _ f64) as F6. pose proof (ieee_fits _ f32) as F3. unfold lt_mixed.
  assert (Flt : tx <> NDbl -> ty <> NDbl -> match x with VInt z => Z.abs z <= 2 ^ 24 | _ => True end ->
                match y with VInt z => Z.abs z <= 2 ^ 24 | _ => True end ->
                match convert_to NFlt x, convert_to NFlt y with Some a, Some b => lt_numbers a b | _, _ => false end = true <->
                less (amount_of_num x) (amount_of_num y)).
  { intros Nx Ny Zx Zy. destruct (converted_flt x tx Hx Nx Zx) as (g & -> & C & <-). destruct (converted_flt y ty Hy Ny Zy) as (h & -> & D & <-).
    cbn [lt_numbers]. apply (ltb_lemma binary32); assumption. }
  assert (Dbl : match x with VInt z => Z.abs z <= 2 ^ 53 | _ => True end ->
                match y with VInt z => Z.abs z <= 2 ^ 53 | _ => True end ->
                match convert_to NDbl x, convert_to NDbl y with Some a, Some b => lt_numbers a b | _, _ => false end = true <->
                less (amount_of_num x) (amount_of_num y)).
  { intros Zx Zy. destruct (converted_dbl x tx Hx Zx) as (g & -> & C & <-). destruct (converted_dbl y ty Hy Zy) as (h & -> & D & <-).
    cbn [lt_numbers]. apply (ltb_lemma binary64); assumption. }
  destruct tx as [a| |], x; cbn [num_of_type] in Hx; try contradiction;
    destruct ty as [b| |], y; cbn [num_of_type] in Hy; try contradiction; cbn [common_type compared_exactly] in *.
  - clear Flt Dbl. destruct Hx as [Ia Ta], Hy as [Ib Tb], Hc as [Ka Kb]. cbn [convert_to lt_numbers amount_of_num].
    destruct (common_contains a b z Ia Ib Ta Ka) as [Wz _]. destruct (common_contains b a z0 Ib Ia Tb Kb) as [_ Ww].
    rewrite (wrap_same _ _ (common_int _ _ Ia Ib) Wz), (wrap_same _ _ (common_int _ _ Ia Ib) Ww), integer_less. apply Z.ltb_lt.
  - apply Flt; (discriminate || auto).
  - apply Dbl; auto.
  - apply Flt; (discriminate || auto).
  - apply Flt; (discriminate || auto).
  - apply Dbl; auto.
  - apply Dbl; auto.
  - apply Dbl; auto.
  - apply Dbl; auto.
Qed.

Lemma compared_sym tx x ty y : compared_exactly tx x ty y -> compared_exactly ty y tx x.
Proof. destruct tx, x, ty, y; cbn; tauto. Qed.

Lemma content_typed t v n x : wf t -> typed t v -> content t v n x -> num_of_type n x.
Proof.
  intros Hw Ht C. induction C; cbn [num_of_type]; auto.
Qed.

Lemma below_lemma t v n x l : wf t -> typed t v -> content t v n x -> fair n x l ->
  below t v l = true <-> less (amount_of_num x) (amount_of_num (l_value l)).
Proof.
  intros Hw Ht C [Hl Hc]. pose proof (content_typed t v n x Hw Ht C) as Hn.
  induction C; cbn [below].
  - apply lt_mixed_lemma; assumption.
  - apply lt_mixed_lemma; assumption.
  - apply lt_mixed_lemma; assumption.
  - apply IHC; assumption.
Qed.

Lemma above_lemma t v n x l : wf t -> typed t v -> content t v n x -> fair n x l ->
  above t v l = true <-> less (amount_of_num (l_value l)) (amount_of_num x).
Proof.
  intros Hw Ht C [Hl Hc]. pose proof (content_typed t v n x Hw Ht C) as Hn. apply compared_sym in Hc.
  induction C; cbn [above].
  - apply lt_mixed_lemma; assumption.
  - apply lt_mixed_lemma; assumption.
  - apply lt_mixed_lemma; assumption.
  - apply IHC; assumption.
Qed.

Lemma range_lemma t v n x lo hi : wf t -> typed t v -> content t v n x -> fair n x lo -> fair n x hi ->
  (range t lo hi v = Accept <->
     ~ less (amount_of_num x) (amount_of_num (l_value lo)) /\ ~ less (amount_of_num (l_value hi)) (amount_of_num x)) /\
  (greater_equal t lo v = Accept <-> ~ less (amount_of_num x) (amount_of_num (l_value lo))) /\
  (less_equal t hi v = Accept <-> ~ less (amount_of_num (l_value hi)) (amount_of_num x)).
Proof.
  intros Hw Ht C Hlo Hhi. rewrite <- (below_lemma t v n x lo Hw Ht C Hlo), <- (above_lemma t v n x hi Hw Ht C Hhi).
  unfold range, greater_equal, less_equal. destruct (below t v lo), (above t v hi); cbn; intuition congruence.
Qed.

Lemma empty_lemma t v lo hi : no_content t v ->
  range t lo hi v = Reject /\ greater_equal t lo v = Reject /\ less_equal t hi v = Accept.
Proof.
  intros H. unfold range, greater_equal, less_equal.
  assert (E : below t v lo = true /\ above t v hi = false) by (induction H; cbn; auto). destruct E as [-> ->]. auto.
Qed.

Lemma verdict_lemma t v lo hi : range t lo hi v <> Raise /\ greater_equal t lo v <> Raise /\ less_equal t hi v <> Raise.
Proof. unfold range, greater_equal, less_equal. destruct (below t v lo), (above t v hi); repeat split; discriminate. Qed.

Lemma content_or_none t : numeric t -> forall v, typed t v -> (exists n x, content t v n x) \/ no_content t v.
Proof.
  induction t; cbn [numeric]; intros Hn v Hv; try contradiction; destruct v; cbn [typed] in Hv; try contradiction.
  - left. eexists. eexists. constructor.
  - left. eexists. eexists. constructor.
  - left. eexists. eexists. constructor.
  - right. constructor.
  - destruct (IHt Hn _ Hv) as [(n & x & C) | C]; [left; exists n, x; now constructor | right; now constructor].
Qed.

Lemma read_field_typed be fs ms vs vs' : wf (TRec fs) -> typed (TRec fs) (VRec vs) ->
  deser be (TRec fs) (JObj ms) (VRec vs) = (VRec vs', None) ->
  forall i a t v', nth_error fs i = Some (a, t) -> nth_error vs' i = Some v' -> wf t /\ typed t v'.
Proof.
  intros Hw Ht E i a t v' Hi Hv. split.
  - cbn [wf] in Hw. destruct Hw as [Hw _]. apply all1_Forall in Hw. rewrite Forall_forall in Hw.
    exact (Hw _ (nth_error_In _ _ Hi)).
  - pose proof (proj1 (deser_typed be (TRec fs) Hw (JObj ms) (VRec vs) Ht)) as T. rewrite E in T. cbn [fst typed] in T.
    clear - T Hi Hv. revert vs' i T Hi Hv. induction fs as [|f fs IH]; intros [|w ws] i T Hi Hv; destruct i; try discriminate; cbn [all2] in T; try contradiction.
    + cbn in Hi, Hv. injection Hi as ->. injection Hv as ->. apply T.
    + apply (IH ws i (proj2 T) Hi Hv).
Qed.

Lemma read_in_range_lemma be fs ms vs vs' : wf (TRec fs) -> typed (TRec fs) (VRec vs) ->
  deser be (TRec fs) (JObj ms) (VRec vs) = (VRec vs', None) ->
  forall i a t v v' lo hi, nth_error fs i = Some (a, t) -> nth_error vs i = Some v -> nth_error vs' i = Some v' ->
  ordinary a -> numeric t -> In (range t lo hi) (a_validators a) ->
  (exists j, first_named ms (lookup_names a) j /\ (j <> JNull \/ a_default a = None)) \/
  (Forall (absent ms) (lookup_names a) /\ a_default a = None /\ a_allow_missing a = false) ->
  exists n x, content t v' n x /\
    (fair n x lo -> ~ less (amount_of_num x) (amount_of_num (l_value lo))) /\
    (fair n x hi -> ~ less (amount_of_num (l_value hi)) (amount_of_num x)).
Proof.
  intros Hw Ht E i a t v v' lo hi Hi Hv Hv' Ho Hn Hin Hp.
  pose proof (validators_lemma be fs ms vs vs' Hw Ht E i a t v v' Hi Hv Hv' Ho Hp _ Hin) as Hr.
  destruct (read_field_typed be fs ms vs vs' Hw Ht E i a t v' Hi Hv') as [Wt Tt].
  destruct (content_or_none t Hn v' Tt) as [(n & x & C) | C].
  - exists n, x. split; [exact C|]. unfold range in Hr. split; intros F.
    + rewrite <- (below_lemma t v' n x lo Wt Tt C F). intros B. rewrite B in Hr. discriminate.
    + rewrite <- (above_lemma t v' n x hi Wt Tt C F). intros B. rewrite B, orb_true_r in Hr. discriminate.
  - destruct (empty_lemma t v' lo hi C) as [K _]. congruence.
Qed.
