(** Property C109: validators with limits. *)
From Coq Require Import List NArith ZArith Bool SpecFloat.
From Verif Require Import Base PathModel EnumModel EnumSpec SerialModel SerialSpec SerialSamples FloatModel FloatSpec RangeModel RangeSpec RangeProofs
  RangeSamples.
Import ListNotations.
Local Open Scope Z_scope.

(** C109: a number passes exactly when it is not below the lower and not above the upper limit, whatever
    the types of the number and the limits, when C++ compares them by their amounts. *)
Theorem limits_exact : forall t v n x lo hi, wf t -> typed t v -> content t v n x -> fair n x lo -> fair n x hi ->
  (range t lo hi v = Accept <->
     ~ less (amount_of_num x) (amount_of_num (l_value lo)) /\ ~ less (amount_of_num (l_value hi)) (amount_of_num x)) /\
  (greater_equal t lo v = Accept <-> ~ less (amount_of_num x) (amount_of_num (l_value lo))) /\
  (less_equal t hi v = Accept <-> ~ less (amount_of_num (l_value hi)) (amount_of_num x)).
Proof. exact range_lemma. Qed.
Print Assumptions limits_exact.

(** C109: [<] of C++ on arithmetic types under the same condition. *)
Theorem mixed_comparison_exact : forall tx x ty y, num_of_type tx x -> num_of_type ty y -> compared_exactly tx x ty y ->
  lt_mixed tx x ty y = true <-> less (amount_of_num x) (amount_of_num y).
Proof. exact lt_mixed_lemma. Qed.
Print Assumptions mixed_comparison_exact.

(** C109: an empty optional is refused by lower limits and passes upper ones. *)
Theorem empty_against_limits : forall t v lo hi, no_content t v ->
  range t lo hi v = Reject /\ greater_equal t lo v = Reject /\ less_equal t hi v = Accept.
Proof. exact empty_lemma. Qed.
Print Assumptions empty_against_limits.

(** C109: after a successful read of an object that names the field, the field holds a number within the
    limits. *)
Theorem value_read_in_range : forall be fs ms vs vs', wf (TRec fs) -> typed (TRec fs) (VRec vs) ->
  deser be (TRec fs) (JObj ms) (VRec vs) = (VRec vs', None) ->
  forall i a t v v' lo hi, nth_error fs i = Some (a, t) -> nth_error vs i = Some v -> nth_error vs' i = Some v' ->
  ordinary a -> numeric t -> In (range t lo hi) (a_validators a) ->
  (exists j, first_named ms (lookup_names a) j /\ (j <> JNull \/ a_default a = None)) \/
  (Forall (absent ms) (lookup_names a) /\ a_default a = None /\ a_allow_missing a = false) ->
  exists n x, content t v' n x /\
    (fair n x lo -> ~ less (amount_of_num x) (amount_of_num (l_value lo))) /\
    (fair n x hi -> ~ less (amount_of_num (l_value hi)) (amount_of_num x)).
Proof. exact read_in_range_lemma. Qed.
Print Assumptions value_read_in_range.

(** Without the condition: a number within the limits is refused, because a negative limit is converted to
    an unsigned type. *)
Theorem in_range_passes_refuted : exists t v lo hi, wf t /\ typed t v /\ numeric t /\
  num_of_type (l_type lo) (l_value lo) /\ num_of_type (l_type hi) (l_value hi) /\
  less (amount_of_num (l_value lo)) (amount_of_num v) /\ less (amount_of_num v) (amount_of_num (l_value hi)) /\
  range t lo hi v = Reject.
Proof. exists (TInt u32), (VInt 5), (int_limit (-1)), (int_limit 10). vm_compute. intuition discriminate. Qed.
Print Assumptions in_range_passes_refuted.

(** A number above the limit passes, because it is rounded to the limit. *)
Theorem out_of_range_refused_refuted : exists t v lo hi, wf t /\ typed t v /\ numeric t /\
  num_of_type (l_type lo) (l_value lo) /\ num_of_type (l_type hi) (l_value hi) /\
  less (amount_of_num (l_value hi)) (amount_of_num v) /\ range t lo hi v = Accept.
Proof.
  exists (TInt i64), (VInt (2 ^ 53 + 1)), (int_limit 0), (dbl_limit 0x4340000000000000). vm_compute. intuition discriminate.
Qed.
Print Assumptions out_of_range_refused_refuted.

(** NaN passes all of them. *)
Theorem nan_refused_refuted : exists v, amount_of_num v = NotANumber /\ typed TDouble v /\
  forall z, num_of_type (NInt i32) (VInt z) -> range TDouble (int_limit z) (int_limit z) v = Accept.
Proof.
  exists (VDbl 0x7FF8000000000000). split; [vm_compute; reflexivity|]. split; [vm_compute; reflexivity|]. intros z _.
  unfold range, below, above, int_limit, lt_mixed. cbn [l_type l_value common_type convert_to lt_numbers].
  replace (decode binary64 0x7FF8000000000000) with S754_nan by (vm_compute; reflexivity).
  destruct (from_int binary64 z); reflexivity.
Qed.
Print Assumptions nan_refused_refuted.

Example limits_of_mixer : forall be,
  range level_ty (int_limit 0) (int_limit 10) (VInt 10) = Accept /\ range level_ty (int_limit 0) (int_limit 10) (VInt 11) = Reject /\
  fair (NInt (mkity false 8)) (VInt 10) (int_limit (-1)) /\
  greater_equal gain_ty (dbl_limit double_half) (VSome (VFlt float_quarter)) = Reject /\
  greater_equal gain_ty (dbl_limit double_half) (VSome (VFlt float_three_quarters)) = Accept /\
  fair NFlt (VFlt float_quarter) (dbl_limit double_half) /\ less (amount_of_num (VFlt float_quarter)) (amount_of_num (VDbl double_half)) /\
  wf mixer_ty /\
  snd (deser be mixer_ty (JObj [([108%N], enc_int be 7)]) (VRec [VInt 0; VNone])) <> None.
Proof.
  intros be.
  split; [vm_compute; reflexivity|]. split; [vm_compute; reflexivity|]. split.
  { split; [split; [right; right; left; reflexivity | split; vm_compute; discriminate]|]. split; intros _; [left; reflexivity | right; left; cbn; repeat constructor]. }
  split; [vm_compute; reflexivity|]. split; [vm_compute; reflexivity|].
  split; [split; exact I|]. split; [vm_compute; reflexivity|]. split.
  - cbn. unfold field_ok. vm_compute. repeat (constructor || intros [|] || intro || discriminate || intuition discriminate).
  - destruct be; vm_compute; discriminate.
Qed.
