(** C177: enums without a fixed underlying type. *)
From Coq Require Import List ZArith Bool Lia.
From Verif Require Import Base EnumModel EnumOpsModel UnfModel UnfSpec UnfSamples UnfProofs.
Import ListNotations.
Local Open Scope Z_scope.

(** A cast is defined exactly for the values of the enum, and keeps the number. *)
Theorem unfixed_cast : forall es z,
  (value es z -> cast es z = Ok z) /\ (~ value es z -> cast es z = UB) /\ (In z es -> value es z).
Proof. exact (fun es z => conj (cast_ok es z) (conj (cast_ub es z) (enumerator_value es z))). Qed.
Print Assumptions unfixed_cast.

(** [|], [&], [^] and the questions asked with them are always defined. *)
Theorem unfixed_bit_operators : forall es a b, value es a -> value es b ->
  (u_or es a b = Ok (Z.lor a b) /\ value es (Z.lor a b)) /\ (u_and es a b = Ok (Z.land a b) /\ value es (Z.land a b)) /\
  (u_xor es a b = Ok (Z.lxor a b) /\ value es (Z.lxor a b)) /\
  (exists x, u_has_any es a b = Ok x /\ (x = true <-> exists i, 0 <= i /\ Z.testbit a i = true /\ Z.testbit b i = true)) /\
  (exists x, u_has_all es a b = Ok x /\ (x = true <-> forall i, 0 <= i -> Z.testbit b i = true -> Z.testbit a i = true)).
Proof. exact bit_operators. Qed.
Print Assumptions unfixed_bit_operators.

(** [~] is defined only with a negative enumerator or one that uses the highest bit of an unsigned type; then for all values. *)
Theorem unfixed_complement : forall es t a, underlying es t -> value es a ->
  (exists r, u_not t es a = Ok r) <-> signed_ es \/ full es t.
Proof. exact complement. Qed.
Print Assumptions unfixed_complement.

(** So [~] of ordinary flags is undefined, for each of them. *)
Theorem unfixed_complement_refuted :
  exists es t, underlying es t /\ forall a, value es a -> u_not t es a = UB.
Proof.
  exists flags3, uint32. split; [split; [cbn; lia|intros x; cbn; intuition subst; cbn; lia]|].
  intros a V. apply value_iff in V. change (bmin flags3) with 0 in V. change (bmax flags3) with 7 in V.
  assert (a = 0 \/ a = 1 \/ a = 2 \/ a = 3 \/ a = 4 \/ a = 5 \/ a = 6 \/ a = 7) as C by lia.
  decompose [or] C; subst a; reflexivity.
Qed.
Print Assumptions unfixed_complement_refuted.

(** [++] leaves the values at the end only, where it is undefined unless the values are all numbers of the type. *)
Theorem unfixed_increment : forall es t a, underlying es t -> value es a ->
  (value es (a + 1) -> u_inc t es a = Ok (a + 1)) /\
  (~ value es (a + 1) -> (full es t /\ u_inc t es a = Ok 0) \/ (~ full es t /\ u_inc t es a = UB)).
Proof. exact increment. Qed.
Print Assumptions unfixed_increment.

(** [>>] by any count the built-in operator takes is defined. *)
Theorem unfixed_shift_right : forall es t a n, value es a ->
  (0 <= n < Z.of_nat (ibits (promote t)) -> u_shr t es a n = Ok (Z.shiftr a n) /\ value es (Z.shiftr a n)) /\
  (~ 0 <= n < Z.of_nat (ibits (promote t)) -> u_shr t es a n = UB).
Proof. exact shift_right. Qed.
Print Assumptions unfixed_shift_right.

(** [<<] is not, even where the built-in operator gives the product. *)
Theorem unfixed_shift_left : forall es t a n, underlying es t -> value es a -> 0 <= a -> 0 <= n < Z.of_nat (ibits (promote t)) ->
  a * 2 ^ n <= ity_max (promote t) ->
  (value es (a * 2 ^ n) -> u_shl t es a n = Ok (a * 2 ^ n)) /\ (~ value es (a * 2 ^ n) -> u_shl t es a n = UB).
Proof. exact shift_left. Qed.
Print Assumptions unfixed_shift_left.

(** A number in a document is read, refused or undefined. *)
Theorem unfixed_read : forall es t z,
  (u_read t es z = Ok z <-> ity_min t <= z <= ity_max t /\ value es z) /\
  (u_read t es z = Throws <-> ~ ity_min t <= z <= ity_max t) /\
  (u_read t es z = UB <-> ity_min t <= z <= ity_max t /\ ~ value es z).
Proof. exact read_exact. Qed.
Print Assumptions unfixed_read.

(** No document is undefined only if the enumerators use all bits, and the sign, of the underlying type. *)
Theorem unfixed_read_safe : forall es t, underlying es t ->
  ((forall z, u_read t es z <> UB) <->
   fewest es (if isigned t then Z.of_nat (ibits t) - 1 else Z.of_nat (ibits t)) /\ (isigned t = true -> signed_ es)).
Proof.
  intros es t U. transitivity (forall z, ity_min t <= z <= ity_max t -> value es z).
  - split; intros H z.
    + intros R. destruct (value_dec es z) as [V|V]; [exact V|]. exfalso. apply (H z). apply read_exact. auto.
    + intros E. apply read_exact in E. destruct E as [R N]. exact (N (H z R)).
  - rewrite (read_gap es t U). split; intros [A B]; (split; [|exact B]).
    + rewrite <- A. apply width_fewest.
    + exact (fewest_fun es _ _ (width_fewest es) A).
Qed.
Print Assumptions unfixed_read_safe.

Theorem unfixed_read_refuted : exists es t z, underlying es t /\ u_read t es z = UB.
Proof. exists [0; 1], uint32, 2. split; [split; [cbn; lia|intros x; cbn; intuition subst; cbn; lia]|reflexivity]. Qed.
Print Assumptions unfixed_read_refuted.

(** Loops between two values are defined, with an end past the last enumerator too. *)
Theorem unfixed_loops : forall es t lo hi, underlying es t -> value es lo -> value es hi ->
  u_for_each es lo hi = Ok (map (fun k => lo + Z.of_nat k) (seq 0 (Z.to_nat (hi - lo)))) /\
  u_range t es lo hi true = Some (Ok (map (fun k => lo + Z.of_nat k) (seq 0 (Z.to_nat (hi - lo))))) /\
  (hi < ity_max t -> u_range t es lo hi false = Some (Ok (map (fun k => lo + Z.of_nat k) (seq 0 (Z.to_nat (hi + 1 - lo)))))).
Proof. exact (fun es t lo hi U A B => conj (for_each_ok es lo hi A B) (range_ok es t lo hi U A B)). Qed.
Print Assumptions unfixed_loops.

(** [max()] of a closed range needs a value after the last. *)
Theorem unfixed_max : forall es t lo hi, underlying es t -> value es hi ->
  u_max t es lo hi true = Some (Ok hi) /\
  (hi < ity_max t -> value es (hi + 1) -> u_max t es lo hi false = Some (Ok (hi + 1))) /\
  (hi < ity_max t -> ~ value es (hi + 1) -> u_max t es lo hi false = Some UB).
Proof. exact max_exact. Qed.
Print Assumptions unfixed_max.

(** Different enumerators that are not negative can be reflected, and the table is used by index exactly for 0, 1, 2, ... *)
Theorem unfixed_reflected : forall es v vs, incl (v :: vs) es -> NoDup (v :: vs) -> Forall (fun x => 0 <= x) (v :: vs) ->
  exists b, u_ordinary es (v :: vs) = Ok b /\ (b = true <-> v :: vs = map Z.of_nat (seq 0 (S (length vs)))).
Proof. exact ordinary_defined. Qed.
Print Assumptions unfixed_reflected.

(** What does not compile: 0 first and more enumerators than numbers. *)
Theorem unfixed_reflected_exact : forall es v vs,
  u_ordinary es (v :: vs) = UB <-> v = 0 /\ ~ value es (Z.of_nat (length vs)).
Proof. exact ordinary_ub. Qed.
Print Assumptions unfixed_reflected_exact.

Theorem unfixed_reflected_refuted :
  u_ordinary [0; -1] [0; -1] = UB /\ u_ordinary [0; 1; 1] [0; 1; 1] = UB.
Proof. split; reflexivity. Qed.
Print Assumptions unfixed_reflected_refuted.

(** The values of some enums. *)
Example values_of_flags : value flags3 7 /\ ~ value flags3 8 /\ ~ value flags3 (-1).
Proof. rewrite !value_iff. vm_compute. intuition congruence. Qed.
Example values_with_minus : value with_minus (-4) /\ value with_minus 3 /\ ~ value with_minus 4 /\ ~ value with_minus (-5).
Proof. rewrite !value_iff. vm_compute. intuition congruence. Qed.
Example values_of_zero : value [0] 0 /\ ~ value [0] 1 /\ value [-1] (-1) /\ ~ value [-1] (-2).
Proof. rewrite !value_iff. vm_compute. intuition congruence. Qed.
Example full_high_bit : full high_bit uint32.
Proof. apply full_iff. split; reflexivity. Qed.
Example complements : u_not uint32 high_bit 1 = Ok 4294967294 /\ u_not int32 with_minus 1 = Ok (-2) /\ u_not uint32 flags3 1 = UB.
Proof. repeat split. Qed.
Example increments : u_inc uint32 high_bit 4294967295 = Ok 0 /\ u_inc uint32 flags3 4 = Ok 5 /\ u_inc uint32 flags3 7 = UB.
Proof. repeat split. Qed.
Example shifts : u_shl uint32 flags3 2 1 = Ok 4 /\ u_shl uint32 flags3 4 1 = UB /\ u_shr uint32 flags3 7 2 = Ok 1 /\ u_shr int32 with_minus (-4) 1 = Ok (-2).
Proof. repeat split. Qed.
Example reads : u_read uint32 flags3 7 = Ok 7 /\ u_read uint32 flags3 8 = UB /\ u_read uint32 flags3 (-1) = Throws.
Proof. repeat split. Qed.
Example loops : u_range uint32 flags3 1 4 false = Some (Ok [1; 2; 3; 4]) /\ u_max uint32 [0; 1] 0 1 false = Some UB /\
  u_range uint32 [0; 1] 0 1 false = Some (Ok [0; 1]).
Proof. repeat split. Qed.
Example reflected : u_ordinary [0; 1; 2] [0; 1; 2] = Ok true /\ u_ordinary flags3 flags3 = Ok false /\ u_ordinary [0; 2; 3] [0; 2; 3] = Ok false.
Proof. repeat split. Qed.
