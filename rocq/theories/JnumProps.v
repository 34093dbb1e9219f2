(** How the numbers of JSON texts are read, and which doubles survive dump and parse. *)
From Coq Require Import String List NArith ZArith Bool SpecFloat.
From Verif Require Import Base EnumModel ScalarModel ScalarSpec SerialModel SerialSpec SerialSamples FloatModel FloatSpec JtextModel JtextSpec
  JnumModel JnumSpec JnumMainProofs JnumLongProofs JnumSamples JnumMoreProofs.
Import ListNotations.
Local Open Scope list_scope.
Local Open Scope Z_scope.

(* ------------------------------------------------------------------ *)
(** ** Reading *)

(** C118: every numeral is read as a finite double with the sign of the numeral, or
    is rejected as too big; no table is read outside its bounds. *)
Theorem number_read_total : forall s neg m p, stands_for s neg m p -> exists r, read_number s = Ok r /\
  forall b, r = Some b -> bits_of_format binary64 b /\ finite b /\ negative (decode binary64 b) = neg.
Proof. exact number_total. Qed.
Print Assumptions number_read_total.

(** C118: a numeral with few digits is read as the nearest double. *)
Theorem number_read_nearest : forall s neg m p, stands_for s neg m p -> (m < 2 ^ 53)%N -> -22 <= p <= 22 ->
  exists b, read_number s = Ok (Some b) /\ nearest_decimal neg m p b /\ bits_of_format binary64 b /\ finite b /\ negative (decode binary64 b) = neg.
Proof. exact number_near. Qed.
Print Assumptions number_read_nearest.

(** Not so with 16 digits, nor with one digit and 23 places. *)
Theorem number_nearest_refuted :
  (exists s m p b, stands_for s false m p /\ (m < 10 ^ 16)%N /\ -22 <= p <= 22 /\ read_number s = Ok (Some b) /\ ~ nearest_decimal false m p b) /\
  (exists s m p b, stands_for s false m p /\ (m < 10)%N /\ -23 <= p <= 23 /\ read_number s = Ok (Some b) /\ ~ nearest_decimal false m p b).
Proof.
  split.
  - exists eleventh_text, 9090909090909091%N, (-17), (eleventh + 1)%N. split; [exact eleventh_stands|].
    split; [reflexivity|]. split; [split; discriminate|]. split; [exact eleventh_misread|exact eleventh_not_nearest].
  - exists tiny_text, 1%N, (-23), (tiny + 1)%N. split; [exact tiny_stands|].
    split; [reflexivity|]. split; [split; discriminate|]. split; [exact tiny_misread|exact tiny_not_nearest].
Qed.
Print Assumptions number_nearest_refuted.

(** C118: digits of the fraction after the eighteenth digit of the number are not
    looked at; after the seventeenth, if the number is below one. *)
Theorem number_digits_dropped : forall (neg : bool) body fd more e m,
  digits body -> (forall t, body = 48%N :: t -> t = []) -> digits fd -> digits more -> exponent_text e ->
  numeral 10 (body ++ fd) m -> (10 ^ 17 <= m)%N \/ body = [48%N] /\ (10 ^ 16 <= m)%N ->
  read_number ((if neg then [45%N] else []) ++ body ++ 46%N :: fd ++ more ++ e) = read_number ((if neg then [45%N] else []) ++ body ++ 46%N :: fd ++ e).
Proof. exact digits_dropped. Qed.
Print Assumptions number_digits_dropped.

(** The digits before them are: each of the two bounds is the least possible. *)
Theorem number_digits_needed :
  (exists fd more m b b', digits fd /\ digits more /\ numeral 10 (49%N :: fd) m /\ (10 ^ 16 <= m)%N /\ b <> b' /\
     read_number ([49%N] ++ 46%N :: fd) = Ok (Some b) /\ read_number ([49%N] ++ 46%N :: fd ++ more) = Ok (Some b')) /\
  (exists fd more m b b', digits fd /\ digits more /\ numeral 10 (48%N :: fd) m /\ (10 ^ 15 <= m)%N /\ b <> b' /\
     read_number ([48%N] ++ 46%N :: fd) = Ok (Some b) /\ read_number ([48%N] ++ 46%N :: fd ++ more) = Ok (Some b')).
Proof.
  split.
  - exists (codes "0000000000000000"%string), (codes "9"%string), (10 ^ 16)%N, 4607182418800017408%N, 4607182418800017409%N.
    split; [apply digits_text; [reflexivity|discriminate]|]. split; [apply digits_text; [reflexivity|discriminate]|].
    split; [exact (numeral_text (codes "10000000000000000"%string) eq_refl ltac:(discriminate))|].
    split; [discriminate|]. split; [discriminate|]. split; vm_compute; reflexivity.
  - exists (codes "1000000000000000"%string), (codes "9"%string), (10 ^ 15)%N, 4591870180066957722%N, 4591870180066957727%N.
    split; [apply digits_text; [reflexivity|discriminate]|]. split; [apply digits_text; [reflexivity|discriminate]|].
    split; [exact (numeral_text (codes "01000000000000000"%string) eq_refl ltac:(discriminate))|].
    split; [discriminate|]. split; [discriminate|]. split; vm_compute; reflexivity.
Qed.
Print Assumptions number_digits_needed.

(** Numbers in range are rejected: zero, and one. *)
Theorem number_in_range_refuted : forall write,
  (exists s p, stands_for s false 0 p /\ parse (normal_precision write) s = Throws) /\
  (exists s n, stands_for s false (10 ^ n) (- Z.of_N n) /\ parse (normal_precision write) s = Throws).
Proof.
  intros write. split.
  - exists zero_text, 309. split; [exact zero_stands|vm_compute; reflexivity].
  - exists long_one_text, 400%N. split; [exact long_one_stands|vm_compute; reflexivity].
Qed.
Print Assumptions number_in_range_refuted.

(* ------------------------------------------------------------------ *)
(** ** Writing and reading *)

(** C119: doubles that are written with few digits survive. *)
Theorem few_digits_kept : forall write b, few_digits write b -> kept_by (normal_precision write) b.
Proof. exact few_kept. Qed.
Print Assumptions few_digits_kept.

Theorem few_digits_round_trip : forall write pretty fp t v w j s, wf t -> typed t v -> rt (Json fp) true t v w -> serialize (Json fp) true t v = Ok j ->
  throughout (fun _ => True) (few_digits write) short j -> dump_text (normal_precision write) fp pretty t v = Ok s ->
  exists j', parse (normal_precision write) s = Ok j' /\ deser (Json fp) t j' w = (v, None).
Proof. exact few_round. Qed.
Print Assumptions few_digits_round_trip.

(** A double that is written as the numeral closest to it is read as another one:
    [1.0 / 11]. *)
Theorem double_round_trip_refuted : exists b s m p, finite b /\ real s /\ stands_for s false m p /\ closest_decimal false m p b /\
  forall write fp pretty, write b = s -> exists b', b' <> b /\
    dump_text (normal_precision write) fp pretty TDouble (VDbl b) = Ok s /\ parse (normal_precision write) s = Ok (JDbl b').
Proof.
  exists eleventh, eleventh_text, 9090909090909091%N, (-17). split; [vm_compute; discriminate|]. split; [exact eleventh_real|].
  split; [exact eleventh_stands|]. split; [exact eleventh_closest|]. intros write fp pretty E. exists (eleventh + 1)%N.
  split; [discriminate|]. exact (eleventh_lost write fp pretty E).
Qed.
Print Assumptions double_round_trip_refuted.

(* ------------------------------------------------------------------ *)
(** ** Examples *)

Example ex_tenth : read_number (codes "0.1"%string) = Ok (Some 4591870180066957722%N). Proof. vm_compute. reflexivity. Qed.
Example ex_minus_zero : read_number (codes "-0.0e-7"%string) = Ok (Some 9223372036854775808%N). Proof. vm_compute. reflexivity. Qed.
Example ex_smallest : read_number (codes "5e-324"%string) = Ok (Some 1%N). Proof. vm_compute. reflexivity. Qed.
Example ex_greatest : read_number (codes "1.7976931348623157e308"%string) = Ok (Some 9218868437227405311%N) /\
  read_number (codes "1.7976931348623159e308"%string) = Ok None. Proof. vm_compute. split; reflexivity. Qed.
Example ex_many_digits : read_number (codes "-18446744073709551616"%string) = Ok (Some 14118784831806504960%N) /\
  read_number (codes "123456789012345678901234567890.5"%string) = Ok (Some 5042042089369253693%N). Proof. vm_compute. split; reflexivity. Qed.
Example ex_underflow : read_number (codes "1e-99999999999"%string) = Ok (Some 0%N). Proof. vm_compute. reflexivity. Qed.
Example ex_few : few_digits demo_write 4609434218613702656. Proof. exact one_half_few. Qed.
Example ex_array : parse (normal_precision demo_write) (codes "[1.5, 1E22, 0.09090909090909091]"%string) =
  Ok (JArr [JDbl 4609434218613702656; JDbl 4936209963552724370; JDbl (eleventh + 1)]). Proof. vm_compute. reflexivity. Qed.
Example ex_eleventh : decode binary64 eleventh = decode binary64 (encode binary64 (ddiv (dint 1) (dint 11))). Proof. vm_compute. reflexivity. Qed.
Example ex_tiny : closest_decimal false 1 (-23) tiny. Proof. exact tiny_closest. Qed.

Example ex_dropped : read_number (codes "-123.456789012345678e-2"%string) = read_number (codes "-123.4567890123456789999999999999999999e-2"%string) /\
  read_number (codes "0.00012345678901234567"%string) = read_number (codes "0.000123456789012345679999999999"%string).
Proof. vm_compute. split; reflexivity. Qed.
