(** Keys of [extra_fields] members (C169). *)
From Coq Require Import List NArith Arith Bool.
From Verif Require Import Base XkeyModel XkeySpec XkeyProofs XkeySamples.
Import ListNotations.

(** C169: maps with [std::string] keys. *)
Theorem extra_keys_owned : forall V D probe reserved (read : D -> outcome V) live base ms old,
  finds probe -> (forall d, read d <> UB) ->
  deserialize_extras probe Owns reserved read live base ms old <> UB /\
  (forall m, deserialize_extras probe Owns reserved read live base ms old = Ok m ->
     said reserved read ms [] (texts m) /\ forall later, Forall (fun e => usable later (fst e)) m) /\
  (forall out, said reserved read ms [] out ->
     exists m, deserialize_extras probe Owns reserved read live base ms old = Ok m /\ texts m = out).
Proof. exact @owned_reads. Qed.
Print Assumptions extra_keys_owned.

Example owned_demo : deserialize_extras compare_all Owns [id_name] read_number nothing 0 demo_members [] =
  Ok [(mkkey Inside [120%N], 1); (mkkey Inside [121%N], 2)].
Proof. reflexivity. Qed.
Example compare_all_finds : finds compare_all /\ ordered compare_all.
Proof.
  split; intros texts s.
  - intros i H. apply in_seq. split; [apply Nat.le_0_l|]. apply nth_error_Some. congruence.
  - intros H. exists 0. destruct texts; [congruence|]. split; [apply Nat.lt_0_succ|]. now left.
Qed.

(** Maps with [std::string_view] keys: no key that was read can be used. *)
Theorem extra_keys_viewed : forall V D probe reserved (read : D -> outcome V) live base ms old m,
  finds probe -> (forall r, base <= r -> live r = false) ->
  deserialize_extras probe Views reserved read live base ms old = Ok m ->
  said reserved read ms [] (texts m) /\ Forall (fun e => ~ usable live (fst e)) m.
Proof. exact @viewed_reads. Qed.
Print Assumptions extra_keys_viewed.

(** In a [std::map] the second key is compared with the first, which is gone. *)
Theorem extra_keys_compared : forall V D probe reserved (read : D -> outcome V) live base ms old,
  ordered probe -> (forall d, read d <> UB) -> (forall r, base <= r -> live r = false) ->
  (deserialize_extras probe Views reserved read live base ms old = UB <->
   exists a n1 d1 v1 b n2 d2 v2 c, ms = a ++ (Some n1, d1) :: b ++ (Some n2, d2) :: c /\
     only_reserved reserved a /\ ~ In n1 reserved /\ read d1 = Ok v1 /\
     only_reserved reserved b /\ ~ In n2 reserved /\ read d2 = Ok v2).
Proof. exact @viewed_undefined. Qed.
Print Assumptions extra_keys_compared.

Example viewed_demo : deserialize_extras compare_all Views [id_name] read_number nothing 0 demo_members [] = UB.
Proof. reflexivity. Qed.
Example viewed_one : deserialize_extras compare_all Views [id_name] read_number nothing 0 (firstn 2 demo_members) [] =
  Ok [(mkkey (At 0) [120%N], 1)].
Proof. reflexivity. Qed.

(** Patching keeps the keys that there are; those that are new are as above. *)
Theorem patched_keys_owned : forall V D probe reserved (patch : D -> V -> outcome V) fresh live base ms m,
  finds probe -> (forall d v, patch d v <> UB) -> Forall (fun e => usable live (fst e)) m ->
  patch_extras probe Owns reserved patch fresh live base ms m <> UB /\
  (forall m', patch_extras probe Owns reserved patch fresh live base ms m = Ok m' ->
     patched reserved patch fresh ms (texts m) (texts m') /\ Forall (fun e => usable live (fst e)) m').
Proof. exact @owned_patches. Qed.
Print Assumptions patched_keys_owned.

Theorem patched_keys_viewed : forall V D probe reserved (patch : D -> V -> outcome V) fresh live base ms m m',
  finds probe -> (forall r, base <= r -> live r = false) ->
  patch_extras probe Views reserved patch fresh live base ms m = Ok m' ->
  patched reserved patch fresh ms (texts m) (texts m') /\
  exists rest, map fst m' = map fst m ++ rest /\ Forall (fun k => ~ usable live k) rest /\
    (rest = [] <-> Forall (fun x => exists n, fst x = Some n /\ (In n reserved \/ In n (map (fun e => chars (fst e)) m))) ms).
Proof. exact @viewed_patches. Qed.
Print Assumptions patched_keys_viewed.

Example patched_demo : patch_extras compare_all Views [id_name] add_number 10 first_five 5 demo_members
  [(mkkey (At 2) [120%N], 7); (mkkey (At 3) [122%N], 8)] =
  Ok [(mkkey (At 2) [120%N], 8); (mkkey (At 3) [122%N], 8); (mkkey (At 7) [121%N], 12)].
Proof. reflexivity. Qed.

(** That keys of any type the library accepts can be used fails. *)
Theorem extra_keys_usable_refuted : exists ms m,
  deserialize_extras compare_all Views [id_name] read_number nothing 0 ms [] = Ok m /\ m <> [] /\
  ~ Forall (fun e => usable nothing (fst e)) m.
Proof.
  exists (firstn 2 demo_members), [(mkkey (At 0) [120%N], 1)]. split; [reflexivity|]. split; [discriminate|].
  intros H. inversion H as [|? ? U _]; subst. discriminate.
Qed.
Print Assumptions extra_keys_usable_refuted.
