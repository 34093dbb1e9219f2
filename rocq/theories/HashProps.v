(** C53, C54: hashing. *)
From Coq Require Import List NArith ZArith Arith Bool.
From Verif Require Import Base HashModel HashSpec HashProofs HashSignedProofs.
Import ListNotations.
Local Open Scope N_scope.

(** C53 on ASCII text, all overloads. *)
Theorem fnv1a_is_fnv1a_on_ascii : forall s, ascii s ->
  fnv1a s = fnv 2166136261 s /\ fnv1a_string s = fnv1a s /\ fnv1a_array (s ++ [0]) = Ok (fnv1a s).
Proof. exact (fun s H => conj (fnv1a_ascii s H) (conj eq_refl (fnv1a_array_literal s))). Qed.
Print Assumptions fnv1a_is_fnv1a_on_ascii.

(** C53: the overloads agree on all text, and an array that is not terminated is
    refused. *)
Theorem fnv1a_overloads_agree : forall s c, fnv1a_array (s ++ [0]) = Ok (fnv1a s) /\ (c <> 0 -> fnv1a_array (s ++ [c]) = Throws).
Proof. exact (fun s c => conj (fnv1a_array_literal s) (fnv1a_array_unterminated s c)). Qed.
Print Assumptions fnv1a_overloads_agree.

(** C53: where exactly one byte is not ASCII the hash is always another one. *)
Theorem fnv1a_one_non_ascii_refuted : forall s b s', ascii s -> 128 <= b < 256 -> ascii s' ->
  fnv1a (s ++ b :: s') <> fnv 2166136261 (s ++ b :: s').
Proof. exact fnv1a_one_differs. Qed.
Print Assumptions fnv1a_one_non_ascii_refuted.

(** C53 fails outside ASCII: the UTF-8 text "é". *)
Theorem fnv1a_non_ascii_refuted : exists s, octets s /\ fnv1a s <> fnv 2166136261 s.
Proof. exists [195; 169]. split; [repeat constructor|]. vm_compute. discriminate. Qed.
Print Assumptions fnv1a_non_ascii_refuted.

(** C54 on ASCII text, under both readings of shifts of negative values. *)
Theorem hsieh_is_super_fast_hash_on_ascii : forall strict data, ascii data ->
  hsieh strict data = Ok (super_fast_hash data).
Proof. exact hsieh_ascii. Qed.
Print Assumptions hsieh_is_super_fast_hash_on_ascii.

(** hsieh reads no byte outside its input, whatever the bytes. *)
Theorem hsieh_reads_in_bounds : forall data, exists h, hsieh false data = Ok h.
Proof. exact hsieh_memory_safe. Qed.
Print Assumptions hsieh_reads_in_bounds.

(** C54 fails outside ASCII: another value, and in C++17 undefined behaviour. *)
Theorem hsieh_non_ascii_refuted :
  (exists data h, octets data /\ hsieh true data = Ok h /\ h <> super_fast_hash data) /\
  (exists data, octets data /\ hsieh true data = UB).
Proof.
  split.
  - exists [195; 65]. eexists. split; [repeat constructor|]. split; [vm_compute; reflexivity|]. vm_compute. discriminate.
  - exists [195; 169]. split; [repeat constructor|]. vm_compute. reflexivity.
Qed.
Print Assumptions hsieh_non_ascii_refuted.

(** FNV-1a of "a" and "foobar" as published. *)
Example ex_fnv_a : fnv1a [97] = 3826002220. Proof. vm_compute. reflexivity. Qed.
Example ex_fnv_foobar : fnv1a [102; 111; 111; 98; 97; 114] = 3214735720. Proof. vm_compute. reflexivity. Qed.
Example ex_hsieh : hsieh true [116; 101; 115; 116; 49; 50; 51] = Ok (super_fast_hash [116; 101; 115; 116; 49; 50; 51]).
Proof. vm_compute. reflexivity. Qed.

(** The values pinned by tests/hash_test.cpp:55-60. *)
Example ex_hsieh_9 : hsieh true [81; 87; 69; 65; 83; 68; 90; 88; 67] = Ok 2931318796. Proof. vm_compute. reflexivity. Qed.
Example ex_hsieh_8 : hsieh true [81; 87; 69; 65; 83; 68; 90; 88] = Ok 3769907306. Proof. vm_compute. reflexivity. Qed.
Example ex_hsieh_7 : hsieh true [81; 87; 69; 65; 83; 68; 90] = Ok 3560558412. Proof. vm_compute. reflexivity. Qed.
Example ex_hsieh_6 : hsieh true [81; 87; 69; 65; 83; 68] = Ok 2045723082. Proof. vm_compute. reflexivity. Qed.

(** C53 for all bytes: what is computed is FNV-1a over bytes from -128 to 127, whose last 8 bits are right. *)
Theorem fnv1a_of_signed_bytes : forall s, octets s -> Z.of_N (fnv1a s) = fnv_signed 2166136261 s.
Proof. exact fnv1a_signed. Qed.
Print Assumptions fnv1a_of_signed_bytes.

Theorem fnv1a_last_bits_right : forall s, octets s -> fnv1a s mod 256 = fnv 2166136261 s mod 256.
Proof. exact fnv1a_low. Qed.
Print Assumptions fnv1a_last_bits_right.

Example ex_fnv_e : fnv1a [195; 169] = 1023043777 /\ fnv 2166136261 [195; 169] = 513665217. Proof. vm_compute. split; reflexivity. Qed.

(** C54 for all bytes: the published function, of other text. *)
Theorem hsieh_of_smeared_text : forall data, octets data -> hsieh false data = Ok (published_hash (smeared data)).
Proof. exact hsieh_value. Qed.
Print Assumptions hsieh_of_smeared_text.

Theorem hsieh_right_where_nothing_smears : forall data, octets data -> smeared data = data -> hsieh false data = Ok (published_hash data).
Proof. exact hsieh_same. Qed.
Print Assumptions hsieh_right_where_nothing_smears.

(** In C++17, exactly where no negative byte is shifted. *)
Theorem hsieh_undefined_where_shifted : forall data, octets data ->
  (shifted data -> hsieh true data = UB) /\ (~ shifted data -> hsieh true data = Ok (published_hash (smeared data))).
Proof. exact hsieh_cpp17. Qed.
Print Assumptions hsieh_undefined_where_shifted.

(** The byte after one that is not ASCII, at an even place, does not count. *)
Theorem hsieh_byte_lost : forall s a b b' t, octets (s ++ a :: b :: t) -> b' < 256 -> Nat.even (length s) = true -> 128 <= a ->
  hsieh false (s ++ a :: b' :: t) = hsieh false (s ++ a :: b :: t).
Proof. exact hsieh_loses. Qed.
Print Assumptions hsieh_byte_lost.

(** "é" and "è"; the published function tells them apart, and hashes "aé" alike. *)
Example ex_hsieh_lost : hsieh false [195; 169] = hsieh false [195; 168] /\ published_hash [195; 169] <> published_hash [195; 168] /\
  hsieh true [195; 169] = UB /\ hsieh true [97; 97; 195] = UB /\ hsieh true [195; 97] = hsieh true [195; 98] /\
  hsieh false [97; 195; 169] = Ok (published_hash [97; 195; 169]) /\ super_fast_hash [97; 195; 169] <> published_hash [97; 195; 169].
Proof. repeat split; vm_compute; (reflexivity || discriminate). Qed.
