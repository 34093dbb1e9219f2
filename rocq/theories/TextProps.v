(** C47, C55, C56, C65, C66: index segments, splitting and joining. *)
From Coq Require Import List NArith Arith Bool.
From Verif Require Import Base TextModel TextSpec TextProofs.
Import ListNotations.

(** C47 *)
Theorem index_segment_decimal : forall s v,
  parse_index s = Some v <-> decimal s /\ numeral s = v /\ (v < 2 ^ 64)%N.
Proof. exact parse_index_lemma. Qed.
Print Assumptions index_segment_decimal.

(** C55: the pieces are those of [cut], which is a function of the text ... *)
Theorem split_cuts_at_delimiters : forall delims s, exists ts,
  (forall ts', cut delims s ts' <-> ts' = ts) /\
  split s delims false = Ok ts /\
  split s delims true = Ok (filter (fun t => negb (Nat.eqb (length t) 0)) ts).
Proof. exact split_cut_lemma. Qed.
Print Assumptions split_cuts_at_delimiters.

(** ... and putting the delimiters back restores the text. *)
Theorem split_pieces_restore_text : forall delims s ts, split s delims false = Ok ts ->
  exists seps, s = interleave ts seps /\ Forall (fun d => In d delims) seps /\
    Forall (Forall (fun c => ~ In c delims)) ts /\
    (length ts = length seps \/ length ts = S (length seps) /\ last ts [] <> []).
Proof. exact split_restore_lemma. Qed.
Print Assumptions split_pieces_restore_text.

(** C65: text given as a literal is split like the same [std::string].  False:
    the terminator stays on the last piece, or becomes one (the difference is
    pinned by tests/split_test.cpp). *)
Theorem split_literal_refuted : exists s delims, ~ In 0%N s /\
  split (literal s) delims true <> split s delims true.
Proof.
  exists [65; 32; 66]%N, [32]%N. split; [cbn; intuition discriminate|]. vm_compute. discriminate.
Qed.
Print Assumptions split_literal_refuted.

(** C56 *)
Theorem stream_join_output : forall (A : Type) (fmt : A -> text) os delim empty xs,
  stream_join fmt os delim empty xs =
    os ++ match xs with [] => empty | _ => intercalate delim (map fmt xs) end.
Proof. exact @stream_join_lemma. Qed.
Print Assumptions stream_join_output.

(** C56: the output joiner, in one run or carried on from the returned one. *)
Theorem outstream_joiner_output : forall (A : Type) (fmt : A -> text) os delim xs ys,
  fst (copy_to fmt os (make_joiner delim) xs) = os ++ intercalate delim (map fmt xs) /\
  fst (let '(os', j) := copy_to fmt os (make_joiner delim) xs in copy_to fmt os' j ys) =
    os ++ intercalate delim (map fmt (xs ++ ys)).
Proof. exact @joiner_lemma. Qed.
Print Assumptions outstream_joiner_output.

(** C66: handing the same joiner object to two algorithms joins both ranges.
    False: each works on a copy, so no delimiter is written in between. *)
Theorem outstream_joiner_reuse_refuted : exists (xs ys : list N) delim,
  let fmt := fun x => [x] in
  let j := make_joiner delim in
  let os := fst (copy_to fmt [] j xs) in
  fst (copy_to fmt os j ys) <> intercalate delim (map fmt (xs ++ ys)).
Proof. exists [65]%N, [66]%N, [44]%N. vm_compute. discriminate. Qed.
Print Assumptions outstream_joiner_reuse_refuted.

Example ex_index : parse_index [48; 48; 55]%N = Some 7%N. Proof. reflexivity. Qed.
Example ex_index_sign : parse_index [43; 55]%N = None. Proof. reflexivity. Qed.
Example ex_index_max : parse_index [49;56;52;52;54;55;52;52;48;55;51;55;48;57;53;53;49;54;49;53]%N
  = Some 18446744073709551615%N. Proof. vm_compute. reflexivity. Qed.
Example ex_index_over : parse_index [49;56;52;52;54;55;52;52;48;55;51;55;48;57;53;53;49;54;49;54]%N = None.
Proof. vm_compute. reflexivity. Qed.
Example ex_split : split [44; 65; 44; 44; 66; 44]%N [44]%N false = Ok [[]; [65]; []; [66]]%N.
Proof. vm_compute. reflexivity. Qed.
Example ex_split_skip : split [44; 65; 44; 44; 66; 44]%N [44]%N true = Ok [[65]; [66]]%N.
Proof. vm_compute. reflexivity. Qed.
Example ex_join : stream_join (fun x => [x]) [] default_delim default_empty [65; 66]%N = [65; 44; 32; 66]%N.
Proof. vm_compute. reflexivity. Qed.
Example ex_join_empty : stream_join (fun x : N => [x]) [] default_delim default_empty [] = [46]%N.
Proof. vm_compute. reflexivity. Qed.
