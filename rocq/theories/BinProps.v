(** C13-C19, C62, C80-C82: the binary reader and writer. *)
From Coq Require Import List NArith ZArith Arith Bool Lia.
From Verif Require Import Base BinModel BinSpec BinMore BinGrammar.
Import ListNotations.

(** C13: what is written at a position is read back from that position, and
    the reader ends exactly where the writer did.  [old] is whatever the
    destination held before; the bytes around are arbitrary. *)
Theorem binary_round_trip : forall t v old w r,
  wf_ty t -> has_ty t v -> has_ty t old ->
  inside w -> err w = false ->
  (pos w + N.of_nat (length (encode t v)) <= size_bytes w)%N ->
  exists w', write_binary t v w = Ok w' /\ err w' = false /\
    (pos w' = pos w + N.of_nat (length (encode t v)))%N /\
    (buf r = buf w' -> pos r = pos w -> err r = false ->
     exists r', read_binary t old r = Ok (r', v) /\ err r' = false /\
       pos r' = pos w' /\ buf r' = buf r).
Proof. exact write_read. Qed.
Print Assumptions binary_round_trip.

(** C13, the limit: a string of 2^32 bytes is silently read back as empty. *)
Theorem binary_round_trip_large_refuted : exists s, Forall is_octet s /\
  forall c post, inside c -> err c = false -> pos c = 0%N ->
    buf c = encode TStr (VStr s) ++ post ->
    exists c', read_binary TStr (VStr []) c = Ok (c', VStr []) /\ err c' = false /\
      VStr [] <> VStr s.
Proof. exact big_string_refuted. Qed.
Print Assumptions binary_round_trip_large_refuted.

(** C14: no sequence of reader operations leaves the buffer. *)
Theorem reader_bounds_safe : forall c os, inside c -> Forall op_ok os ->
  exists c', reader_run c os = Ok c' /\ buf c' = buf c /\ (pos c' <= size_bytes c)%N.
Proof. exact bounds_lemma. Qed.
Print Assumptions reader_bounds_safe.

(** C14: whatever the bytes, the value produced is a value of the type. *)
Theorem reader_values_typed : forall t old c, wf_ty t -> has_ty t old -> inside c ->
  exists c' v, read_binary t old c = Ok (c', v) /\ has_ty t v.
Proof. exact typed_lemma. Qed.
Print Assumptions reader_values_typed.

(** C15: after an error nothing moves, nothing is produced, nothing is written. *)
Theorem binary_errors_sticky : forall c, inside c -> err c = true ->
  (forall os, Forall op_ok os ->
     exists c', reader_run c os = Ok c' /\ err c' = true /\ pos c' = pos c /\ buf c' = buf c) /\
  (forall t old, read_into t old c = Ok (c, old, false)) /\
  (forall t, read_value t c = Ok (c, dflt t)) /\
  (forall t old, peek t old c = Ok (old, false)) /\
  (forall n mv, exists c', span c n mv = Ok (c', []) /\ err c' = true /\ pos c' = pos c) /\
  (forall l, Forall (fun tv => has_ty (fst tv) (snd tv)) l ->
     exists c', for_each (fun tv => write_binary (fst tv) (snd tv)) l c = Ok c' /\
       err c' = true /\ pos c' = pos c /\ buf c' = buf c).
Proof. exact sticky_lemma. Qed.
Print Assumptions binary_errors_sticky.

(** C16: an encoding cut short anywhere gives an error. *)
Theorem truncated_input_detected : forall t v old c pre cut,
  wf_ty t -> has_ty t v -> has_ty t old -> inside c ->
  (N.of_nat (length (pre ++ encode t v)) < 2 ^ 63)%N -> Forall is_octet pre ->
  buf c = pre ++ firstn cut (encode t v) -> pos c = N.of_nat (length pre) ->
  cut < length (encode t v) ->
  exists c' u, read_binary t old c = Ok (c', u) /\ err c' = true.
Proof. exact truncated_lemma. Qed.
Print Assumptions truncated_input_detected.

(** C17: a failed read into a string, vector, map or set empties it. *)
Theorem failed_container_read_empty : forall t e old c c' v,
  wf_ty t -> has_ty t old -> inside c -> empty_container t = Some e ->
  read_binary t old c = Ok (c', v) -> err c' = true -> v = e.
Proof. exact failed_container. Qed.
Print Assumptions failed_container_read_empty.

(** C17 does not extend to optionals: a failed read leaves one engaged with a
    value that was never in the input. *)
Theorem failed_optional_read_empty_refuted : exists c c' v,
  inside c /\ read_binary (TOpt (TInt Native false 4)) (VOpt None) c = Ok (c', VOpt (Some v)) /\
  err c' = true.
Proof.
  exists (open_buffer [1; 2; 3]%N), (mkcursor [1; 2; 3]%N 1 true 0), (VInt 0).
  split; [|split; reflexivity]. split; [discriminate|]. split; [reflexivity|]. repeat constructor.
Qed.
Print Assumptions failed_optional_read_empty_refuted.

(** C17 does not extend to [read(T&)] on a stream that has already failed: the
    container keeps its previous content. *)
Theorem failed_read_into_keeps_old_refuted : exists c old,
  inside c /\ has_ty TStr old /\ old <> VStr [] /\ read_into TStr old c = Ok (c, old, false).
Proof.
  exists (notify_error (open_buffer [])), (VStr [7]%N).
  split; [|split; [|split; [discriminate|reflexivity]]].
  - split; [discriminate|]. split; [reflexivity|]. constructor.
  - split; [repeat constructor|reflexivity].
Qed.
Print Assumptions failed_read_into_keeps_old_refuted.

(** C18: writing any list of values.  It never leaves the buffer, never touches
    a byte before the old or after the new position, stores exactly the
    encodings if they fit, and otherwise reports an error having stored a
    prefix of them. *)
Theorem writer_exact_or_error : forall l w,
  Forall (fun tv => has_ty (fst tv) (snd tv)) l -> inside w ->
  let bs := concat (map (fun tv => encode (fst tv) (snd tv)) l) in
  let fits := (negb (err w) && (pos w + N.of_nat (length bs) <=? size_bytes w)%N)%bool in
  exists w', for_each (fun tv => write_binary (fst tv) (snd tv)) l w = Ok w' /\ inside w' /\
    size_bytes w' = size_bytes w /\
    (forall i, (N.of_nat i < pos w \/ pos w' <= N.of_nat i)%N ->
       nth_error (buf w') i = nth_error (buf w) i) /\
    (fits = true -> err w' = false /\ pos w' = (pos w + N.of_nat (length bs))%N /\
       firstn (length bs) (skipn (N.to_nat (pos w)) (buf w')) = bs) /\
    (fits = false -> err w' = true /\
       exists n, n <= length bs /\ pos w' = (pos w + N.of_nat n)%N /\
         firstn n (skipn (N.to_nat (pos w)) (buf w')) = firstn n bs) /\
    (err w = true -> w' = mkcursor (buf w) (pos w) true (asked w')).
Proof. exact writer_lemma. Qed.
Print Assumptions writer_exact_or_error.

(** C19: for every offset but PTRDIFF_MIN. *)
Theorem skip_within_bounds : forall c off, inside c -> ptrdiff_ok off ->
  exists c', skip c off = Ok c' /\ buf c' = buf c /\ inside c' /\
    ((err c' = false <-> err c = false /\ (0 <= target c off <= Z.of_N (size_bytes c))%Z) /\
     (err c' = false -> Z.of_N (pos c') = target c off) /\
     (err c' = true -> pos c' = pos c)).
Proof. exact skip_lemma. Qed.
Print Assumptions skip_within_bounds.

(** C19: PTRDIFF_MIN is undefined behaviour, whatever the stream. *)
Theorem skip_most_negative_refuted : forall c, skip c (- 2 ^ 63) = UB.
Proof. intros c. reflexivity. Qed.
Print Assumptions skip_most_negative_refuted.

(** C62: four bytes of input make the reader ask for 2^32-1 elements. *)
Theorem allocation_bounded_by_input_refuted : exists c c' v,
  inside c /\ asked c = 0%N /\ size_bytes c = 4%N /\
  read_binary TStr (VStr []) c = Ok (c', v) /\ err c' = true /\ asked c' = 4294967295%N.
Proof.
  exists (open_buffer [255; 255; 255; 255]%N), (mkcursor [255; 255; 255; 255]%N 4 true 4294967295), (VStr []).
  split; [|repeat split; reflexivity]. split; [discriminate|]. split; [reflexivity|]. repeat constructor.
Qed.
Print Assumptions allocation_bounded_by_input_refuted.

(** C80: a read that succeeds has consumed a representation of the value it
    returns, and every representation at the cursor is read as its value. *)
Theorem reader_accepts_exactly : forall t c old,
  wf_ty t -> inside c -> err c = false -> has_ty t old ->
  (forall c' v, read_binary t old c = Ok (c', v) -> err c' = false ->
     exists bs, rest c = bs ++ rest c' /\ pos c' = (pos c + N.of_nat (length bs))%N /\ represents t bs v) /\
  (forall bs post v, rest c = bs ++ post -> represents t bs v ->
     exists c', read_binary t old c = Ok (c', v) /\ err c' = false /\ rest c' = post /\
       pos c' = (pos c + N.of_nat (length bs))%N).
Proof. exact grammar_exact. Qed.
Print Assumptions reader_accepts_exactly.

(** C80: the format is unambiguous. *)
Theorem wire_format_unambiguous : forall t bs1 bs2 post1 post2 v1 v2,
  wf_ty t ->
  (N.of_nat (length (bs1 ++ post1)) < 2 ^ 63)%N -> Forall is_octet (bs1 ++ post1) ->
  bs1 ++ post1 = bs2 ++ post2 -> represents t bs1 v1 -> represents t bs2 v2 ->
  bs1 = bs2 /\ post1 = post2 /\ v1 = v2.
Proof. exact represents_unique. Qed.
Print Assumptions wire_format_unambiguous.

(** C81: [span] and [peek] deliver the next bytes, or report that there are
    not enough; [peek] delivers what [read] would. *)
Theorem span_and_peek_exact : forall c, inside c ->
  (forall n mv, exists c' bs, span c n mv = Ok (c', bs) /\ buf c' = buf c /\
     if err c || (N.of_nat (length (rest c)) <? n)%N
     then err c' = true /\ bs = [] /\ pos c' = pos c
     else err c' = false /\ bs = firstn (N.to_nat n) (rest c) /\
          rest c' = (if mv then skipn (N.to_nat n) (rest c) else rest c) /\
          pos c' = (if mv then pos c + n else pos c)%N) /\
  (forall t old, fixed_size t -> wf_ty t ->
     if err c || (N.of_nat (length (rest c)) <? N.of_nat (width t))%N
     then peek t old c = Ok (old, false)
     else exists v, peek t old c = Ok (v, true) /\ represents t (firstn (width t) (rest c)) v) /\
  (forall t old c' v b, fixed_size t -> read_into t old c = Ok (c', v, b) -> peek t old c = Ok (v, b)).
Proof. exact span_peek_spec. Qed.
Print Assumptions span_and_peek_exact.

(** C81: [left] and [empty] tell what is left. *)
Theorem left_and_empty_exact : forall c, inside c -> left c = N.of_nat (length (rest c)) /\ (at_end c = true <-> rest c = []).
Proof. exact left_empty_spec. Qed.
Print Assumptions left_and_empty_exact.

(** C82: exactly what a failed read leaves behind. *)
Theorem failed_read_leaves : forall t, wf_ty t -> forall old c c' v,
  inside c -> err c = false -> has_ty t old ->
  read_binary t old c = Ok (c', v) -> err c' = true -> leaves t old (rest c) v.
Proof. exact failed_leaves. Qed.
Print Assumptions failed_read_leaves.

(* ------------------------------------------------------------------ *)
(** Concrete cases. *)

(** map<string, pair<int16 big endian, optional<variant<uint8, vector<uint32>>>>> *)
Definition ex_ty : ty :=
  TMap TStr (TPair (TInt Big true 2) (TOpt (TVar [TInt Native false 1; TVec (TInt Little false 4)]))).
Definition ex_val : val :=
  VMap [(VStr [97]%N, VPair (VInt (-2)) (VOpt (Some (VVar 1 (VSeq [VInt 1; VInt 70000])))));
        (VStr [97; 98]%N, VPair (VInt 300) (VOpt None))].

Example ex_wf : wf_ty ex_ty.
Proof. cbn. lia. Qed.
Example ex_has_ty : has_ty ex_ty ex_val.
Proof. cbn. repeat (constructor; cbn); try reflexivity; unfold in_range; cbn; try lia. Qed.

Example ex_encode : encode ex_ty ex_val =
  [2;0;0;0; 1;0;0;0;97; 255;254; 1; 1; 2;0;0;0; 1;0;0;0; 112;17;1;0;
   2;0;0;0;97;98; 1;44; 0]%N.
Proof. vm_compute. reflexivity. Qed.

Example ex_reads_back :
  read_binary ex_ty (VMap [(VStr [], VPair (VInt 1) (VOpt None))]) (open_buffer (encode ex_ty ex_val ++ [9;9]%N)) =
  Ok (mkcursor (encode ex_ty ex_val ++ [9;9]%N) 34 false 2, ex_val).
Proof. vm_compute. reflexivity. Qed.

Example ex_writes : exists w, write_binary ex_ty ex_val (mkcursor (repeat 7%N 40) 3 false 0) = Ok w /\
  buf w = [7;7;7]%N ++ encode ex_ty ex_val ++ [7;7;7]%N /\ pos w = 37%N /\ err w = false.
Proof. eexists. split; [vm_compute; reflexivity|]. repeat split; vm_compute; reflexivity. Qed.

Example ex_truncated : exists c v,
  read_binary ex_ty (VMap []) (open_buffer (firstn 33 (encode ex_ty ex_val))) = Ok (c, v) /\
  err c = true /\ v = VMap [].
Proof. eexists _, _. split; [vm_compute; reflexivity|]. split; reflexivity. Qed.

Example ex_short_write : exists w, write_binary ex_ty ex_val (mkcursor (repeat 7%N 10) 0 false 0) = Ok w /\
  buf w = [2;0;0;0; 1;0;0;0;97; 7]%N /\ pos w = 9%N /\ err w = true.
Proof. eexists. split; [vm_compute; reflexivity|]. repeat split; vm_compute; reflexivity. Qed.

Example ex_ops : exists c, reader_run (open_buffer [1;2;3;4;5]%N)
  [RSkip 2; RRead (TInt Little false 2) (VInt 0); RSkip (-3); RSpan 3 true; RRead TStr (VStr [1]%N); RSkip (-1)] = Ok c /\
  pos c = 4%N /\ err c = true.
Proof. eexists. split; [vm_compute; reflexivity|]. split; reflexivity. Qed.

Example ex_skip_end : exists c, skip (open_buffer [1;2;3]%N) 3 = Ok c /\ pos c = 3%N /\ err c = false.
Proof. eexists. split; [vm_compute; reflexivity|]. split; reflexivity. Qed.

(** A map given in the wrong order, with a key twice and an optional marked by
    the byte 7, is accepted. *)
Definition ex_loose : list N := [3;0;0;0; 2;7;9; 1;0; 2;0]%N.
Definition ex_loose_ty : ty := TMap (TInt Native false 1) (TOpt (TInt Native true 1)).
Example ex_loose_represents : represents ex_loose_ty ex_loose
  (VMap [(VInt 1, VOpt None); (VInt 2, VOpt (Some (VInt 9)))]).
Proof.
  exists [(VInt 2, VOpt (Some (VInt 9))); (VInt 1, VOpt None); (VInt 2, VOpt None)], [[2;7;9]; [1;0]; [2;0]]%N.
  eexists. split; [reflexivity|]. split; [reflexivity|]. split; [|split; [|reflexivity]].
  - repeat constructor; cbn [fst snd].
    + exists [2]%N, [7;9]%N. split; [reflexivity|]. split.
      * exists 2%Z. unfold in_range. split; [reflexivity|]. split; [cbn; lia|reflexivity].
      * right. exists 7%N, [9]%N, (VInt 9). split; [discriminate|]. split; [reflexivity|]. split; [reflexivity|].
        exists 9%Z. unfold in_range. split; [reflexivity|]. split; [cbn; lia|reflexivity].
    + exists [1]%N, [0]%N. split; [reflexivity|]. split; [|now left].
      exists 1%Z. unfold in_range. split; [reflexivity|]. split; [cbn; lia|reflexivity].
    + exists [2]%N, [0]%N. split; [reflexivity|]. split; [|now left].
      exists 2%Z. unfold in_range. split; [reflexivity|]. split; [cbn; lia|reflexivity].
  - exact (first_of_each_collect _).
Qed.
Example ex_loose_read : exists c, read_binary ex_loose_ty (VMap []) (open_buffer ex_loose) =
  Ok (c, VMap [(VInt 1, VOpt None); (VInt 2, VOpt (Some (VInt 9)))]) /\ err c = false.
Proof. eexists. split; [vm_compute; reflexivity|]. reflexivity. Qed.

(** An unknown alternative is an error and keeps the variant. *)
Example ex_bad_index : exists c,
  read_binary (TVar [TInt Native false 1; TStr]) (VVar 1 (VStr [5]%N)) (open_buffer [2;0;0]%N) = Ok (c, VVar 1 (VStr [5]%N)) /\ err c = true.
Proof. eexists. split; [vm_compute; reflexivity|]. reflexivity. Qed.

(** A pair whose first half is cut keeps its second half. *)
Example ex_half_pair : exists c,
  read_binary (TPair TStr TStr) (VPair (VStr [5]%N) (VStr [6]%N)) (open_buffer [9;0;0;0;1]%N) = Ok (c, VPair (VStr []) (VStr [6]%N)) /\ err c = true.
Proof. eexists. split; [vm_compute; reflexivity|]. reflexivity. Qed.

Example ex_span : exists c, span (mkcursor [1;2;3;4]%N 1 false 0) 2 true = Ok (c, [2;3]%N) /\ pos c = 3%N /\
  peek (TInt Big false 2) (VInt 0) (mkcursor [1;2;3;4]%N 1 false 0) = Ok (VInt 515, true).
Proof. eexists. split; [vm_compute; reflexivity|]. split; reflexivity. Qed.
