(** Properties C110, C111: documents made and taken apart by hand. *)
From Coq Require Import String List NArith ZArith Bool Lia.
From Verif Require Import Base PathModel ScalarModel SerialModel SerialSpec SerialSamples SerialMsgModel BuildModel BuildSpec BuildProofs BuildSamples.
Import ListNotations.
Local Open Scope list_scope.

(** C110: adding values to an array builder gives the document of the tuple of the values, and fails as it does. *)
Theorem array_built_as_tuple : forall be skip tvs,
  one_document (array_calls be skip (map (fun tv => AAdd (fst tv) (snd tv)) tvs ++ [ADone]) new_array) =
  match serialize be skip (TTup (map fst tvs)) (VSeq (map snd tvs)) with
  | Ok d => Ok [d] | Throws => Throws | UB => UB end.
Proof. exact array_built_lemma. Qed.
Print Assumptions array_built_as_tuple.

(** C110: adding named values to an object builder gives the document of the struct with these members, all
    of them [emit_null], when the names survive; for YAML they must be different. *)
Theorem object_built_as_struct : forall be skip m m' es ns, names_in m es ns -> names_survive be m' es ns ->
  match be with Json _ => True | Yaml _ => NoDup ns end ->
  build_object be skip m m' es =
  serialize be skip (TRec (map (fun ne => emitting (fst ne) (e_type (snd ne))) (combine ns es))) (VRec (map e_value es)).
Proof. exact object_built_lemma. Qed.
Print Assumptions object_built_as_struct.

(** [add] keeps the view: the document can be read no more when the buffer of the name is gone, and has another name
    when it is overwritten. *)
Theorem names_survive_refuted : forall fp, exists m m1 m2 es d d2, build_object (Json fp) true m m es = Ok d /\
  build_object (Json fp) true m m1 es = UB /\ build_object (Json fp) true m m2 es = Ok d2 /\ d <> d2.
Proof.
  intros fp. exists two_names, one_gone, one_changed, (point_entries false).
  eexists. eexists. split; [vm_compute; reflexivity|]. split; [vm_compute; reflexivity|]. split; [vm_compute; reflexivity|]. discriminate.
Qed.
Print Assumptions names_survive_refuted.

(** A name added twice: the first value is found in JSON, the last in YAML. *)
Theorem repeated_name_refuted : forall fp ft, exists m es n mj my,
  build_object (Json fp) true m m es = Ok (JObj mj) /\ build_object (Yaml ft) true m m es = Ok (JObj my) /\
  at_field mj n = enc_int (Json fp) 1 /\ at_field my n = enc_int (Yaml ft) 2.
Proof.
  intros fp ft. exists two_names, (twice true), (bytes "id"). eexists. eexists.
  split; [vm_compute; reflexivity|]. split; [vm_compute; reflexivity|]. split; vm_compute; reflexivity.
Qed.
Print Assumptions repeated_name_refuted.

(** A second [done] of JSON gives null; adding after [done] is undefined in JSON and changes the document
    that was returned in YAML. *)
Theorem done_again_refuted : forall fp ft,
  (exists s d, array_calls (Json fp) true [AAdd int32 (VInt 1); ADone; ADone] new_array = Ok (s, [d; JNull]) /\ d <> JNull) /\
  array_calls (Json fp) true [ADone; AAdd int32 (VInt 1)] new_array = UB /\
  (exists s d, array_calls (Yaml ft) true [ADone; AAdd int32 (VInt 1)] new_array = Ok (s, [d]) /\ d <> JArr []).
Proof.
  intros fp ft. split; [|split].
  - eexists. eexists. split; [vm_compute; reflexivity | discriminate].
  - vm_compute. reflexivity.
  - eexists. eexists. split; [vm_compute; reflexivity | discriminate].
Qed.
Print Assumptions done_again_refuted.

(** C111: extracting members reads them as the struct with these members, without attributes, does, and
    reports the same but for the line with the name of the struct. *)
Theorem object_extracted_as_struct : forall be tname ms fs vs, Forall (fun f => ~ In 0%N (fst f)) fs -> length fs = length vs ->
  let struct := map (fun f => bare (fst f) (snd f)) fs in
  xdeser be tname (TRec struct) (JObj ms) (VRec vs) =
  (VRec (fst (from_object be tname (JObj ms) fs vs)),
   option_map (add (LType Deserializing (tname struct))) (snd (from_object be tname (JObj ms) fs vs))).
Proof. exact from_object_lemma. Qed.
Print Assumptions object_extracted_as_struct.

(** C111: extracting elements one after the other reads them as that struct does from an array. *)
Theorem array_extracted_as_struct : forall be tname js fs vs, length fs = length vs -> (N.of_nat (length fs) < 2 ^ 32)%N ->
  length js <= length fs ->
  let struct := map (fun f => bare (fst f) (snd f)) fs in
  let calls := map (fun f => (snd f, None)) fs in
  xdeser be tname (TRec struct) (JArr js) (VRec vs) =
  (VRec (fst (fst (from_array be tname (JArr js) calls vs))),
   option_map (add (LType Deserializing (tname struct))) (snd (from_array be tname (JArr js) calls vs))).
Proof. exact from_array_lemma. Qed.
Print Assumptions array_extracted_as_struct.

(** C111: what was built is extracted again, under the conditions of C30 for each value. *)
Theorem built_object_extracted : forall be tname skip m m' es ns ws d, names_in m es ns -> names_survive be m' es ns -> NoDup ns ->
  Forall (fun n => ~ In 0%N n) ns -> Forall2 (comes_back be skip) es ws ->
  build_object be skip m m' es = Ok d ->
  from_object be tname d (combine ns (map e_type es)) ws = (map e_value es, None).
Proof. exact object_kept_lemma. Qed.
Print Assumptions built_object_extracted.

Theorem built_array_extracted : forall be tname skip tvs ws d, (N.of_nat (length tvs) < 2 ^ 32)%N ->
  Forall2 (element_back be skip) tvs ws ->
  one_document (array_calls be skip (map (fun tv => AAdd (fst tv) (snd tv)) tvs ++ [ADone]) new_array) = Ok [d] ->
  from_array be tname d (map (fun tv => (fst tv, None)) tvs) ws = (map snd tvs, N.of_nat (length tvs), None).
Proof. exact array_kept_lemma. Qed.
Print Assumptions built_array_extracted.

(** A name with a zero in it cannot be extracted. *)
Theorem any_name_extracted_refuted : forall be tname, exists n j t v, In 0%N n /\
  deser be t j (default_of t) = (v, None) /\
  snd (from_object be tname (JObj [(n, j)]) [(n, t)] [default_of t]) <> None.
Proof.
  intros be tname. exists [97; 0; 98]%N, (enc_int be 1), int32, (VInt 1). split; [cbn; auto|].
  split; [destruct be; vm_compute; reflexivity | destruct be; vm_compute; discriminate].
Qed.
Print Assumptions any_name_extracted_refuted.

(** After [extract(out, 4294967295)] the next element is the first. *)
Theorem index_grows_refuted : forall be tname, exists js t k i v, at_index js 0 <> JNull /\
  extract_element be tname js t (Some k) 0 v = (v, i, None) /\ (i < k)%N.
Proof.
  intros be tname. exists [JStr []], (TOpt TStr), 4294967295%N, 0%N, VNone. split; [discriminate|]. split; [|reflexivity].
  unfold extract_element. replace (at_index [JStr []] (N.to_nat 4294967295)) with JNull; [reflexivity|].
  unfold at_index. replace (nth_error [JStr []] (N.to_nat 4294967295)) with (@None json); [reflexivity|].
  symmetry. apply nth_error_None. cbn [length]. lia.
Qed.
Print Assumptions index_grows_refuted.

Example point_built : forall fp ft,
  build_object (Json fp) true two_names one_gone (point_entries true) =
    Ok (JObj [(bytes "id", JInt 7); (bytes "tag", JStr [120%N])]) /\
  build_object (Yaml ft) true two_names one_gone (point_entries false) =
    Ok (JObj [(bytes "id", JStr (bytes "7")); (bytes "tag", JStr [120%N])]) /\
  names_in two_names (point_entries true) point_names /\ names_survive (Json fp) one_gone (point_entries true) point_names.
Proof.
  intros. split; [vm_compute; reflexivity|]. split; [vm_compute; reflexivity|]. split; [|cbn [names_survive]]; repeat constructor.
Qed.

Example point_extracted : forall be,
  from_object be struct_name (JObj [(bytes "id", enc_int be 7); (bytes "tag", JStr [120%N])])
    [(bytes "tag", TStr); (bytes "none", TOpt int32); (bytes "id", TStr); (bytes "id", int32)] [VStr []; VSome (VInt 3); VStr []; VInt 0] =
  match be with
  | Json _ => ([VStr [120%N]; VNone; VStr []; VInt 0],
               Some (Error (CExpected (bytes "a string") (bytes "kNumberType")) [LField Deserializing (bytes "id")]))
  | Yaml _ => ([VStr [120%N]; VNone; VStr (bytes "7"); VInt 7], None)
  end.
Proof. intros []; vm_compute; reflexivity. Qed.

Example row_extracted : forall be,
  from_array be struct_name (JArr [enc_int be 1; enc_int be 2; enc_int be 3])
    [(int32, None); (int32, Some 2%N); (TOpt int32, None); (int32, Some 0%N)] [VInt 0; VInt 0; VNone; VInt 0] =
  ([VInt 1; VInt 3; VNone; VInt 1], 1%N, None).
Proof. intros []; vm_compute; reflexivity. Qed.
