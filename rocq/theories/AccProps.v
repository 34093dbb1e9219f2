(** Fields reached through accessors: the claims C145 and C146. *)
From Coq Require Import List NArith ZArith Arith Bool Lia.
From Verif Require Import Base EnumModel EnumSpec SerialModel SerialSpec SerialSamples AccModel AccSpec AccProofs AccRoundProofs AccSamples.
Import ListNotations.

(* ------------------------------------------------------------------ *)
(** ** C145 *)

(** Places that do not overlap behave as the members of a struct, whatever the object they are in; the rest of it stays. *)
Theorem accessors_read_like_members : forall be fs ws j o vs,
  Forall2 located fs ws -> apart (places ws) -> Forall2 (holds o) ws vs ->
  exists o' vs' e, acc_deser be fs j o = Did o' e /\ deser be (TRec (described fs)) j (VRec vs) = (VRec vs', e) /\
    Forall2 (holds o') ws vs' /\ (forall q, Forall (fun p => ~ overlap p q) (places ws) -> load o' q = load o q).
Proof. exact deser_refines. Qed.
Print Assumptions accessors_read_like_members.

Theorem accessors_patched_like_members : forall be fs ws j o vs,
  Forall2 located fs ws -> apart (places ws) -> Forall2 (holds o) ws vs ->
  exists o' vs' e, acc_patch be fs j o = Did o' e /\ patch be (TRec (described fs)) j (VRec vs) = (VRec vs', e) /\
    Forall2 (holds o') ws vs' /\ (forall q, Forall (fun p => ~ overlap p q) (places ws) -> load o' q = load o q).
Proof. exact patch_refines. Qed.
Print Assumptions accessors_patched_like_members.

(** Written are the values the accessors give, overlapping or not, computed or not. *)
Theorem accessors_written_like_members : forall be skip fs o vs,
  Forall2 (fun fd v => a_skip_ser (af_attrs fd) = true \/ value o fd = Some v) fs vs ->
  acc_serialize be skip fs o = serialize be skip (TRec (described fs)) (VRec vs).
Proof. exact serialize_views. Qed.
Print Assumptions accessors_written_like_members.

(** A field whose accessor refers to nothing is never left out. *)
Theorem accessors_written_need_their_places : forall be skip fs o fd j,
  In fd fs -> a_skip_ser (af_attrs fd) = false -> value o fd = None -> acc_serialize be skip fs o <> Ok j.
Proof. exact serialize_needs. Qed.
Print Assumptions accessors_written_need_their_places.

Example manual_written : forall fp, acc_serialize (Json fp) true manual manual_object = Ok manual_doc.
Proof. reflexivity. Qed.
Example manual_read : forall fp,
  acc_deser (Json fp) manual manual_doc (VRec [VRec [VInt 0; VInt 0]; VInt 0; VInt 9]) = Did manual_object None.
Proof. reflexivity. Qed.
Example manual_failed : forall fp,
  acc_deser (Json fp) manual (JObj [([82%N], JInt 5); ([68%N], JBool true)]) manual_object =
    Did (VRec [VRec [VInt 5; VInt 2]; VInt 3; VInt 4]) (Some EDeser).
Proof. reflexivity. Qed.
Example manual_patched : forall fp,
  acc_patch (Json fp) manual (JObj [([68%N], JInt 6)]) manual_object = Did (VRec [VRec [VInt 1; VInt 6]; VInt 3; VInt 4]) None.
Proof. reflexivity. Qed.
Example manual_located : Forall2 located manual manual_places /\ apart (places manual_places) /\
  Forall2 (holds manual_object) manual_places [VInt 1; VInt 2; VInt 3; VInt 4; VNone].
Proof.
  split; [|split].
  - repeat (first [constructor | eexists; split; [reflexivity|reflexivity]]).
  - cbn. repeat split; repeat constructor; intros [[r H]|[r H]]; discriminate.
  - repeat constructor.
Qed.

(* ------------------------------------------------------------------ *)
(** ** C146 *)

(** Overlapping or not, an object comes back: every place that is read holds what it held in the object that was
    written, as long as it exists when its turn comes. *)
Theorem accessors_round_trip : forall be skip T fs ws o1 o2 vs j,
  wf (TRec (described fs)) -> typed (TRec (described fs)) (VRec vs) -> typed T o1 -> typed T o2 ->
  Forall2 located fs ws -> Forall2 (has_type T) fs ws -> Forall2 (fun fd v => value o1 fd = Some v) fs vs ->
  (forall fd p, In (fd, Some p) (combine fs ws) -> a_skip_deser (af_attrs fd) = false) ->
  (forall us, typed (TRec (described fs)) (VRec us) ->
     (forall i fd, nth_error fs i = Some fd -> a_skip_deser (af_attrs fd) = true -> nth_error us i = nth_error vs i) ->
     rt be skip (TRec (described fs)) (VRec vs) (VRec us)) ->
  found_in_turn o2 [] (places ws) ->
  acc_serialize be skip fs o1 = Ok j ->
  exists o', acc_deser be fs j o2 = Did o' None /\ typed T o' /\
    (forall p, In p (places ws) -> load o' p = load o1 p) /\
    (forall q, Forall (fun p => ~ overlap p q) (places ws) -> load o' q = load o2 q).
Proof. exact round_trip. Qed.
Print Assumptions accessors_round_trip.

(** Of the fields at one place the last one decides. *)
Theorem last_accessor_wins : forall be fs1 fd fs2 ws2 ms o o' p x, wf (TRec (described (fs1 ++ fd :: fs2))) ->
  (any_extra_or_flatten (described (fs1 ++ fd :: fs2)) = true -> distinct_names (TRec (described (fs1 ++ fd :: fs2)))) ->
  acc_deser be (fs1 ++ fd :: fs2) (JObj ms) o = Did o' None ->
  refers_to fd p -> Forall2 located fs2 ws2 -> Forall (fun q => ~ overlap q p) (places ws2) -> load o' p = Some x ->
  exists w, field_reads (deser be) (all_names (TRec (described (fs1 ++ fd :: fs2)))) ms (af_attrs fd, af_type fd) w (x, None).
Proof. exact last_wins. Qed.
Print Assumptions last_accessor_wins.

(** A place must be there: the front of a vector in front of the vector. *)
Theorem accessors_round_trip_any_order_refuted : forall fp,
  ~ (forall fs o1 o2 j, typed vec_ty o1 -> typed vec_ty o2 -> reading_compiles fs = true ->
       acc_serialize (Json fp) true fs o1 = Ok j -> exists o', acc_deser (Json fp) fs j o2 = Did o' None).
Proof.
  intros fp H. destruct (H front_first some_vec no_vec (JObj [([102%N], JInt 1); ([118%N], JArr [JInt 1; JInt 2])])) as [o' E].
  - cbn. unfold of_type. cbn. repeat split; lia.
  - cbn. tauto.
  - reflexivity.
  - reflexivity.
  - discriminate E.
Qed.
Print Assumptions accessors_round_trip_any_order_refuted.

(** A document with different values for the fields of one place does not come back, nor does a field whose
    neighbour has a default. *)
Theorem accessors_keep_documents_refuted : forall fp,
  (exists ms o', acc_deser (Json fp) twice (JObj ms) (VRec [VInt 0]) = Did o' None /\
     exists j, acc_serialize (Json fp) true twice o' = Ok j /\ j <> JObj ms) /\
  (exists o', acc_deser (Json fp) twice_default (JObj [([97%N], JInt 5)]) (VRec [VInt 0]) = Did o' None /\
     load o' [Sub 0] = Some (VInt 7)).
Proof.
  intros fp. split.
  - exists [([97%N], JInt 1); ([114%N], JInt 2)]. eexists. split; [reflexivity|]. eexists. split; [reflexivity|discriminate].
  - eexists. split; reflexivity.
Qed.
Print Assumptions accessors_keep_documents_refuted.

(** Validators are given what the accessor refers to after the reading, which may be another place. *)
Theorem accessor_validators_see_what_was_read_refuted : forall fp,
  (exists o o', acc_deser (Json fp) either (JObj [([120%N], JInt 500)]) o = Did o' None /\
     load o' [Sub 0] = Some (VInt 500) /\ at_most_100 (VInt 500) <> Accept) /\
  (exists o o', acc_deser (Json fp) either (JObj [([120%N], JInt 50)]) o = Did o' None) /\
  (exists o o', acc_deser (Json fp) either (JObj [([120%N], JInt 101)]) o = Did o' (Some EDeser) /\
     load o' [Sub 1] = Some (VInt 200)).
Proof.
  intros fp. split; [|split].
  - exists (VRec [VInt 1; VInt 3]). eexists. split; [reflexivity|]. split; [reflexivity|discriminate].
  - exists (VRec [VInt 1; VInt 3]). eexists. reflexivity.
  - exists (VRec [VInt 1; VInt 200]). eexists. split; reflexivity.
Qed.
Print Assumptions accessor_validators_see_what_was_read_refuted.

Example vector_then_front : forall fp, exists o',
  acc_deser (Json fp) vec_first (JObj [([118%N], JArr [JInt 1; JInt 2]); ([102%N], JInt 1)]) no_vec = Did o' None /\
  load o' [Sub 0] = load some_vec [Sub 0] /\ load o' [Sub 0; Sub 0] = load some_vec [Sub 0; Sub 0].
Proof.
  intros fp.
  destruct (accessors_round_trip (Json fp) true vec_ty vec_first [Some [Sub 0]; Some [Sub 0; Sub 0]] some_vec no_vec
    [VSeq [VInt 1; VInt 2]; VInt 1] (JObj [([118%N], JArr [JInt 1; JInt 2]); ([102%N], JInt 1)])) as [o' [H1 [_ [H2 _]]]].
  - cbn. unfold field_ok, int_type, of_type. cbn.
    repeat split; try lia; try discriminate; auto; repeat (constructor; [cbn; intuition discriminate|]); constructor.
  - cbn. unfold of_type. cbn. repeat split; lia.
  - cbn. unfold of_type. cbn. repeat split; lia.
  - cbn. tauto.
  - repeat (first [constructor | eexists; split; [reflexivity|reflexivity]]).
  - repeat constructor.
  - repeat constructor.
  - intros fd p [E|[E|[]]]; injection E as <- <-; reflexivity.
  - intros us Hu _. destruct us as [|u1 [|u2 [|u3 us]]]; cbn in Hu; try tauto.
    cbn. repeat split; try lia; auto; try (repeat (constructor; [cbn; intuition discriminate|]); constructor); intros f [].
  - split; [left; discriminate|]. split; [|exact I]. right. exists [Sub 0]. split; [left; reflexivity|]. exists [Sub 0]. reflexivity.
  - reflexivity.
  - exists o'. split; [exact H1|]. split; apply H2; cbn; auto.
Qed.

Example front_in_front : forall fp,
  acc_deser (Json fp) front_first (JObj [([102%N], JInt 1); ([118%N], JArr [JInt 1; JInt 2])]) no_vec = Undef.
Proof. reflexivity. Qed.
Example nothing_in_front : forall fp j, acc_serialize (Json fp) true front_first no_vec <> Ok j.
Proof. intros fp j. apply (accessors_written_need_their_places _ _ _ _ (hd (mkafield (plain [] VNone) int32 (Value sum)) front_first)); [now left | reflexivity | reflexivity]. Qed.
Example both_places : forall fp,
  acc_deser (Json fp) twice (JObj [([97%N], JInt 1); ([114%N], JInt 2)]) (VRec [VInt 0]) = Did (VRec [VInt 2]) None.
Proof. reflexivity. Qed.
(** A computed field that is read does not compile. *)
Example computed_field_read : forall fp j o,
  acc_deser (Json fp) [mkafield (plain [83%N] (VInt 0)) int32 (Value sum)] j o = Rejected.
Proof. reflexivity. Qed.
