(** C151-C156: user types with their own read_binary and write_binary. *)
From Coq Require Import List NArith ZArith Arith Bool Lia.
From Verif Require Import Base BinModel BinSpec AdaptModel AdaptSpec AdaptProofs AdaptWrite AdaptSamples.
Import ListNotations.

(** C151: [operator>>] on a stream that has failed empties containers and
    optionals and keeps everything else; the stream is as it was. *)
Theorem extraction_after_failure : forall t old c,
  wf_ty t -> has_ty t old -> inside c -> err c = true ->
  exists c', read_binary t old c = Ok (c', blanked t old) /\ err c' = true /\ pos c' = pos c /\ buf c' = buf c.
Proof. exact extraction_lemma. Qed.
Print Assumptions extraction_after_failure.

(** C151: that a failed stream leaves destinations alone is false for
    [operator>>], while [read] does leave them alone. *)
Theorem extraction_keeps_refuted : exists c old c' v, inside c /\ err c = true /\ has_ty TStr old /\
  read_binary TStr old c = Ok (c', v) /\ v <> old /\ read_into TStr old c = Ok (c, old, false).
Proof.
  exists (mkcursor [] 0 true 0), (VStr [65%N]), (mkcursor [] 0 true 0), (VStr []).
  split; [split; [cbn; lia|]; split; [reflexivity|constructor]|]. split; [reflexivity|]. split; [split; [repeat constructor|reflexivity]|].
  split; [reflexivity|]. split; [discriminate|reflexivity].
Qed.
Print Assumptions extraction_keeps_refuted.

(** C151: [read] in user code leaves the destination of a failed reader alone and
    says so; otherwise it is [operator>>] and a look at the error. *)
Theorem read_in_user_code : forall t old k h c,
  run (PRead t old k h) c =
  run (PLook (fun failed _ _ => if failed then k old false else PExtract t old (fun v => PLook (fun failed _ _ => k v (if failed then false else true))) h)) c.
Proof. exact read_is_extract. Qed.
Print Assumptions read_in_user_code.

(** C151: for types without user code that is [read] of C16. *)
Theorem read_of_members : forall t old k h c, wf_ty t -> has_ty t old ->
  run (PRead (as_user t) old k h) c = match read_into t old c with Ok (c', v, ok) => run (k v ok) c' | _ => Undef end.
Proof. exact read_is_read_into. Qed.
Print Assumptions read_of_members.

(** C152: reading a type with user code anywhere in it never leaves the buffer
    or changes it, whether it returns or throws; after a failure nothing moves
    any more and the error stays. *)
Theorem any_reader_stays_inside : forall t old c, careful t -> inside c ->
  ends_with (fun c' => inside c' /\ buf c' = buf c /\ (err c = true -> err c' = true /\ pos c' = pos c))
    (uread t old c).
Proof. exact any_reader_lemma. Qed.
Print Assumptions any_reader_stays_inside.

(** C153: the same for writing; a writer that has failed changes no byte. *)
Theorem any_writer_stays_inside : forall t v c, value_of t v -> inside c ->
  ends_with (fun c' => inside c' /\ size_bytes c' = size_bytes c /\
    (err c = true -> err c' = true /\ pos c' = pos c /\ buf c' = buf c)) (uwrite t v c).
Proof. exact any_writer_lemma. Qed.
Print Assumptions any_writer_stays_inside.

(** C154, C155: vectors of user types. *)
Theorem vector_of_users : forall t old c,
  careful t -> (forall t0, t = UStd t0 -> is_simple t0 = false) -> inside c ->
  read_in_turn (makes t) (fails_at t) gathers_vec (VSeq []) c (uread (UVec t) old c).
Proof. exact vec_lemma. Qed.
Print Assumptions vector_of_users.

(** C154, C155: sets. *)
Theorem set_of_users : forall t old c, careful t -> inside c ->
  read_in_turn (makes t) (fails_at t) gathers_set (VSet []) c (uread (USet t) old c).
Proof. exact set_lemma. Qed.
Print Assumptions set_of_users.

(** C154, C155: maps. *)
Theorem map_of_users : forall tk tv old c, careful tk -> careful tv -> inside c ->
  read_in_turn (makes_both tk tv)
    (fun c c' => fails_at tk c c' \/ exists k c1, makes tk c k c1 /\ err c1 = false /\ fails_at tv c1 c')
    gathers_map (VMap []) c (uread (UMap tk tv) old c).
Proof. exact map_lemma. Qed.
Print Assumptions map_of_users.

(** C155: optionals and variants keep what they held when an exception passes. *)
Theorem throwing_keeps : forall t ts old c c' v,
  (uread (UOpt t) old c = Threw c' v -> v = old) /\ (uread (UVar ts) old c = Threw c' v -> v = old).
Proof. exact opt_var_lemma. Qed.
Print Assumptions throwing_keeps.

(** C155: pairs keep what was read of the first half, and what the half that
    threw was left as. *)
Theorem throwing_pair : forall a b x y c c' v, err c = false -> uread (UPair a b) (VPair x y) c = Threw c' v ->
  (exists x', uread a x c = Threw c' x' /\ v = VPair x' y) \/
  (exists x' y' c1, uread a x c = Done c1 x' /\ err c1 = false /\ uread b y c1 = Threw c' y' /\ v = VPair x' y').
Proof. exact pair_throw_lemma. Qed.
Print Assumptions throwing_pair.

(** C155: after an exception the container is neither empty nor what it was, and
    the stream looks as if all was well. *)
Theorem throwing_is_clean_refuted : exists c old c' v, inside c /\ err c = false /\
  uread (UVec token) old c = Threw c' v /\ v <> VSeq [] /\ v <> old /\ err c' = false.
Proof.
  exists (open_buffer [2;0;0;0; 7;1;0;0;0;65; 1]%N), (VSeq [tok 9 []; tok 9 []]),
    (mkcursor [2;0;0;0; 7;1;0;0;0;65; 1]%N 11 false 2), (VSeq [tok 7 [65%N]]).
  split; [split; [cbn; lia|]; split; [reflexivity|repeat constructor]|]. split; [reflexivity|].
  split; [vm_compute; reflexivity|]. split; [discriminate|]. split; [discriminate|reflexivity].
Qed.
Print Assumptions throwing_is_clean_refuted.

(** C156: if the adapters of the user types in a type agree about the bytes of
    their values, everything made of them is read back as written. *)
Theorem adapters_round_trip : forall t v bs w r,
  agreed t v bs -> inside w -> err w = false -> (pos w + N.of_nat (length bs) <= size_bytes w)%N ->
  exists w', uwrite t v w = Done w' tt /\ err w' = false /\ pos w' = (pos w + N.of_nat (length bs))%N /\
    (buf r = buf w' -> pos r = pos w -> err r = false ->
     exists r', uread t (fresh_of t) r = Done r' v /\ err r' = false /\ pos r' = pos w' /\ buf r' = buf r).
Proof. exact fit_lemma. Qed.
Print Assumptions adapters_round_trip.

(** C156: streaming the members one after another is such an adapter, and all
    types without user code behave as C13-C19 and C80-C82 say. *)
Theorem members_are_adapters : forall t,
  (forall old c, wf_ty t -> has_ty t old -> uread (as_user t) old c = ended (read_binary t old c)) /\
  (forall v c, has_ty t v -> uwrite (as_user t) v c = wrote (write_binary t v c)).
Proof. intros t. split; [intros old c Hw; now apply same_read_lemma|intros v c; apply same_write_lemma]. Qed.
Print Assumptions members_are_adapters.

(* ------------------------------------------------------------------ *)
(** ** Examples *)

Example ex_token_careful : careful token.
Proof.
  cbn. intros old. split; [repeat split; lia|]. split; [|trivial]. intros tag e l n. destruct e; [exact I|].
  assert (H : careful_reader (PExtract (UStd TStr) (VStr []) (fun s => PRet (VPair tag s)) (fun _ => PThrow old))) by (cbn; auto).
  destruct tag as [z| | | | | | | |]; try exact H. destruct z as [|p|p]; [exact H| |exact H].
  destruct p as [p|p|]; [exact H| |exact I]. destruct p; [exact H|exact H|exact I].
Qed.

Example ex_tokens : uread (UVec token) (VSeq []) (open_buffer [2;0;0;0; 7;1;0;0;0;65; 0;0;0;0;0; 99]%N) =
  Done (mkcursor [2;0;0;0; 7;1;0;0;0;65; 0;0;0;0;0; 99]%N 15 false 2) (VSeq [tok 7 [65%N]; tok 0 []]).
Proof. vm_compute. reflexivity. Qed.

(** The second element is reported as an error. *)
Example ex_tokens_failed : exists c, uread (UVec token) (VSeq []) (open_buffer [2;0;0;0; 7;1;0;0;0;65; 2]%N) = Done c (VSeq []) /\
  err c = true.
Proof. eexists. vm_compute. split; reflexivity. Qed.

(** The same tokens in a map and an optional. *)
Example ex_token_map : exists c,
  uread (UMap (UStd u8) token) (VMap []) (open_buffer [2;0;0;0; 5; 7;0;0;0;0; 4; 1]%N) = Threw c (VMap [(VInt 5, tok 7 [])]) /\
  pos c = 12%N /\ err c = false.
Proof. eexists. vm_compute. repeat split. Qed.

Example ex_token_opt : exists c, uread (UOpt token) (VOpt (Some (tok 3 []))) (open_buffer [1; 1]%N) = Threw c (VOpt (Some (tok 3 []))).
Proof. eexists. vm_compute. reflexivity. Qed.

(** The adapters of tokens agree, except about the two tags that are refused. *)
Example ex_token_carried : forall z s, (0 <= z < 256)%Z -> z <> 1%Z -> z <> 2%Z -> Forall is_octet s -> fits s ->
  carried token (tok z s) (encode u8 (VInt z) ++ encode TStr (VStr s)).
Proof.
  intros z s Hz H1 H2 Hs Hf.
  assert (C1 : carried (UStd u8) (VInt z) (encode u8 (VInt z))) by (apply std_carried; [cbn; lia|cbn; lia]).
  assert (C2 : carried (UStd TStr) (VStr s) (encode TStr (VStr s))) by (apply std_carried; [exact I|split; assumption]).
  split; [apply Forall_app; split; [apply C1|apply C2]|]. split.
  - intros c Hi He Hr. destruct (wr_seq (uwrite (UStd u8) (VInt z)) (uwrite (UStd TStr) (VStr s)) _ _ (proj1 C1) (proj1 (proj2 C1))
      (proj1 (proj2 C2)) c Hi He Hr) as (c' & E & K). exists c'. split; [|exact K].
    unfold token, tok, token_write. cbn [uwrite wrun] in *. destruct (wrote (write_binary u8 (VInt z) c)) as [c1 []|c1 []|]; cbn [then_write] in E; try discriminate.
    rewrite E. reflexivity.
  - apply reads_rd. destruct C1 as (_ & _ & C1), C2 as (_ & _ & C2). apply reads_rd in C1. apply reads_rd in C2.
    intros c pre post Hi He Hb Hp. rewrite <- app_assoc in Hb. destruct (C1 c pre _ Hi He Hb Hp) as (c1 & E1 & M1).
    destruct (C2 c1 (pre ++ encode u8 (VInt z)) post) as (c2 & E2 & M2).
    + eapply BinProofs.inside_moved_app; eauto.
    + apply M1.
    + rewrite (proj1 M1), Hb. now rewrite <- app_assoc.
    + apply M1.
    + exists c2. split; [|rewrite app_assoc; eapply BinProofs.moved_trans; eauto].
      unfold token, token_read, tok. cbn [uread run fresh_of] in *. change (dflt u8) with (VInt 0) in E1. rewrite E1.
      rewrite (proj2 (proj2 M1)). change (dflt TStr) with (VStr []) in E2.
      assert (Q : run (PExtract (UStd TStr) (VStr []) (fun s0 => PRet (VPair (VInt z) s0)) (fun _ => PThrow (VPair (VInt 0) (VStr [])))) c1 =
        Done c2 (VPair (VInt z) (VStr s))) by (cbn [run uread]; rewrite E2; reflexivity).
      destruct z as [|p|p]; [exact Q| |exact Q]. destruct p as [p|p|]; [exact Q| |congruence]. destruct p; [exact Q|exact Q|congruence].
Qed.

Example ex_agreed : agreed (UMap (UStd u8) (UVec token)) (VMap [(VInt 5, VSeq [tok 7 [65%N]]); (VInt 6, VSeq [])])
  [2;0;0;0; 5; 1;0;0;0; 7;1;0;0;0;65; 6; 0;0;0;0]%N.
Proof.
  cbn [agreed]. exists [(VInt 5, VSeq [tok 7 [65%N]]); (VInt 6, VSeq [])], [[5; 1;0;0;0; 7;1;0;0;0;65]%N; [6; 0;0;0;0]%N].
  split; [reflexivity|]. split; [reflexivity|]. split; [cbn; repeat constructor|]. split; [|reflexivity].
  constructor; [|constructor; [|constructor]].
  - exists [5%N], [1;0;0;0; 7;1;0;0;0;65]%N. split; [reflexivity|]. split; [cbn; split; [lia|split; [lia|reflexivity]]|].
    exists [tok 7 [65%N]], [[7;1;0;0;0;65]%N]. split; [reflexivity|]. split; [reflexivity|]. split; [|reflexivity].
    constructor; [|constructor]. apply (ex_token_carried 7 [65%N]); try lia; [repeat constructor|reflexivity].
  - exists [6%N], [0;0;0;0]%N. split; [reflexivity|]. split; [cbn; split; [lia|split; [lia|reflexivity]]|].
    exists [], []. repeat split. constructor.
Qed.

(** A writer that goes back. *)
Example ex_framed : uwrite (UUser (VStr []) reuse_read framed_write) (VStr [65; 66]%N) (mkcursor [9;9;9;9;9]%N 1 false 0) =
  Done (mkcursor [9;2;65;66;9]%N 4 false 0) tt.
Proof. vm_compute. reflexivity. Qed.

(** On a failed stream user code runs all the same, and empties the string. *)
Example ex_reuse : uread reuse (VStr [65%N]) (mkcursor [] 0 true 0) = Done (mkcursor [] 0 true 0) (VStr []).
Proof. vm_compute. reflexivity. Qed.

Example ex_members : exists c v, read_binary test_struct (VSeq [VRaw (repeat 1%N 16); VInt 7; VStr [65%N]])
  (open_buffer (repeat 2%N 17)) = Ok (c, VSeq [VRaw (repeat 2%N 16); VInt 7; v]) /\ v = VStr [] /\ err c = true.
Proof. eexists _, _. vm_compute. repeat split. Qed.

Example ex_members_round : read_binary (TVec test_struct) (VSeq [])
    (open_buffer (encode (TVec test_struct) (VSeq [VSeq [VRaw (repeat 1%N 16); VInt (-2); VStr [65%N]]]))) =
  Ok (mkcursor (encode (TVec test_struct) (VSeq [VSeq [VRaw (repeat 1%N 16); VInt (-2); VStr [65%N]]])) 29 false 1,
    VSeq [VSeq [VRaw (repeat 1%N 16); VInt (-2); VStr [65%N]]]).
Proof. vm_compute. reflexivity. Qed.
