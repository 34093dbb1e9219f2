(** C178: paths and memory. *)
From Coq Require Import List NArith Arith Bool Lia.
From Verif Require Import Base PathModel PathSpec PmemModel PmemSpec PmemSamples PmemProofs PmemSetProofs.
Import ListNotations.

(** Whatever the memory does, [set] has the result it has without regard to memory, or a request was refused. *)
Theorem memory_refines : forall heap m s p,
  match m_set heap m s with
  | MOk m' => path_set p s = POk (path_of m')
  | MThrow m' => path_set p s = PThrow (path_of m')
  | MNoMem m' => exists k, length (asked m) <= k < length (asked m') /\ heap k = None
  | MUB => False
  end.
Proof. exact set_refines. Qed.
Print Assumptions memory_refines.

(** Memory for the text is asked for once at most, by [reserve]: no character appended later needs any.  Memory for segments is asked for
    exactly if the text passes through more of them than there is place for. *)
Theorem memory_requests : forall heap m s m', left_over (m_set heap m s) = Some m' ->
  exists t l, asked m' = asked m ++ t ++ l /\ (t = [] \/ t = [Text (length s)]) /\ (length s <= tcap m -> t = []) /\
    Forall for_segments l /\
    ((length s <= tcap m \/ heap (length (asked m)) <> None) ->
     (l = [] <-> forall segs, passes s segs -> length segs <= scap m)).
Proof. exact set_requests. Qed.
Print Assumptions memory_requests.

(** So a path that has held a longer text is set without any memory, if there are places for the segments. *)
Theorem memory_not_needed : forall heap m s p, length s <= tcap m -> (forall segs, passes s segs -> length segs <= scap m) ->
  exists m', asked m' = asked m /\ tcap m' = tcap m /\
    ((m_set heap m s = MOk m' /\ path_set p s = POk (path_of m')) \/ (m_set heap m s = MThrow m' /\ path_set p s = PThrow (path_of m'))).
Proof. exact set_quiet. Qed.
Print Assumptions memory_not_needed.

(** There are no more segments than pieces between slashes; 15 need no memory in any path. *)
Theorem memory_pieces : forall s segs, passes s segs -> length segs <= length (pieces s).
Proof. exact passes_length. Qed.
Print Assumptions memory_pieces.

(** A refused request leaves a path with the segments of a beginning of the text, and all that can be read of it is defined; nothing
    of the memory is lost. *)
Theorem memory_refused : forall heap m s m', m_set heap m s = MNoMem m' ->
  exists segs, passes s segs /\ shows (path_of m') segs /\ within m' /\ scap m <= scap m' /\ tcap m <= tcap m'.
Proof. exact set_failure. Qed.
Print Assumptions memory_refused.

(** Such a path, like any other, can be set again when there is memory. *)
Theorem memory_again : forall heap m s p, (forall k, heap k <> None) ->
  exists m', (m_set heap m s = MOk m' /\ path_set p s = POk (path_of m')) \/ (m_set heap m s = MThrow m' /\ path_set p s = PThrow (path_of m')).
Proof. exact set_again. Qed.
Print Assumptions memory_again.

(** But the old path is lost, and [joined] then returns a segment that the path does not have. *)
Theorem memory_refused_refuted :
  exists heap m s m' segs, m_set heap m s = MNoMem m' /\ shows (path_of m') segs /\ segments_ (path_of m) <> [] /\
    path_of m' <> path_of m /\ joined (path_of m') 0 <> Ok (join segs).
Proof.
  destruct (m_set once (mkmem (mkpath [98%N] [mkseg 0 1]) 15 15 []) (letters 16)) as [m'|m'|m'|] eqn:E; try (vm_compute in E; discriminate).
  exists once, (mkmem (mkpath [98%N] [mkseg 0 1]) 15 15 []), (letters 16), m', (repeat [97%N] 15).
  split; [exact E|]. vm_compute in E. injection E as <-. split.
  - split; [reflexivity|]. split.
    + intros i seg H. do 15 (destruct i as [|i]; [cbn in H; injection H as <-; reflexivity|]). cbn in H. destruct i; discriminate.
    + intros k. do 15 (destruct k as [|k]; [eexists; reflexivity|]). exists []. reflexivity.
  - split; [discriminate|]. split; [discriminate|]. vm_compute. discriminate.
Qed.
Print Assumptions memory_refused_refuted.

(** Fifteen segments in a new path ask for the text only; sixteen for segments as well. *)
Example asked_fifteen : option_map asked (left_over (m_set plenty (m_default 15) (letters 15))) = Some [Text 29].
Proof. vm_compute. reflexivity. Qed.
Example asked_sixteen : option_map asked (left_over (m_set plenty (m_default 15) (letters 16))) = Some [Text 31; Segs 16].
Proof. vm_compute. reflexivity. Qed.
(** Forty-one segments one after the other need one place. *)
Example asked_one_place : option_map asked (left_over (m_set plenty (m_default 15) (up_and_down 40))) = Some [Text 201].
Proof. vm_compute. reflexivity. Qed.
(** A short text needs no memory; a long one fails at once without. *)
Example asked_short : exists m', m_set no_memory (m_default 15) (letters 8) = MOk m' /\ asked m' = [].
Proof. eexists. split; [vm_compute; reflexivity|reflexivity]. Qed.
Example asked_long : exists m', m_set no_memory (m_default 15) (letters 9) = MNoMem m' /\ asked m' = [Text 17] /\ path_of m' = path_default.
Proof. eexists. split; [vm_compute; reflexivity|]. split; reflexivity. Qed.
(** Bad texts are refused with the memory kept. *)
Example asked_bad : exists m', m_set plenty (m_default 2) [97; 47; 37; 50; 102]%N = MThrow m' /\ asked m' = [Text 5] /\ tcap m' = 5.
Proof. eexists. split; [vm_compute; reflexivity|]. split; reflexivity. Qed.
