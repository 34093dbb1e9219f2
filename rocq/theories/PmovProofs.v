From Coq Require Import List NArith Arith Bool Lia.
From Verif Require Import Base PathModel PathSpec PathProofs PmemProofs SelfProofs PmovModel.
Import ListNotations.

Lemma moved_same lib inside p : fst (move_path lib inside p) = p.
Proof. destruct p. reflexivity. Qed.

Lemma moved_set lib inside p q s : path_set (snd (move_path lib inside p)) s = path_set q s.
Proof. reflexivity. Qed.

Lemma moved_clean lib inside p : inside = false \/ clears lib = true -> snd (move_path lib inside p) = path_default.
Proof. intros [->| H]; [reflexivity|]. cbn. rewrite H. cbn. rewrite andb_false_r. reflexivity. Qed.

Lemma moved_stale lib q s p segs : clears lib = false -> path_set q s = POk p -> path_meaning s = Some segs ->
  let left := snd (move_path lib true p) in
  path_size left = length segs /\
  (forall k, k < length segs -> path_at left k = (if k =? 0 then Ok [] else Throws) /\ joined left k = (if k =? 0 then Ok [] else Throws)) /\
  (forall n, n <= length segs -> view_prefix (path_to_view left) n = Ok []).
Proof.
  intros C P M. pose proof (path_set_spec q s) as SP. rewrite P, M in SP. destruct SP as (p' & E & R). injection E as <-.
  destruct R as (Rv & Rs & Ro). unfold move_path. cbn [snd]. rewrite C. cbn [andb negb]. cbv zeta.
  assert (L : length (segments_ p) = length segs) by (eapply rep_length; split; [exact Rv|split; [exact Rs|exact Ro]]).
  split; [exact L|]. split.
  - intros k K. destruct (nth_error segs k) as [x|] eqn:Nx; [|apply nth_error_None in Nx; lia].
    unfold path_at, path_segment_at, joined. cbn [value_ segments_ plus]. rewrite L. destruct (Nat.leb_spec (length segs) k); [lia|].
    rewrite Rs, rd_offs, Nx. cbn [obind seg_offset seg_length]. unfold substr, substr_from. cbn [length plus]. destruct (Nat.eqb_spec k 0) as [->|K0].
    + cbn. rewrite firstn_nil. auto.
    + pose proof (total_pos _ _ _ Nx ltac:(lia)) as T. destruct (Nat.ltb_spec 0 (total (firstn k segs))); [auto|lia].
  - intros n Hn. unfold view_prefix, path_to_view. cbn [pv_size pv_null pv_value pv_segments pv_base value_ segments_ plus]. rewrite L.
    destruct (Nat.ltb_spec (length segs) n); [lia|]. destruct n as [|n]; [reflexivity|].
    destruct (nth_error segs n) as [x|] eqn:Nx; [|apply nth_error_None in Nx; lia]. rewrite Rs, rd_offs, Nx. cbn [obind]. unfold substr. cbn. now rewrite firstn_nil.
Qed.
