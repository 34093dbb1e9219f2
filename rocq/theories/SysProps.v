(** C60, C61, C68-C70, C83: file views and deferred actions. *)
From Coq Require Import List NArith Arith Bool Lia.
From Verif Require Import Base SysModel SysSpec SysProofs SysDeferProofs.
Import ListNotations.

(** C60 as long as mmap does not fail: the view is the file, or the
    construction throws because a call failed. *)
Theorem file_view_whole_file_partial : forall p memory file,
  shows p memory file -> mmap_answer p <> map_failed ->
  match fst (file_view p) with
  | None => open_answer p = None \/ fstat_answer p = None
  | Some v => open_answer p <> None /\ fstat_answer p <> None /\ get_bytes memory v = Ok file
  end.
Proof. exact view_lemma. Qed.
Print Assumptions file_view_whole_file_partial.

(** C60 fails: when mmap fails (a directory, for instance) no exception is
    thrown and reading the view touches unmapped memory. *)
Theorem file_view_mmap_failure_refuted : exists p memory file v,
  shows p memory file /\ mmap_answer p = map_failed /\
  fst (file_view p) = Some v /\ get_bytes memory v = UB.
Proof.
  exists (mkposix (Some 3) (Some 2%N) map_failed), (fun _ => None), [7; 8]%N, (map_failed, 2%N).
  split; [|repeat split; vm_compute; reflexivity].
  split; [intros n H; injection H as <-; reflexivity|]. split; [discriminate|]. intros H. now contradiction H.
Qed.
Print Assumptions file_view_mmap_failure_refuted.

(** C60 when mmap fails: nothing is thrown, and the view of a file that is not empty cannot be read. *)
Theorem file_view_mapping_failed_exactly : forall p memory file,
  shows p memory file -> mmap_answer p = map_failed -> memory map_failed = None ->
  match fst (file_view p) with
  | None => open_answer p = None \/ fstat_answer p = None
  | Some v => open_answer p <> None /\ fstat_answer p <> None /\
      match file with [] => get_bytes memory v = Ok [] | _ => get_bytes memory v = UB end
  end.
Proof. exact view_failed_lemma. Qed.
Print Assumptions file_view_mapping_failed_exactly.

(** C68: the descriptor is closed exactly once on every path, and a mapping is
    unmapped once, with its own address and size. *)
Theorem file_view_releases : forall p,
  (forall fd, open_answer p = Some fd -> closes fd (snd (file_view p)) = 1) /\
  (forall v fd size, fst (file_view p) = Some v -> In (Mmap fd size) (snd (file_view p)) ->
     destroy v = [Munmap (mmap_answer p) size]) /\
  (forall v, fst (file_view p) = Some v -> (forall fd size, ~ In (Mmap fd size) (snd (file_view p))) ->
     destroy v = []).
Proof. exact (fun p => conj (no_leak_lemma p) (conj (unmap_lemma p) (unmap_none_lemma p))). Qed.
Print Assumptions file_view_releases.

(** C69: copies of a view stay usable and release the mapping once.  False:
    the implicit copy shares the mapping, which both destructors unmap. *)
Theorem file_view_copy_refuted : exists p v,
  fst (file_view p) = Some v /\
  destroy v ++ destroy (copy_view v) = [Munmap 4096 5; Munmap 4096 5].
Proof. exists (mkposix (Some 3) (Some 5%N) 4096), (4096, 5)%N. split; vm_compute; reflexivity. Qed.
Print Assumptions file_view_copy_refuted.

(** C70: on Windows a failing size query is not reported: a non-empty file
    gives an empty view. *)
Theorem file_view_windows_size_failure_refuted : exists p,
  size_answer p = None /\ fst (file_view_win p) = Some (0, 0)%N.
Proof. exists (mkwin32 (Some 1) None None (Some 2) 4096). split; vm_compute; reflexivity. Qed.
Print Assumptions file_view_windows_size_failure_refuted.

(** C83: on Windows, when the size query works, the view is the whole file or
    the construction throws because a call failed. *)
Theorem file_view_windows_whole_file : forall p memory file, shows_win p memory file ->
  match fst (file_view_win p) with
  | None => file_handle p = None \/ (file <> [] /\ (mapping_answer p = None \/ view_answer p = 0%N))
  | Some v => file_handle p <> None /\ get_bytes memory v = Ok file
  end.
Proof. exact win_view. Qed.
Print Assumptions file_view_windows_whole_file.

(** C83: both handles are closed exactly once on every path, whatever fails,
    and not used afterwards; the mapped view is unmapped once by the destructor. *)
Theorem file_view_windows_releases : forall p,
  (forall h m, file_handle p = Some h -> mapping_answer p = Some m -> h <> m) ->
  (forall h, file_handle p = Some h -> wcloses h (snd (file_view_win p)) = 1) /\
  (forall m, In (MapView m) (snd (file_view_win p)) -> wcloses m (snd (file_view_win p)) = 1) /\
  no_use_after_close (snd (file_view_win p)) /\
  (forall v, fst (file_view_win p) = Some v ->
    ((exists m, In (MapView m) (snd (file_view_win p))) /\ destroy_win v = [UnmapView (view_answer p)]) \/
    ((forall m, ~ In (MapView m) (snd (file_view_win p))) /\ destroy_win v = [])).
Proof. exact (fun p H => conj (proj1 (win_closes p H)) (conj (proj1 (proj2 (win_closes p H))) (conj (proj2 (proj2 (win_closes p H))) (win_unmap p)))). Qed.
Print Assumptions file_view_windows_releases.

(** C61: as long as no deferred action throws. *)
Theorem defer_exactly_once_partial : forall s, quiet s ->
  nested (fst (exec s)) /\ snd (exec s) <> Terminated /\
  forall n, runs n (fst (exec s)) = regs n (fst (exec s)).
Proof. exact defer_lemma. Qed.
Print Assumptions defer_exactly_once_partial.

(** C61 fails for a deferred action that throws: the program ends, and actions
    deferred earlier are not run. *)
Theorem defer_throwing_action_refuted : exists s,
  snd (exec s) = Terminated /\ regs 1 (fst (exec s)) = 1 /\ runs 1 (fst (exec s)) = 0.
Proof. exists (Block [Defer 1 false; Defer 2 true]). vm_compute. auto. Qed.
Print Assumptions defer_throwing_action_refuted.

(** C61 for all programs: they end early exactly if a deferred action that throws is registered; the trace then ends with
    that action, and is a trace of nested actions cut off; otherwise every action is run once, nested. *)
Theorem defer_exactly : forall loud s, labelled loud s ->
  (snd (exec s) = Terminated <-> exists n, loud n = true /\ In (Reg n) (fst (exec s))) /\
  (snd (exec s) <> Terminated -> nested (fst (exec s)) /\ forall n, runs n (fst (exec s)) = regs n (fst (exec s))) /\
  (snd (exec s) = Terminated -> exists t n rest, fst (exec s) = t ++ [Ran n] /\ loud n = true /\
     nested (fst (exec s) ++ map Ran rest)).
Proof. exact defer_any. Qed.
Print Assumptions defer_exactly.
Example ex_defer_throwing :
  exec (Block [Defer 1 false; Try [Block [Defer 2 true; Defer 3 false; Throw]; Act 8] [Act 5]]) =
  ([Reg 1; Reg 2; Reg 3; Ran 3; Ran 2], Terminated).
Proof. vm_compute. reflexivity. Qed.

Example ex_view : fst (file_view (mkposix (Some 3) (Some 2%N) 4096)) = Some (4096, 2)%N. Proof. reflexivity. Qed.
Example ex_defer :
  exec (Block [Defer 1 false; Try [Defer 2 false; Block [Defer 3 false; Throw; Act 9]; Act 8] [Act 5]; Defer 4 false; Return; Act 7])
  = ([Reg 1; Reg 2; Reg 3; Ran 3; Ran 2; Did 5; Reg 4; Ran 4; Ran 1], Returning).
Proof. vm_compute. reflexivity. Qed.
Example ex_defer_loop : exec (Repeat 2 [Defer 1 false; Act 0]) = ([Reg 1; Did 0; Ran 1; Reg 1; Did 0; Ran 1], Normal).
Proof. vm_compute. reflexivity. Qed.

Example ex_view_win : file_view_win (mkwin32 None (Some 7) (Some 5%N) (Some 8) 4096) =
  (Some (4096, 5)%N, [CreateFile; CreateFile; GetSize 7; CreateMapping 7; MapView 8; CloseHandle 8; CloseHandle 7]).
Proof. reflexivity. Qed.
