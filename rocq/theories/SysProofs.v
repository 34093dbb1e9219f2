(** Proofs about file views and deferred actions. *)
From Coq Require Import List NArith Arith Bool Lia ZifyBool ZifyNat ZifyN.
From Verif Require Import Base SysModel SysSpec.
Import ListNotations.

Lemma read_bytes_file memory file : forall addr, (forall i b, nth_error file i = Some b -> memory (addr + N.of_nat i)%N = Some b) ->
  read_bytes memory addr (length file) = Ok file.
Proof.
  induction file as [|b file IH]; intros addr H; cbn [read_bytes length]; [reflexivity|].
  pose proof (H 0 b eq_refl) as H0. change (N.of_nat 0) with 0%N in H0. rewrite N.add_0_r in H0. rewrite H0.
  rewrite IH; [reflexivity|]. intros i c Hi. rewrite <- (H (S i) c Hi). f_equal. lia.
Qed.

Lemma view_lemma p memory file : shows p memory file -> mmap_answer p <> map_failed ->
  match fst (file_view p) with
  | None => open_answer p = None \/ fstat_answer p = None
  | Some v => open_answer p <> None /\ fstat_answer p <> None /\ get_bytes memory v = Ok file
  end.
Proof.
  intros (H1 & H2 & H3) Hm. unfold file_view. destruct (open_answer p) as [f|]; [|now left].
  destruct (fstat_answer p) as [n|] eqn:En; [|now right]. specialize (H1 n eq_refl).
  destruct (N.eqb_spec n 0) as [->|Hn].
  - cbn [fst]. split; [discriminate|]. split; [discriminate|]. destruct file; [reflexivity|cbn in H1; lia].
  - destruct (N.eqb_spec (mmap_answer p) 0); [contradiction|]. cbn [fst]. split; [discriminate|]. split; [discriminate|].
    unfold get_bytes. cbn [fst snd]. rewrite H1, Nat2N.id. apply read_bytes_file. now apply H3.
Qed.

Lemma no_leak_lemma p fd : open_answer p = Some fd -> closes fd (snd (file_view p)) = 1.
Proof.
  intros E. unfold file_view. rewrite E. destruct (fstat_answer p); [destruct (N.eqb n 0); [|destruct (N.eqb (mmap_answer p) 0)]|];
    unfold closes; cbn; rewrite Nat.eqb_refl; reflexivity.
Qed.

Lemma unmap_lemma p v fd size : fst (file_view p) = Some v -> In (Mmap fd size) (snd (file_view p)) ->
  destroy v = [Munmap (mmap_answer p) size].
Proof.
  unfold file_view. destruct (open_answer p) as [f|]; [|discriminate].
  destruct (fstat_answer p) as [n|]; [|discriminate]. destruct (N.eqb_spec n 0) as [->|Hn].
  - cbn. intuition discriminate.
  - destruct (N.eqb (mmap_answer p) 0); [discriminate|]. cbn [fst snd]. intros E. injection E as <-.
    intros [H|[H|[H|[H|[]]]]]; try discriminate. injection H as _ ->. unfold destroy. cbn [fst snd].
    destruct (N.eqb_spec size 0); [contradiction|reflexivity].
Qed.

Lemma unmap_none_lemma p v : fst (file_view p) = Some v -> (forall fd size, ~ In (Mmap fd size) (snd (file_view p))) -> destroy v = [].
Proof.
  unfold file_view. destruct (open_answer p) as [f|]; [|discriminate].
  destruct (fstat_answer p) as [n|]; [|discriminate]. destruct (N.eqb_spec n 0) as [->|Hn].
  - cbn. intros E _. now injection E as <-.
  - destruct (N.eqb (mmap_answer p) 0); [discriminate|]. cbn [fst snd]. intros _ H. exfalso. eapply H. right. right. now left.
Qed.

(* -------------------------------------------------------------- Windows *)

Ltac win_cases p :=
  unfold file_handle, file_view_win in *;
  destruct (create_answer p) as [h|]; [|destruct (create2_answer p) as [h|]];
  [destruct (size_answer p) as [n|]|destruct (size_answer p) as [n|]|];
  try match goal with n : N |- _ => destruct (N.eqb_spec n 0) as [->|Hn] end;
  try (destruct (mapping_answer p) as [m|]; [destruct (N.eqb_spec (view_answer p) 0) as [Hv|Hv]|]);
  cbn [fst snd app N.eqb] in *.

Lemma win_closes p : (forall h m, file_handle p = Some h -> mapping_answer p = Some m -> h <> m) ->
  (forall h, file_handle p = Some h -> wcloses h (snd (file_view_win p)) = 1) /\
  (forall m, In (MapView m) (snd (file_view_win p)) -> wcloses m (snd (file_view_win p)) = 1) /\
  no_use_after_close (snd (file_view_win p)).
Proof.
  intros Hd. split; [|split].
  - intros h0 E. win_cases p; try discriminate; injection E as <-; unfold wcloses; cbn; rewrite ?Nat.eqb_refl; cbn; try reflexivity;
      destruct (Nat.eqb_spec m h); try reflexivity; subst; exfalso; eapply Hd; eauto.
  - win_cases p; intros m0 E; cbn [In] in E;
      repeat match goal with
      | H : _ \/ _ |- _ => destruct H as [H|H]
      | H : False |- _ => destruct H
      | H : _ = MapView _ |- _ => first [discriminate H | injection H as ->]
      end;
      unfold wcloses; cbn; rewrite Nat.eqb_refl; cbn;
      destruct (Nat.eqb_spec h m0); try reflexivity; subst; exfalso; eapply Hd; eauto.
  - win_cases p; cbn; repeat split; repeat constructor; cbn; try discriminate;
      intros E; injection E as E; eapply Hd; eauto.
Qed.

Lemma win_unmap p v : fst (file_view_win p) = Some v ->
  ((exists m, In (MapView m) (snd (file_view_win p))) /\ destroy_win v = [UnmapView (view_answer p)]) \/
  ((forall m, ~ In (MapView m) (snd (file_view_win p))) /\ destroy_win v = []).
Proof.
  win_cases p; intros E; try discriminate; injection E as <-; unfold destroy_win; cbn [fst snd N.eqb];
    try (right; split; [|reflexivity]; intros m1; cbn; intuition discriminate).
  all: left; split; [exists m; cbn; auto 6|]; destruct (N.eqb_spec n 0); [contradiction|reflexivity].
Qed.

Lemma win_view p memory file : shows_win p memory file ->
  match fst (file_view_win p) with
  | None => file_handle p = None \/ (file <> [] /\ (mapping_answer p = None \/ view_answer p = 0%N))
  | Some v => file_handle p <> None /\ get_bytes memory v = Ok file
  end.
Proof.
  intros (Hs & Hv). unfold file_handle, file_view_win. rewrite Hs.
  destruct (create_answer p) as [h|]; [|destruct (create2_answer p) as [h|]]; [| |now left].
  all: destruct (N.eqb_spec (N.of_nat (length file)) 0) as [E|E]; cbn [fst].
  1, 3: split; [discriminate|]; destruct file; [reflexivity|cbn in E; lia].
  all: assert (file <> []) by (intros ->; now apply E);
    destruct (mapping_answer p) as [m|]; [|cbn [fst]; auto];
    destruct (N.eqb_spec (view_answer p) 0) as [E0|E0]; cbn [fst]; [auto|];
    split; [discriminate|]; unfold get_bytes; cbn [fst snd]; rewrite Nat2N.id; apply read_bytes_file; auto.
Qed.

(* ---------------------------------------------------------------- defer *)

(** The loop over the statements of a scope, as a function of its own. *)
Fixpoint scope (guards : list (nat * bool)) (body : list stmt) : list event * exit :=
  match body with
  | [] => leave guards [] Normal
  | Defer n throws :: rest => let '(t, e) := scope ((n, throws) :: guards) rest in (Reg n :: t, e)
  | s :: rest =>
      match exec s with
      | (t, Normal) => let '(t', e) := scope guards rest in (t ++ t', e)
      | (t, how) => leave guards t how
      end
  end.

Lemma exec_block body : exec (Block body) = scope [] body.
Proof. reflexivity. Qed.
Lemma exec_repeat k body : exec (Repeat k body) = repeat_exit k (fun _ => scope [] body).
Proof. reflexivity. Qed.
Lemma exec_try body handler : exec (Try body handler) =
  match scope [] body with
  | (t, Throwing) => let '(t', e) := scope [] handler in (t ++ t', e)
  | r => r
  end.
Proof. reflexivity. Qed.

Section stmt_induction.
Variable P : stmt -> Prop.
Variable Q : list stmt -> Prop.
Hypothesis Hact : forall n, P (Act n).
Hypothesis Hdefer : forall n b, P (Defer n b).
Hypothesis Hblock : forall b, Q b -> P (Block b).
Hypothesis Hrepeat : forall k b, Q b -> P (Repeat k b).
Hypothesis Htry : forall b h, Q b -> Q h -> P (Try b h).
Hypothesis Hthrow : P Throw.
Hypothesis Hreturn : P Return.
Hypothesis Hnil : Q [].
Hypothesis Hcons : forall s b, P s -> Q b -> Q (s :: b).
Fixpoint stmt_both (s : stmt) : P s :=
  let go := fix go (b : list stmt) : Q b :=
    match b with [] => Hnil | s :: b' => Hcons s b' (stmt_both s) (go b') end in
  match s with
  | Act n => Hact n
  | Defer n b => Hdefer n b
  | Block b => Hblock b (go b)
  | Repeat k b => Hrepeat k b (go b)
  | Try b h => Htry b h (go b) (go h)
  | Throw => Hthrow
  | Return => Hreturn
  end.
End stmt_induction.

Lemma nested_app t t' : nested t -> nested t' -> nested (t ++ t').
Proof.
  induction 1 as [|n t H IH|n t u H IH H' IH']; intros Ht'; cbn; auto.
  - constructor. auto.
  - rewrite <- app_assoc. cbn [app]. constructor; auto.
Qed.

(** Traces of a scope with guards already registered: nested pieces, then the
    pending runs in between. *)
Inductive pending : list (nat * bool) -> list event -> Prop :=
| pending_nil t : nested t -> pending [] t
| pending_cons n b g t t' : nested t -> pending g t' -> pending ((n, b) :: g) (t ++ Ran n :: t').

Lemma pending_app g t t' : nested t -> pending g t' -> pending g (t ++ t').
Proof.
  intros Ht H. destruct H as [t' H|n b g u u' H H'].
  - constructor. now apply nested_app.
  - rewrite app_assoc. constructor; [now apply nested_app|assumption].
Qed.

Lemma unwind_pending g : Forall (fun p => snd p = false) g -> exists t, unwind g = (t, true) /\ pending g t.
Proof.
  induction 1 as [|[n b] g H F (t & E & P)]; cbn [unwind]; [exists []; split; [easy|repeat constructor]|].
  cbn in H. subst b. rewrite E. eexists. split; [reflexivity|]. apply (pending_cons n false g [] t); [constructor|assumption].
Qed.

Lemma pending_reg n b g t : pending ((n, b) :: g) t -> exists u u', t = u ++ Ran n :: u' /\ nested u /\ pending g u'.
Proof. intros H. inversion H; subst. eauto 6. Qed.

Definition quiet_list (b : list stmt) : Prop := fold_right (fun s P => quiet s /\ P) True b.

Lemma leave_quiet g t how : nested t -> how <> Terminated -> Forall (fun p => snd p = false) g ->
  exists t', leave g t how = (t', how) /\ pending g t'.
Proof.
  intros Ht Hh Hg. unfold leave. destruct (unwind_pending g Hg) as (u & E & P). rewrite E. exists (t ++ u).
  split; [now destruct how|now apply pending_app].
Qed.

Lemma repeat_nested k body : (exists t e, body tt = (t, e) /\ nested t /\ e <> Terminated) ->
  exists t e, repeat_exit k body = (t, e) /\ nested t /\ e <> Terminated.
Proof.
  intros (t & e & E & Ht & He). induction k as [|k (t' & e' & E' & Ht' & He')]; cbn [repeat_exit].
  - exists [], Normal. repeat split; [constructor|discriminate].
  - unfold seq_exit. rewrite E. cbn [fst snd]. destruct e.
    + rewrite E'. exists (t ++ t'), e'. split; [reflexivity|]. split; [now apply nested_app|assumption].
    + exists t, Throwing. auto.
    + exists t, Returning. auto.
    + contradiction.
Qed.

Lemma quiet_exec s : quiet s -> exists t e, exec s = (t, e) /\ nested t /\ e <> Terminated.
Proof.
  apply (stmt_both (fun s => quiet s -> exists t e, exec s = (t, e) /\ nested t /\ e <> Terminated)
    (fun b => quiet_list b -> forall g, Forall (fun p => snd p = false) g -> exists t e, scope g b = (t, e) /\ pending g t /\ e <> Terminated));
    clear s.
  - intros n _. exists [Did n], Normal. repeat split; [repeat constructor|discriminate].
  - intros n b H. cbn in H. subst b. exists [Reg n; Ran n], Normal. split; [reflexivity|]. split; [|discriminate].
    apply (nested_pair n [] []); constructor.
  - intros b IH H. rewrite exec_block. destruct (IH H [] (Forall_nil _)) as (t & e & E & P & He). exists t, e. inversion P; subst. auto.
  - intros k b IH H. rewrite exec_repeat. apply repeat_nested. destruct (IH H [] (Forall_nil _)) as (t & e & E & P & He).
    exists t, e. inversion P; subst. auto.
  - intros b h IHb IHh [Hb Hh]. rewrite exec_try. destruct (IHb Hb [] (Forall_nil _)) as (t & e & E & P & He). rewrite E.
    inversion P; subst. destruct e; try (eexists; eexists; split; [reflexivity|]; auto; fail).
    destruct (IHh Hh [] (Forall_nil _)) as (t' & e' & E' & P' & He'). rewrite E'. inversion P'; subst.
    exists (t ++ t'), e'. split; [reflexivity|]. split; [now apply nested_app|assumption].
  - intros _. exists [], Throwing. repeat split; [constructor|discriminate].
  - intros _. exists [], Returning. repeat split; [constructor|discriminate].
  - intros _ g Hg. destruct (leave_quiet g [] Normal) as (t & E & P); [constructor|discriminate|assumption|].
    exists t, Normal. repeat split; auto; discriminate.
  - intros s b IHs IHb [Hs Hb] g Hg.
    assert (DEF : forall n th, s = Defer n th -> exists t e, scope g (s :: b) = (t, e) /\ pending g t /\ e <> Terminated).
    { intros n th ->. cbn in Hs. subst th. cbn [scope]. destruct (IHb Hb ((n, false) :: g)) as (t & e & E & P & He); [now constructor|].
      rewrite E. exists (Reg n :: t), e. split; [reflexivity|]. split; [|assumption].
      destruct (pending_reg _ _ _ _ P) as (u & u' & -> & Hu & Hu').
      assert (nested (Reg n :: u ++ [Ran n])) as NP by (apply (nested_pair n u []); [assumption|constructor]).
      replace (Reg n :: u ++ Ran n :: u') with ((Reg n :: u ++ [Ran n]) ++ u') by (cbn; now rewrite <- app_assoc).
      now apply pending_app. }
    assert (GEN : (forall n th, s <> Defer n th) -> scope g (s :: b) = match exec s with
      | (t, Normal) => let '(t', e) := scope g b in (t ++ t', e) | (t, how) => leave g t how end).
    { intros H. destruct s; try reflexivity. exfalso. eapply H. reflexivity. }
    destruct (IHs Hs) as (t & e & E & Ht & He).
    assert (REST : (forall n th, s <> Defer n th) -> exists t e, scope g (s :: b) = (t, e) /\ pending g t /\ e <> Terminated).
    { intros H. rewrite (GEN H), E. destruct e; try contradiction.
      - destruct (IHb Hb g Hg) as (t' & e' & E' & P' & He'). rewrite E'. exists (t ++ t'), e'.
        split; [reflexivity|]. split; [now apply pending_app|assumption].
      - destruct (leave_quiet g t Throwing) as (t' & E' & P'); [assumption|discriminate|assumption|].
        rewrite E'. exists t', Throwing. repeat split; [assumption|discriminate].
      - destruct (leave_quiet g t Returning) as (t' & E' & P'); [assumption|discriminate|assumption|].
        rewrite E'. exists t', Returning. repeat split; [assumption|discriminate]. }
    destruct s; try (apply REST; discriminate). eapply DEF. reflexivity.
Qed.

Lemma nested_counts t : nested t -> forall n, runs n t = regs n t.
Proof.
  induction 1 as [|m t H IH|m t u H IH H' IH']; intros n; [reflexivity| |].
  - apply IH.
  - specialize (IH n). specialize (IH' n). unfold runs, regs in *. cbn [filter]. rewrite !filter_app, !app_length. cbn [filter].
    destruct (Nat.eqb m n); cbn [length]; rewrite ?app_length; cbn [length]; lia.
Qed.

Lemma defer_lemma s : quiet s -> nested (fst (exec s)) /\ snd (exec s) <> Terminated /\ forall n, runs n (fst (exec s)) = regs n (fst (exec s)).
Proof.
  intros H. destruct (quiet_exec s H) as (t & e & E & Ht & He). rewrite E. cbn. split; [assumption|]. split; [assumption|]. now apply nested_counts.
Qed.
