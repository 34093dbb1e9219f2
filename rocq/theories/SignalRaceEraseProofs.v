(** The machine with accesses is the machine without. *)
From Coq Require Import List Arith Bool.
From Verif Require Import Base SignalModel SignalRaceModel.
Import ListNotations.
Local Open Scope outcome_scope.

Lemma snd_lbind {A B} (x : logged A) (k : A -> logged B) : snd (lbind x k) = obind (snd x) (fun a => snd (k a)).
Proof. unfold lbind, obind. destruct (snd x); reflexivity. Qed.

Lemma obind_ext {A B} (x : outcome A) (f g : A -> outcome B) : (forall a, x = Ok a -> f a = g a) -> obind x f = obind x g.
Proof. destruct x; cbn; auto. Qed.
Lemma obind_ext2 {A B} (x y : outcome A) (f g : A -> outcome B) : x = y -> (forall a, f a = g a) -> obind x f = obind y g.
Proof. intros <- H. destruct x; cbn; auto. Qed.
Lemma obind_ret {A} (x : outcome A) : obind x Ok = x.
Proof. destruct x; auto. Qed.
Lemma obind_assoc {A B C} (x : outcome A) (f : A -> outcome B) (g : B -> outcome C) : obind (obind x f) g = obind x (fun a => obind (f a) g).
Proof. destruct x; auto. Qed.

Section Erase.
Variable md : orders.

Lemma e_release m s : snd (lrelease md m s) = release m s.
Proof. unfold lrelease, release. rewrite snd_lbind. cbn. destruct (get_slot m s) as [x| |]; reflexivity. Qed.
Lemma e_add_opt m o : snd (ladd_ref_opt md m o) = add_ref_opt m o.
Proof. destruct o; reflexivity. Qed.
Lemma e_release_opt m o : snd (lrelease_opt md m o) = release_opt m o.
Proof. destruct o; [apply e_release|reflexivity]. Qed.
Lemma e_block_opt m o : snd (lblock_opt md m o) = block_opt m o.
Proof. destruct o; reflexivity. Qed.
Lemma e_unblock_opt m o : snd (lunblock_opt md m o) = unblock_opt m o.
Proof. destruct o; reflexivity. Qed.

Lemma e_insert m g s b : snd (linsert_new_slot m g s b) = insert_new_slot m g s b.
Proof.
  unfold linsert_new_slot, insert_new_slot. rewrite snd_lbind. apply obind_ext. intros r _.
  destruct (g_head r); [destruct b; [|destruct (g_tail r)]|]; try reflexivity; rewrite snd_lbind; reflexivity.
Qed.

Lemma e_remove m g s p : snd (lremove_slot md m g s p) = remove_slot m g s p.
Proof.
  unfold lremove_slot, remove_slot. rewrite snd_lbind. apply obind_ext. intros r _.
  destruct (negb (Nat.eqb (g_active r) 0)); [reflexivity|]. rewrite snd_lbind. apply obind_ext. intros x _.
  cbv zeta. rewrite snd_lbind.
  apply obind_ext2; [destruct p; [reflexivity|]; destruct (is_slot (g_head r) s); reflexivity|]. intros m1.
  rewrite snd_lbind. apply obind_ext. intros r1 _. rewrite snd_lbind.
  apply obind_ext2; [destruct (is_slot (g_tail r1) s); reflexivity|]. intros m2.
  rewrite snd_lbind, e_release. apply obind_ext. intros m3 _. reflexivity.
Qed.

Lemma e_disconnect_loop g id : forall fuel m i p, snd (ldisconnect_loop md fuel m g id i p) = disconnect_loop fuel m g id i p.
Proof.
  induction fuel as [|fuel IH]; intros m i p; [reflexivity|]. cbn [ldisconnect_loop disconnect_loop].
  destruct i as [i|]; [|reflexivity]. destruct (Nat.eqb i id).
  - rewrite snd_lbind. apply obind_ext. intros m1 _. rewrite snd_lbind. apply obind_ext. intros r _.
    destruct (Nat.eqb (g_active r) 0); [|reflexivity]. rewrite snd_lbind, e_remove. reflexivity.
  - rewrite snd_lbind. apply obind_ext. intros x _. apply IH.
Qed.
Lemma e_disconnect_id m g id : snd (ldisconnect_id md m g id) = disconnect_id m g id.
Proof.
  unfold ldisconnect_id, disconnect_id. rewrite snd_lbind. cbn [snd log obind]. rewrite snd_lbind. apply obind_ext. intros r _.
  rewrite snd_lbind, e_disconnect_loop. apply obind_ret.
Qed.

Lemma e_all_loop g b : forall fuel m i p, snd (ldisconnect_all_loop md fuel m g b i p) = disconnect_all_loop fuel m g b i p.
Proof.
  induction fuel as [|fuel IH]; intros m i p; [reflexivity|]. cbn [ldisconnect_all_loop disconnect_all_loop].
  destruct i as [i|]; [|reflexivity]. rewrite snd_lbind. apply obind_ext. intros m1 _. destruct b.
  - rewrite snd_lbind, e_remove. apply obind_ext. intros q _. apply IH.
  - rewrite snd_lbind. apply obind_ext. intros m2 _. rewrite snd_lbind. apply obind_ext. intros x _. apply IH.
Qed.
Lemma e_disconnect_all m g : snd (ldisconnect_all md m g) = disconnect_all m g.
Proof.
  unfold ldisconnect_all, disconnect_all. rewrite snd_lbind. cbn [snd log obind]. rewrite snd_lbind. apply obind_ext. intros r _.
  rewrite snd_lbind, e_all_loop. apply obind_ret.
Qed.

Lemma e_num_loop m : forall fuel i n, snd (lnum_slots_loop md fuel m i n) = num_slots_loop fuel m i n.
Proof.
  induction fuel as [|fuel IH]; intros i n; [reflexivity|]. cbn [lnum_slots_loop num_slots_loop].
  destruct i as [i|]; [|reflexivity]. rewrite snd_lbind. cbn [snd log obind]. rewrite snd_lbind. apply obind_ext. intros x _. apply IH.
Qed.
Lemma e_num_slots m g : snd (lnum_slots md m g) = num_slots m g.
Proof.
  unfold lnum_slots, num_slots. rewrite snd_lbind. cbn [snd log obind]. rewrite snd_lbind. apply obind_ext. intros r _.
  rewrite snd_lbind, e_num_loop. apply obind_ret.
Qed.

Lemma e_cleanup_loop g : forall fuel m i p, snd (lcleanup_loop md fuel m g i p) = cleanup_loop fuel m g i p.
Proof.
  induction fuel as [|fuel IH]; intros m i p; [reflexivity|]. cbn [lcleanup_loop cleanup_loop].
  destruct i as [i|]; [|reflexivity]. rewrite snd_lbind. cbn [snd log]. destruct (get_slot m i) as [x| |] eqn:E; cbn [obind]; try reflexivity.
  destruct (valid x).
  - rewrite snd_lbind. unfold lnext. cbn [snd log]. rewrite E. cbn [obind]. apply IH.
  - rewrite snd_lbind, e_remove. apply obind_ext. intros q _. apply IH.
Qed.
Lemma e_cleanup m g : snd (lcleanup md m g) = cleanup m g.
Proof.
  unfold lcleanup, cleanup. rewrite snd_lbind. apply obind_ext. intros r _.
  destruct (negb (g_deferred r)); [reflexivity|]. destruct (negb (Nat.eqb (g_active r) 0)); [reflexivity|].
  rewrite snd_lbind, e_cleanup_loop. reflexivity.
Qed.

Lemma e_rebind_loop g : forall fuel m i, snd (lrebind_loop md fuel m g i) = rebind_loop fuel m g i.
Proof.
  induction fuel as [|fuel IH]; intros m i; [reflexivity|]. cbn [lrebind_loop rebind_loop].
  destruct i as [i|]; [|reflexivity]. rewrite snd_lbind. apply obind_ext. intros m1 _. rewrite snd_lbind. apply obind_ext. intros x _. apply IH.
Qed.
Lemma e_rebind_all m g : snd (lrebind_all md m g) = rebind_all m g.
Proof.
  unfold lrebind_all, rebind_all. rewrite snd_lbind, e_cleanup. apply obind_ext. intros m1 _. rewrite snd_lbind. apply obind_ext. intros r _.
  apply e_rebind_loop.
Qed.

Lemma e_swap m a b : snd (lswap_sigs md m a b) = swap_sigs m a b.
Proof.
  unfold lswap_sigs, swap_sigs. destruct (Nat.eqb a b); [reflexivity|]. rewrite snd_lbind. cbn [snd log obind].
  rewrite snd_lbind. apply obind_ext. intros ra _. rewrite snd_lbind. apply obind_ext. intros rb _.
  destruct (negb (Nat.eqb (g_active ra) 0 && Nat.eqb (g_active rb) 0)); [reflexivity|].
  rewrite snd_lbind. cbn [snd log obind]. rewrite snd_lbind, e_rebind_all. apply obind_ext. intros m1 _.
  rewrite snd_lbind, e_rebind_all. apply obind_ret.
Qed.

Lemma e_move m a : snd (lmove_sig md m a) = move_sig m a.
Proof.
  unfold lmove_sig, move_sig. rewrite snd_lbind. cbn [snd log obind]. rewrite snd_lbind. apply obind_ext. intros ra _.
  destruct (negb (Nat.eqb (g_active ra) 0)); [reflexivity|]. rewrite snd_lbind. cbn [snd log obind]. rewrite snd_lbind, e_rebind_all.
  replace (length (sigs (put_sig m a (mksig true None None (g_active ra) false)))) with (length (sigs m)) by (cbn; now rewrite length_upd).
  apply obind_ret.
Qed.

Lemma e_destroy m g : snd (ldestroy_sig md m g) = destroy_sig m g.
Proof.
  unfold ldestroy_sig, destroy_sig. rewrite snd_lbind, e_disconnect_all. apply obind_ext. intros m1 _. rewrite snd_lbind. reflexivity.
Qed.

Lemma e_connect m g b : snd (lconnect md m g b) = connect m g b.
Proof.
  unfold lconnect, connect. rewrite snd_lbind. cbn [snd log obind]. rewrite snd_lbind, e_insert. apply obind_ext. intros m1 _.
  rewrite snd_lbind. apply obind_ext. intros m2 _. reflexivity.
Qed.

Lemma e_with_obj {A} b w (x : logged A) : snd (with_obj b w x) = snd x.
Proof. unfold with_obj. rewrite snd_lbind. cbn [snd log obind]. rewrite snd_lbind. apply obind_ret. Qed.
Lemma e_direct {A} g (x : logged A) : snd (direct g x) = snd x.
Proof. unfold direct. rewrite snd_lbind. reflexivity. Qed.
Lemma e_seal {A} (x : logged A) es : snd (lbind x (fun m => lbind (log es (Ok tt)) (fun _ => ret m))) = snd x.
Proof. rewrite snd_lbind. apply obind_ret. Qed.

Lemma lift_obind {A B} (x : outcome A) (f : A -> outcome B) k : lift (obind x f) k = lift x (fun a => lift (f a) k).
Proof. destruct x; reflexivity. Qed.
Lemma lift_ext {A} (x : outcome A) f g : (forall a, f a = g a) -> lift x f = lift x g.
Proof. intros H. destruct x; cbn; auto. Qed.

Lemma lift_ext2 {A} (x y : outcome A) f g : x = y -> (forall a, f a = g a) -> lift x f = lift y g.
Proof. intros <-. apply lift_ext. Qed.

Lemma e_user st t th o : snd (luser_step md st t th o) = user_step st t th o.
Proof.
  destruct o; cbn [luser_step user_step]; unfold ldone, silent; cbn [snd].
  - reflexivity.
  - destruct (sig_live (mm st) g); [|reflexivity]. cbn [snd]. now rewrite e_direct, e_seal, e_connect.
  - destruct (nth_error (handles st) h); [|reflexivity]. cbn [snd]. now rewrite e_seal, e_with_obj, e_add_opt.
  - destruct (nth_error (handles st) h), (nth_error (handles st) h'); try reflexivity.
    destruct (Nat.eqb h h'); [reflexivity|]. cbn [snd]. rewrite !e_with_obj, snd_lbind, e_release_opt, lift_obind.
    apply lift_ext. intros m. now rewrite e_add_opt.
  - destruct (nth_error (handles st) h); [|reflexivity]. cbn [snd]. now rewrite e_with_obj, e_release_opt.
  - destruct (nth_error (handles st) h) as [[s|]|]; reflexivity.
  - destruct (nth_error (handles st) h) as [[s|]|]; try reflexivity. cbn [snd]. now rewrite e_with_obj.
  - destruct (nth_error (handles st) h); [|reflexivity]. cbn [snd]. rewrite e_seal, e_with_obj, snd_lbind, e_add_opt, lift_obind.
    apply lift_ext. intros m. now rewrite e_block_opt.
  - destruct (nth_error (handles st) h); reflexivity.
  - destruct (nth_error (handles st) h), (nth_error (handles st) h'); reflexivity.
  - destruct (nth_error (blockers st) b); [|reflexivity]. cbn [snd]. rewrite e_seal, e_with_obj, snd_lbind, e_add_opt, lift_obind.
    apply lift_ext. intros m. now rewrite e_block_opt.
  - destruct (nth_error (blockers st) b), (nth_error (blockers st) b'); try reflexivity.
    destruct (Nat.eqb b b'); [reflexivity|]. cbn [snd]. rewrite !e_with_obj, snd_lbind, e_unblock_opt, lift_obind.
    apply lift_ext. intros m. rewrite snd_lbind, e_release_opt, lift_obind. apply lift_ext. intros m1.
    rewrite snd_lbind, e_add_opt, lift_obind. apply lift_ext. intros m2. now rewrite e_block_opt.
  - destruct (nth_error (blockers st) b); reflexivity.
  - destruct (nth_error (blockers st) b), (nth_error (blockers st) b'); reflexivity.
  - destruct (nth_error (blockers st) b); [|reflexivity]. cbn [snd]. rewrite e_with_obj, snd_lbind, e_unblock_opt, lift_obind.
    apply lift_ext. intros m. now rewrite e_release_opt.
  - destruct (sig_live (mm st) g); [|reflexivity]. cbn [snd]. rewrite e_direct, snd_lbind. cbn [snd log obind].
    rewrite snd_lbind, lift_obind. apply lift_ext. intros r. rewrite snd_lbind, lift_obind. apply lift_ext. intros m.
    rewrite snd_lbind, e_add_opt, lift_obind. apply lift_ext. intros m1. rewrite snd_lbind, e_add_opt, lift_obind. apply lift_ext. intros m2. reflexivity.
  - reflexivity.
  - destruct (t_current (th_tls th)); [|reflexivity]. cbn [snd]. now rewrite e_seal.
  - destruct (sig_live (mm st) g); [|reflexivity]. cbn [snd]. now rewrite e_direct, e_disconnect_all.
  - destruct (sig_live (mm st) g); [|reflexivity]. cbn [snd]. now rewrite e_direct, e_num_slots.
  - destruct (sig_live (mm st) a && sig_live (mm st) b); [|reflexivity]. cbn [snd]. now rewrite !e_direct, e_swap.
  - destruct (sig_live (mm st) g); [|reflexivity]. cbn [snd]. now rewrite e_direct, e_move.
  - destruct (sig_live (mm st) g); [|reflexivity]. cbn [snd]. now rewrite e_direct, e_destroy.
  - destruct (th_stack th) as [|[]]; reflexivity.
  - destruct (th_stack th) as [|[]]; reflexivity.
Qed.

Lemma e_tau st t th : snd (ltau_step md st t th) = tau_step st t th.
Proof.
  unfold ltau_step, tau_step, ldone, silent. destruct (th_stack th) as [|[e|s [|g|]] rest]; [reflexivity| | | |].
  - destruct (e_phase e); destruct (e_cur e) as [c|]; try reflexivity; cbn [snd].
    + destruct (is_slot (e_last e) c || t_stopped (th_tls th)); [reflexivity|]. cbn [snd].
      rewrite snd_lbind, lift_obind. apply lift_ext. intros r. rewrite snd_lbind. cbn [snd log obind].
      rewrite snd_lbind, lift_obind. apply lift_ext. intros x. rewrite snd_lbind, e_add_opt, lift_obind. apply lift_ext. intros m. reflexivity.
    + now rewrite e_release.
    + now rewrite e_release_opt.
    + now rewrite e_release_opt.
    + rewrite snd_lbind. cbn [snd log obind]. rewrite snd_lbind, lift_obind. apply lift_ext. intros r.
      rewrite snd_lbind, lift_obind. apply lift_ext. intros m. rewrite snd_lbind, lift_obind.
      apply lift_ext2; [destruct (Nat.eqb (g_active r) 1); [apply e_cleanup|reflexivity]|]. intros m1. reflexivity.
    + rewrite snd_lbind. cbn [snd log obind]. rewrite snd_lbind, lift_obind. apply lift_ext. intros r.
      rewrite snd_lbind, lift_obind. apply lift_ext. intros m. rewrite snd_lbind, lift_obind.
      apply lift_ext2; [destruct (Nat.eqb (g_active r) 1); [apply e_cleanup|reflexivity]|]. intros m1. reflexivity.
  - cbn [snd]. rewrite snd_lbind, lift_obind. apply lift_ext. intros x. rewrite snd_lbind, lift_obind. apply lift_ext. intros m. reflexivity.
  - cbn [snd]. now rewrite e_disconnect_id.
  - cbn [snd]. now rewrite e_release.
Qed.

Lemma e_step st t l : snd (lstep md st t l) = step st t l.
Proof.
  unfold lstep, step. destruct (nth_error (threads st) t) as [th|]; [|reflexivity]. destruct l as [o|].
  - destruct (user_ready th); [|reflexivity]. apply e_user.
  - apply e_tau.
Qed.

End Erase.
