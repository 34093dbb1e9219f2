From Coq Require Import List Arith Bool Lia.
From Verif Require Import Base HandModel HandSpec HandProofs HandStepProofs.
Import ListNotations.

(** * What a state stands for *)

Definition name (m : memory) (a : nat) : nat := match m a with Some c => c_call c | None => 0 end.
Definition named_by (m : memory) (h : handle) : kind * option nat := (fst h, option_map (name m) (snd h)).
Definition view (m : memory) (st : state) : world :=
  mkworld (map (option_map (map (name m))) (st_sigs st)) (map (option_map (named_by m)) (st_vars st)) (st_calls st).
Definition abs (st : state) : world := view (st_mem st) st.

Lemma upd_same {A} (l : list A) i d : upd l i (nth i l d) = l.
Proof. revert i. induction l as [|x l IH]; intros i; destruct i; cbn; try reflexivity. now rewrite IH. Qed.
Lemma view_mem m st m' : view m (with_mem st m') = view m st.
Proof. reflexivity. Qed.
Lemma view_new m st h : view m (new_var st h) = more (view m st) (named_by m h).
Proof. unfold view, new_var, more. cbn. now rewrite map_app. Qed.
Lemma view_var m st i v : view m (set_var st i v) = put (view m st) i (option_map (named_by m) v).
Proof. unfold view, set_var, put. cbn. now rewrite map_upd. Qed.
Lemma view_sig m st s l : view m (set_sig st s l) = sigs (view m st) (upd (w_sigs (view m st)) s (option_map (map (name m)) l)).
Proof. unfold view, set_sig, sigs. cbn. now rewrite map_upd. Qed.
Lemma named_view m st i : named (view m st) i = option_map (named_by m) (var st i).
Proof. unfold named, view, var. cbn. exact (map_nth (option_map (named_by m)) (st_vars st) None i). Qed.
Lemma slots_view m st s : slots (view m st) s = option_map (map (name m)) (sig st s).
Proof. unfold slots, view, sig. cbn. exact (map_nth (option_map (map (name m))) (st_sigs st) None s). Qed.

Lemma ptr_live st x y z i k a : inv st x y z -> var st i = Some (k, Some a) -> st_mem st a <> None.
Proof.
  intros I E. apply (i_live _ _ _ _ I). enough (0 < vrefs st a) by lia. apply occ_in, in_ptrs. now exists i, k.
Qed.
Lemma names_kept st m x y z : inv st x y z -> keeps m (st_mem st) -> abs st = view m st.
Proof.
  intros I K. unfold abs, view.
  assert (N : forall a, st_mem st a <> None -> name (st_mem st) a = name m a).
  { intros a L. unfold name. destruct (st_mem st a) as [c|] eqn:E; [|now destruct L]. destruct (K a c E) as (d & -> & Ed). now symmetry. }
  f_equal.
  - apply map_ext_in. intros o Ho. destruct o as [l|]; [|reflexivity]. cbn. f_equal. apply map_ext_in. intros a Ha. apply N.
    apply (i_live _ _ _ _ I). enough (0 < srefs st a) by lia. apply occ_in. apply in_flat_map. exists (Some l). now split.
  - apply map_ext_in. intros o Ho. destruct o as [[k [a|]]|]; [|reflexivity..]. cbn. unfold named_by. cbn. do 3 f_equal. apply N.
    apply (i_live _ _ _ _ I). enough (0 < vrefs st a) by lia. apply occ_in. apply in_flat_map. exists (Some (k, Some a)). split; [exact Ho | now left].
Qed.

Lemma view_cut st a x y z : inv st x y z -> st_mem st a <> None ->
  view (st_mem st) (with_sigs st (without a (st_sigs st))) = cut (Some (name (st_mem st) a)) (view (st_mem st) st).
Proof.
  intros I L. unfold view, cut, sigs, without. cbn. f_equal. rewrite !map_map. apply map_ext_in. intros o Ho.
  destruct o as [l|]; [|reflexivity]. cbn. f_equal.
  assert (Li : forall b, In b l -> st_mem st b <> None).
  { intros b Hb. apply (i_live _ _ _ _ I). enough (0 < srefs st b) by lia. apply occ_in, in_flat_map. exists (Some l). now split. }
  clear Ho. induction l as [|b l IH]; [reflexivity|]. cbn. fold (remove a l).
  assert (Eq : Nat.eqb (name (st_mem st) a) (name (st_mem st) b) = Nat.eqb a b).
  { destruct (Nat.eqb_spec a b) as [Hab|Ne]; [subst b; apply Nat.eqb_refl|]. apply Nat.eqb_neq. intros H. apply Ne.
    unfold name in H. specialize (Li b (or_introl eq_refl)).
    destruct (st_mem st a) as [c|] eqn:Ea; [|now destruct L]. destruct (st_mem st b) as [d|] eqn:Eb; [|now destruct Li].
    exact (i_uniq _ _ _ _ I a b c d Ea Eb H). }
  rewrite Eq. destruct (Nat.eqb a b); cbn; rewrite IH; try reflexivity; intros d Hd; apply Li; now right.
Qed.

(** * Operations *)

Definition good (st : state) : Prop := inv st zero zero [].
Definition does (o : op) (st : state) (r : outcome state) : Prop := exists st', r = Ok st' /\ good st' /\ abs st' = act o (abs st).

Lemma occ_new st (h : handle) a : occ (flat_map ptr (st_vars st ++ [Some h])) a = vrefs st a + occ (ptr (Some h)) a.
Proof. unfold vrefs. rewrite flat_map_app, occ_app. cbn [flat_map]. now rewrite app_nil_r. Qed.
Lemma occb_new st (h : handle) a : occ (flat_map bptr (st_vars st ++ [Some h])) a = brefs st a + occ (bptr (Some h)) a.
Proof. unfold brefs. rewrite flat_map_app, occ_app. cbn [flat_map]. now rewrite app_nil_r. Qed.
Lemma occ_set st i h v a : var st i = Some h -> occ (flat_map ptr (upd (st_vars st) i v)) a + occ (ptr (Some h)) a = vrefs st a + occ (ptr v) a.
Proof. intros E. pose proof (occ_upd ptr None (st_vars st) i v a eq_refl (nth_in _ _ _ E)) as U. unfold var in E. now rewrite E in U. Qed.
Lemma occb_set st i h v a : var st i = Some h -> occ (flat_map bptr (upd (st_vars st) i v)) a + occ (bptr (Some h)) a = brefs st a + occ (bptr v) a.
Proof. intros E. pose proof (occ_upd bptr None (st_vars st) i v a eq_refl (nth_in _ _ _ E)) as U. unfold var in E. now rewrite E in U. Qed.

Lemma inv_new st h x y z : inv st (fun b => occ (ptr (Some h)) b + x b) (fun b => occ (bptr (Some h)) b + y b) z -> inv (new_var st h) x y z.
Proof. intros I. apply (inv_vars _ _ _ _ _ _ _ I); intros a; [rewrite occ_new | rewrite occb_new]; lia. Qed.
Lemma inv_take st i h x y z : inv st x y z -> var st i = Some h ->
  inv (set_var st i None) (fun b => occ (ptr (Some h)) b + x b) (fun b => occ (bptr (Some h)) b + y b) z.
Proof.
  intros I E. apply (inv_vars _ _ _ _ _ _ _ I); intros a; [pose proof (occ_set st i h None a E) | pose proof (occb_set st i h None a E)]; cbn [ptr bptr] in *;
    change (occ [] a) with 0 in *; lia.
Qed.

Lemma copy_does st k p k' : good st -> (forall a, p = Some a -> st_mem st a <> None) -> kind_eqb k Blocker = kind_eqb k' Blocker ->
  exists st', obind (retain k p (st_mem st)) (fun m => Ok (new_var (with_mem st m) (k', p))) = Ok st' /\ good st' /\
    abs st' = more (abs st) (named_by (st_mem st) (k', p)).
Proof.
  intros I L Hk. destruct (retain_inv st zero zero [] k p I L) as (m & E & J & K). rewrite E. cbn [obind]. eexists. split; [reflexivity|].
  assert (G : good (new_var (with_mem st m) (k', p))).
  { apply inv_new. apply (inv_ext _ _ _ _ _ _ J); intros a; destruct k, k', p; try discriminate Hk; reflexivity. }
  split; [exact G|]. rewrite (names_kept _ (st_mem st) _ _ _ G K), view_new. reflexivity.
Qed.
Lemma hand_over st i k k' p : good st -> var st i = Some (k, p) -> kind_eqb k Blocker = kind_eqb k' Blocker ->
  good (new_var (set_var st i (Some (k, None))) (k', p)) /\
  abs (new_var (set_var st i (Some (k, None))) (k', p)) = more (put (abs st) i (Some (k, None))) (named_by (st_mem st) (k', p)).
Proof.
  intros I E Hk. assert (G : good (new_var (set_var st i (Some (k, None))) (k', p))).
  { apply inv_new, (inv_vars _ _ _ _ _ _ _ I); intros a; cbv beta.
    - pose proof (occ_set st i _ (Some (k, None)) a E) as U. cbn [ptr] in U. change (occ [] a) with 0 in U.
      unfold zero. destruct p; cbn [ptr] in *; try change (occ [] a) with 0 in *; lia.
    - pose proof (occb_set st i _ (Some (k, None)) a E) as U.
      unfold zero. destruct k, k', p; try discriminate Hk; cbn [bptr] in *; try change (occ [] a) with 0 in *; lia. }
  split; [exact G|]. rewrite (names_kept _ (st_mem st) _ _ _ G (keeps_refl _)), view_new, view_var. reflexivity.
Qed.

Lemma kind_eqb_eq a b : kind_eqb a b = true <-> a = b.
Proof. destruct a, b; cbn; split; intros H; try reflexivity; discriminate. Qed.

Lemma swap_inv st i j (h h' : handle) : good st -> var st i = Some h -> var st j = Some h' -> good (set_var (set_var st i (Some h')) j (Some h)).
Proof.
  intros I Ei Ej.
  assert (X : var (set_var st i (Some h')) j = Some h').
  { unfold var, set_var. cbn. rewrite nth_upd. now destruct (_ && _). }
  change (set_var (set_var st i (Some h')) j (Some h)) with (with_vars st (upd (st_vars (set_var st i (Some h'))) j (Some h))).
  apply (inv_vars _ _ _ _ _ _ _ I); intros a.
  - pose proof (occ_set st i _ (Some h') a Ei) as U. pose proof (occ_set _ j _ (Some h) a X) as V.
    unfold vrefs in *. cbn [set_var with_vars st_vars] in *. lia.
  - pose proof (occb_set st i _ (Some h') a Ei) as U. pose proof (occb_set _ j _ (Some h) a X) as V.
    unfold brefs in *. cbn [set_var with_vars st_vars] in *. lia.
Qed.
Lemma swap_does st i j k p q : good st -> var st i = Some (k, p) -> var st j = Some (k, q) ->
  good (set_var (set_var st i (Some (k, q))) j (Some (k, p))) /\
  abs (set_var (set_var st i (Some (k, q))) j (Some (k, p))) =
    put (put (abs st) i (Some (k, option_map (name (st_mem st)) q))) j (Some (k, option_map (name (st_mem st)) p)).
Proof.
  intros I Ei Ej. pose proof (swap_inv st i j (k, p) (k, q) I Ei Ej) as G.
  split; [exact G|]. rewrite (names_kept _ (st_mem st) _ _ _ G (keeps_refl _)), !view_var. reflexivity.
Qed.

(** A handle is given up. *)
Lemma drop_does st i k p v : good st -> var st i = Some (k, p) -> ptr v = [] -> bptr v = [] ->
  exists m, drop k p (st_mem st) = Ok m /\ good (set_var (with_mem st m) i v) /\ keeps (st_mem st) m /\
    good (with_mem (set_var st i None) m).
Proof.
  intros I E P B. destruct (drop_inv _ zero zero [] k p (inv_take st i _ _ _ _ I E)) as (m & Em & J & K).
  exists m. split; [exact Em|]. assert (X : var st i = Some (k, p)) by exact E.
  split; [|split; [exact K | exact J]].
  change (set_var (with_mem st m) i v) with (with_vars (with_mem (set_var st i None) m) (upd (st_vars st) i v)).
  apply (inv_vars _ _ _ _ _ _ _ J); intros a.
  - pose proof (occ_set st i _ v a E). pose proof (occ_set st i _ None a E). rewrite P in *. cbn [ptr] in *.
    unfold vrefs in *. cbn [set_var with_vars with_mem st_vars] in *. lia.
  - pose proof (occb_set st i _ v a E). pose proof (occb_set st i _ None a E). rewrite B in *. cbn [bptr] in *.
    unfold brefs in *. cbn [set_var with_vars with_mem st_vars] in *. lia.
Qed.

Lemma disconnect_does st i k p v : good st -> var st i = Some (k, p) -> k <> Blocker -> ptr v = [] -> bptr v = [] ->
  exists st', obind (disconnect p st) (fun st => Ok (set_var st i v)) = Ok st' /\ good st' /\
    abs st' = put (cut (option_map (name (st_mem st)) p) (abs st)) i (option_map (named_by (st_mem st)) v).
Proof.
  intros I E Hk P B. destruct p as [a|].
  2: { destruct (drop_does st i k None v I E P B) as (m & Em & G & _). injection Em as <-. eexists. split; [reflexivity|].
       assert (Eq : set_var (with_mem st (st_mem st)) i v = set_var st i v) by (destruct st; reflexivity). rewrite Eq in G. split; [exact G|].
       rewrite (names_kept _ (st_mem st) _ _ _ G (keeps_refl _)), view_var. reflexivity. }
  assert (V : 0 < vrefs st a) by (apply occ_in, in_ptrs; now exists i, k).
  assert (L : st_mem st a <> None) by exact (ptr_live st _ _ _ i k a I E).
  destruct (slot_disconnect_inv st a I V) as (m & Em & J & K). cbn [disconnect]. rewrite Em. cbn [obind].
  set (st1 := with_mem (with_sigs st (without a (st_sigs st))) m) in *.
  assert (E1 : var st1 i = Some (k, Some a)) by exact E.
  destruct (drop_does st1 i k (Some a) v J E1 P B) as (m1 & Em1 & G & K1 & _).
  assert (R : release a (st_mem st1) = Ok m1).
  { destruct k; [exact Em1 | exact Em1 | now destruct Hk]. }
  rewrite R. cbn [obind]. eexists. split; [reflexivity|]. split; [exact G|].
  rewrite (names_kept _ (st_mem st) _ _ _ G (keeps_trans _ _ _ K K1)), view_var. f_equal.
  exact (view_cut st a _ _ _ I L).
Qed.

Lemma clear_does st s l r : good st -> sig st s = Some l -> elems r = [] ->
  exists st', clear s l r st = Ok st' /\ good st' /\ abs st' = sigs (abs st) (upd (w_sigs (abs st)) s (option_map (map (name (st_mem st))) r)).
Proof.
  intros I E R. unfold clear.
  assert (J : inv (set_sig st s r) (fun b => occ l b + zero b) zero l).
  { apply (inv_sigs st _ zero zero [] _ l I).
    - intros a. pose proof (occ_upd elems None (st_sigs st) s r a eq_refl (nth_in _ _ _ E)) as U. unfold sig in E. rewrite E, R in U.
      cbn [elems] in U. change (occ [] a) with 0 in U. unfold srefs, zero. lia.
    - intros a Ha. split; [intros []|]. intros t. unfold sends, sig. cbn [set_sig with_sigs st_sigs]. rewrite nth_upd.
      destruct (Nat.eqb_spec s t) as [<-|Ne]; [|reflexivity]. unfold sig in E. rewrite E.
      pose proof (nth_in _ _ _ E) as Lt. apply Nat.ltb_lt in Lt. rewrite Lt. cbn [andb]. split; intros (l' & El' & H).
      + subst r. cbn [elems] in R. subst l'. destruct H.
      + injection El' as <-. now destruct Ha.
    - intros t l' H. rewrite nth_upd in H. destruct (_ && _); [|exact (i_nodup _ _ _ _ I t l' H)].
      subst r. cbn in R. subst l'. constructor. }
  destruct (each_clear_inv l (set_sig st s r) zero zero J) as (m & Em & G & K).
  { intros a t Ha (l' & El' & H). unfold sig in El'. cbn [set_sig with_sigs st_sigs] in El'. rewrite nth_upd in El'.
    destruct (Nat.eqb_spec s t) as [<-|Ne]; cbn [andb] in El'.
    - pose proof (nth_in _ _ _ E) as Lt. apply Nat.ltb_lt in Lt. rewrite Lt in El'. subst r. cbn in R. subst l'. destruct H.
    - apply Ne, (sends_fun st s t a I); [now exists l | now exists l']. }
  cbn [set_sig with_sigs st_mem] in Em. rewrite Em. cbn [obind]. eexists. split; [reflexivity|]. split; [exact G|].
  rewrite (names_kept _ (st_mem st) _ _ _ G K). exact (view_sig (st_mem st) st s r).
Qed.
