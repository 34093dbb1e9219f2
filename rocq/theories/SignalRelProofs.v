(** The relation between the signal machine and the ideal one. *)
From Coq Require Import List Arith Bool Lia.
From Verif Require Import Base XinfoProofs SignalModel SignalSpec SignalMemProofs.
Import ListNotations.
Local Open Scope outcome_scope.

(* --------------------------------------------------------------- counting *)

Fixpoint tot {A} (f : A -> nat) (l : list A) : nat :=
  match l with [] => 0 | a :: l' => f a + tot f l' end.

Lemma tot_app {A} (f : A -> nat) l k : tot f (l ++ k) = tot f l + tot f k.
Proof. induction l; cbn; auto. rewrite IHl. lia. Qed.

Lemma tot_upd {A} (f : A -> nat) l i a b :
  nth_error l i = Some a -> tot f (upd l i b) + f a = tot f l + f b.
Proof.
  revert i. induction l as [|x l IH]; intros [|i] E; try discriminate; cbn in *.
  - injection E as ->. lia.
  - specialize (IH _ E). lia.
Qed.

Lemma tot_pos {A} (f : A -> nat) l i a : nth_error l i = Some a -> f a <= tot f l.
Proof.
  revert i. induction l as [|x l IH]; intros [|i] E; try discriminate; cbn in *.
  - injection E as ->. lia.
  - specialize (IH _ E). lia.
Qed.

Lemma tot_zero {A} (f : A -> nat) l : (forall a, In a l -> f a = 0) -> tot f l = 0.
Proof.
  induction l as [|a l IH]; cbn; intros H; auto. rewrite (H a) by auto. apply IH. auto.
Qed.

Lemma tot_zero_inv {A} (f : A -> nat) l a : tot f l = 0 -> In a l -> f a = 0.
Proof. induction l as [|x l IH]; cbn; [intros _ []|]. intros H [-> | Hi]; [lia|]. apply IH; auto. lia. Qed.

Lemma tot_in {A} (f : A -> nat) l a : In a l -> f a <= tot f l.
Proof. induction l as [|x l IH]; cbn; [intros []|]. intros [-> | Hi]; [lia|]. specialize (IH Hi). lia. Qed.

Definition b2n (b : bool) : nat := if b then 1 else 0.
Definition hold (s : nat) (o : option nat) : nat := b2n (is_slot o s).

Definition frame_holds (s : nat) (f : frame) : nat :=
  match f with
  | FDisc s' _ => b2n (Nat.eqb s' s)
  | FEmit e =>
      match e_phase e with
      | PRelease nx _ => hold s (e_cur e) + hold s nx + hold s (e_last e)
      | PLast => hold s (e_last e)
      | PFinish => 0
      | _ => hold s (e_cur e) + hold s (e_last e)
      end
  end.
Definition frame_emits (g : nat) (f : frame) : nat :=
  match f with FEmit e => b2n (Nat.eqb (e_sig e) g) | FDisc _ _ => 0 end.

Definition thread_holds (s : nat) (th : thread) : nat := tot (frame_holds s) (th_stack th).
Definition thread_emits (g : nat) (th : thread) : nat := tot (frame_emits g) (th_stack th).

(** References on slot [s] that are not a list's. *)
Definition X (st : state) (s : nat) : nat :=
  tot (hold s) (handles st) + tot (hold s) (blockers st) + tot (thread_holds s) (threads st) +
  tot (fun k => b2n (Nat.eqb k s)) (lost st).
Definition B (st : state) (s : nat) : nat := tot (hold s) (blockers st).
Definition A (st : state) (g : nat) : nat := tot (thread_emits g) (threads st).

(* --------------------------------------------------------------- relation *)

(** The part of the world frames depend on: which slots are connected, the lists,
    which signals live, how many slots exist. *)
Record world := mkworld { w_conn : nat -> bool; w_list : nat -> list nat; w_live : nat -> bool; w_len : nat }.

Definition seg (l : list nat) (c : nat) (mid : list nat) (la : nat) : Prop :=
  exists pre post, l = pre ++ (c :: mid) ++ post /\ last_opt (c :: mid) = Some la.

(** The slots still to visit agree on those that are connected. *)
Definition todo_ok (w : world) (mid todo : list nat) : Prop :=
  filter (w_conn w) mid = filter (w_conn w) todo /\ (forall s, In s todo -> s < w_len w).

Definition emission_rel (w : world) (stopped : bool) (e : emission) (ie : iemission) : Prop :=
  ie_id ie = e_id e /\ ie_sig ie = e_sig e /\ ie_stop ie = stopped /\ w_live w (e_sig e) = true /\
  match e_phase e with
  | PBlocked =>
      stopped = false /\ ie_at ie = ITurn /\
      exists c mid la, e_cur e = Some c /\ e_last e = Some la /\ seg (w_list w (e_sig e)) c mid la /\ todo_ok w (c :: mid) (ie_todo ie)
  | PValid =>
      stopped = false /\
      exists c mid la, e_cur e = Some c /\ e_last e = Some la /\ seg (w_list w (e_sig e)) c mid la /\ todo_ok w mid (ie_todo ie) /\
        (ie_at ie = IUnblocked c \/ ie_at ie = ITurn /\ w_conn w c = false)
  | PCall =>
      exists c mid la, e_cur e = Some c /\ e_last e = Some la /\ seg (w_list w (e_sig e)) c mid la /\ todo_ok w mid (ie_todo ie) /\
        ie_at ie = ICalling c
  | PInSlot =>
      exists c mid la, e_cur e = Some c /\ e_last e = Some la /\ seg (w_list w (e_sig e)) c mid la /\ todo_ok w mid (ie_todo ie) /\
        ie_at ie = IIn c
  | PAdvance =>
      exists c mid la, e_cur e = Some c /\ e_last e = Some la /\ seg (w_list w (e_sig e)) c mid la /\ todo_ok w mid (ie_todo ie) /\
        ie_at ie = ITurn
  | PRelease nx brk =>
      ie_at ie = ITurn /\
      exists c la, e_cur e = Some c /\ e_last e = Some la /\
        if brk then nx = None /\ (stopped = true \/ todo_ok w [] (ie_todo ie))
        else exists mid, stopped = false /\ mid <> [] /\ seg (w_list w (e_sig e)) c mid la /\ nx = hd_opt mid /\ todo_ok w mid (ie_todo ie)
  | PLast | PFinish =>
      ie_at ie = IEnding \/ ie_at ie = ITurn /\ (stopped = true \/ todo_ok w [] (ie_todo ie))
  end.

Definition in_slot (f : frame) : Prop :=
  match f with FEmit e => e_phase e = PInSlot | FDisc _ _ => False end.

Definition below (fs : list frame) : Prop := match fs with [] => True | f :: _ => in_slot f end.

Fixpoint stack_rel (w : world) (tl : tls) (fs : list frame) (is : list iframe) : Prop :=
  match fs, is with
  | [], [] => t_current tl = None
  | FEmit e :: fs', IEmit ie :: is' =>
      emission_rel w (t_stopped tl) e ie /\ (e_phase e = PInSlot -> t_current tl = e_cur e) /\
      below fs' /\ stack_rel w (e_prev e) fs' is'
  | FDisc s d :: fs', IDisc s' fin :: is' =>
      s' = s /\ fin = match d with DExchange => false | _ => true end /\
      (forall g, d = DRegion g -> w_live w g = true) /\
      (d <> DExchange -> s < w_len w /\ w_conn w s = false) /\
      below fs' /\ stack_rel w tl fs' is'
  | _, _ => False
  end.

Definition mid (st : state) (s g : nat) : Prop :=
  exists t th, nth_error (threads st) t = Some th /\ In (FDisc s (DRegion g)) (th_stack th).

Definition world_of (m : mem) (L : nat -> list nat) : world :=
  mkworld (connected m) L (glive m) (length (heap m)).

Record rel (st : state) (i : ideal) (L : nat -> list nat) (H : nat -> option nat) : Prop := {
  r_minv : minv (mm st) L H (X st) (B st) (A st);
  r_sender : forall s g, conn (mm st) s = Some g -> H s = Some g;
  r_dead : forall s g, H s = Some g -> conn (mm st) s = None -> gdfr (mm st) g = true \/ mid st s g;
  r_dfr : forall g, gdfr (mm st) g = true -> 0 < A st g;
  r_gone : forall g, glive (mm st) g = false -> L g = [];
  r_handles : i_handles i = handles st;
  r_blockers : i_blockers i = blockers st;
  r_fresh : i_fresh i = fresh st;
  r_slen : length (i_slots i) = length (heap (mm st));
  r_slots : forall s, nth s (i_slots i) None = conn (mm st) s;
  r_olen : length (i_order i) = length (sigs (mm st));
  r_order : forall g, nth g (i_order i) [] = filter (connected (mm st)) (L g);
  r_llen : length (i_live i) = length (sigs (mm st));
  r_live : forall g, nth g (i_live i) false = glive (mm st) g;
  r_threads : Forall2 (fun th is => stack_rel (world_of (mm st) L) (th_tls th) (th_stack th) is) (threads st) (i_threads i)
}.

(* ------------------------------------------------------------ preservation *)

(** How the world may change under frames [fs]. *)
Definition world_ok (w w' : world) (fs : list frame) : Prop :=
  w_len w <= w_len w' /\
  (forall s, s < w_len w -> w_conn w' s = true -> w_conn w s = true) /\
  (forall e, In (FEmit e) fs ->
     (exists p q, w_list w' (e_sig e) = p ++ w_list w (e_sig e) ++ q) /\ w_live w' (e_sig e) = true) /\
  (forall s g, In (FDisc s (DRegion g)) fs -> w_live w' g = true) /\
  (forall g s, In s (w_list w g) -> s < w_len w).

Lemma filter_mono {T} (f g : T -> bool) l :
  (forall x, In x l -> g x = true -> f x = true) -> filter g l = filter g (filter f l).
Proof.
  induction l as [|x l IH]; cbn; intros H; auto.
  destruct (f x) eqn:Ef; cbn; rewrite IH by auto; auto.
  destruct (g x) eqn:Eg; auto. rewrite (H x) in Ef by auto. discriminate.
Qed.

Lemma todo_mono w w' mid todo :
  w_len w <= w_len w' -> (forall s, s < w_len w -> w_conn w' s = true -> w_conn w s = true) ->
  (forall s, In s mid -> s < w_len w) -> todo_ok w mid todo -> todo_ok w' mid todo.
Proof.
  intros Hl Hc Hm [E Ht]. split.
  - rewrite (filter_mono (w_conn w) (w_conn w') mid), (filter_mono (w_conn w) (w_conn w') todo) by auto.
    now rewrite E.
  - intros s Hs. specialize (Ht s Hs). lia.
Qed.

Lemma seg_mono l p q c mid la : seg l c mid la -> seg (p ++ l ++ q) c mid la.
Proof.
  intros (pre & post & -> & E). exists (p ++ pre), (post ++ q). split; auto. now rewrite <- !app_assoc.
Qed.

Lemma seg_in l c mid la s : seg l c mid la -> In s (c :: mid) -> In s l.
Proof. intros (pre & post & -> & E) H. apply in_or_app; right. apply in_or_app; left; auto. Qed.

Lemma emission_rel_mono w w' stopped e ie fs :
  world_ok w w' fs -> In (FEmit e) fs -> emission_rel w stopped e ie -> emission_rel w' stopped e ie.
Proof.
  intros (Hl & Hc & He & _ & Hb) Hi (E1 & E2 & E3 & E4 & P).
  destruct (He e Hi) as [(p & q & EL) Hv]. split; [|split; [|split; [|split]]]; auto.
  assert (forall mid todo, (forall s, In s mid -> s < w_len w) -> todo_ok w mid todo -> todo_ok w' mid todo) as TM
    by (intros; eapply todo_mono; eauto).
  assert (forall c mid la, seg (w_list w (e_sig e)) c mid la -> seg (w_list w' (e_sig e)) c mid la) as SM
    by (intros; rewrite EL; apply seg_mono; auto).
  assert (forall c mid la s, seg (w_list w (e_sig e)) c mid la -> In s (c :: mid) -> s < w_len w) as IM
    by (intros; eapply Hb, seg_in; eauto).
  assert (forall c mid la s, seg (w_list w (e_sig e)) c mid la -> In s mid -> s < w_len w) as IM2
    by (intros; eapply IM; eauto; right; auto).
  destruct (e_phase e).
  - destruct P as (P1 & P2 & c & md & la & Q1 & Q2 & Q3 & Q4). split; auto. split; auto. exists c, md, la. eauto 10.
  - destruct P as (P1 & c & md & la & Q1 & Q2 & Q3 & Q4 & Q5). split; auto. exists c, md, la.
    repeat (split; eauto). destruct Q5 as [Q5|[Q5 Q6]]; auto. right. split; auto.
    destruct (w_conn w' c) eqn:Ec; auto. rewrite (Hc c) in Q6; auto. eapply IM; eauto. left; auto.
  - destruct P as (c & md & la & Q1 & Q2 & Q3 & Q4 & Q5). exists c, md, la. eauto 10.
  - destruct P as (c & md & la & Q1 & Q2 & Q3 & Q4 & Q5). exists c, md, la. eauto 10.
  - destruct P as (c & md & la & Q1 & Q2 & Q3 & Q4 & Q5). exists c, md, la. eauto 10.
  - destruct P as (P1 & c & la & Q1 & Q2 & Q3). split; auto. exists c, la. split; auto. split; auto.
    destruct brk.
    + destruct Q3 as [Q3 [Q4|Q4]]; split; auto. right. apply TM; auto. intros s [].
    + destruct Q3 as (md & Q3 & Q4 & Q5 & Q6 & Q7). exists md. eauto 10.
  - destruct P as [P|[P [Q|Q]]]; auto. right. split; auto. right. apply TM; auto. intros s [].
  - destruct P as [P|[P [Q|Q]]]; auto. right. split; auto. right. apply TM; auto. intros s [].
Qed.

Lemma stack_rel_mono w w' : forall fs tl is,
  world_ok w w' fs -> stack_rel w tl fs is -> stack_rel w' tl fs is.
Proof.
  induction fs as [|f fs IH]; intros tl is Hw R; destruct is as [|i0 is]; cbn [stack_rel] in *; auto.
  assert (world_ok w w' fs) as Hw' by (destruct Hw as (a & b & c & d & e); repeat split; auto; intros; try apply c; try eapply d; eauto; right; eauto).
    destruct f as [e|s d], i0 as [ie|s' fin]; try contradiction.
    - destruct R as (R1 & R2 & R3 & R4). split; [|split; [|split]]; auto.
      eapply (emission_rel_mono _ _ _ _ _ _ Hw); auto. left; auto.
    - destruct R as (R1 & R2 & R3 & R6 & R4 & R5). split; [|split; [|split; [|split; [|split]]]]; auto.
      + intros g ->. destruct Hw as (_ & _ & _ & D & _). eapply D. left; eauto.
      + intros Hd. destruct (R6 Hd) as [D1 D2]. destruct Hw as (W1 & W2 & _). split; [lia|].
        destruct (w_conn w' s) eqn:Ec; auto. rewrite (W2 s D1 Ec) in D2. discriminate.
Qed.

Lemma stack_rel_emit w e : forall fs tl is,
  stack_rel w tl fs is -> In (FEmit e) fs -> w_live w (e_sig e) = true.
Proof.
  induction fs as [|f fs IH]; intros tl is R Hi; destruct is as [|i0 is]; cbn in R; try contradiction; try (destruct f; contradiction).
  destruct f as [e'|s d], i0 as [ie|s' fin]; try contradiction.
  - destruct R as ((_ & _ & _ & R1 & _) & _ & _ & R4). destruct Hi as [E|Hi]; [injection E as ->; auto|eauto].
  - destruct R as (_ & _ & _ & _ & _ & R4). destruct Hi as [E|Hi]; [discriminate|eauto].
Qed.

Lemma stack_rel_disc w s g : forall fs tl is,
  stack_rel w tl fs is -> In (FDisc s (DRegion g)) fs -> w_live w g = true.
Proof.
  induction fs as [|f fs IH]; intros tl is R Hi; destruct is as [|i0 is]; cbn in R; try contradiction; try (destruct f; contradiction).
  destruct f as [e'|s' d], i0 as [ie|s'' fin]; try contradiction.
  - destruct R as (_ & _ & _ & R4). destruct Hi as [E|Hi]; [discriminate|eauto].
  - destruct R as (_ & _ & R3 & _ & _ & R4). destruct Hi as [E|Hi]; [injection E as -> ->; auto|eauto].
Qed.

Lemma put_upd {T} (l : list T) i v : put l i v = upd l i v.
Proof. reflexivity. Qed.

Lemma Forall2_upd {S T} (P Q : S -> T -> Prop) l k i a b :
  Forall2 P l k -> i < length l ->
  (forall j x y, j <> i -> nth_error l j = Some x -> nth_error k j = Some y -> P x y -> Q x y) ->
  Q a b -> Forall2 Q (upd l i a) (upd k i b).
Proof.
  intros F. revert i. induction F as [|x y l k Hxy F IH]; intros i Hi Hm Hab; cbn in *; [lia|].
  destruct i as [|i].
  - constructor; auto. clear IH Hi Hxy.
    assert (forall j x y, nth_error l j = Some x -> nth_error k j = Some y -> P x y -> Q x y) as Hm'.
    { intros j x' y' A1 A2 A3. apply (Hm (Datatypes.S j)); auto. }
    clear Hm. induction F as [|x' y' l k Hx F IH]; constructor.
    + apply (Hm' 0); auto.
    + apply IH. intros j x0 y0 A1 A2. apply (Hm' (Datatypes.S j)); auto.
  - constructor.
    + apply (Hm 0); auto.
    + apply IH; auto; [lia|]. intros j x' y' Hj A1 A2. apply (Hm (Datatypes.S j)); auto.
Qed.

Lemma Forall2_change {S T} (P Q : S -> T -> Prop) l k :
  Forall2 P l k -> (forall j x y, nth_error l j = Some x -> nth_error k j = Some y -> P x y -> Q x y) -> Forall2 Q l k.
Proof.
  intros F. induction F as [|x y l k Hxy F IH]; intros Hm; constructor.
  - apply (Hm 0); auto.
  - apply IH. intros j x' y' A1 A2. apply (Hm (Datatypes.S j)); auto.
Qed.

Lemma Forall2_nth {S T} (P : S -> T -> Prop) l k i a :
  Forall2 P l k -> nth_error l i = Some a -> exists b, nth_error k i = Some b /\ P a b.
Proof.
  intros F. revert i. induction F as [|x y l k Hxy F IH]; intros [|i] E; try discriminate; cbn in *.
  - injection E as ->. eauto.
  - apply IH; auto.
Qed.

(** Threads other than the one that moved. *)
Lemma world_ok_refl w fs :
  (forall e, In (FEmit e) fs -> w_live w (e_sig e) = true) ->
  (forall s g, In (FDisc s (DRegion g)) fs -> w_live w g = true) ->
  (forall g s, In s (w_list w g) -> s < w_len w) ->
  world_ok w w fs.
Proof.
  intros H1 H2 H3. split; [lia|]. split; [auto|]. split; [|split; auto].
  intros e He. split; auto. exists [], []. now rewrite app_nil_r.
Qed.

Lemma minv_bound m L H Xx Bb Aa g s : minv m L H Xx Bb Aa -> In s (L g) -> s < length (heap m).
Proof. intros I Hi. apply refs_range. eapply minv_in_refs; eauto. Qed.
