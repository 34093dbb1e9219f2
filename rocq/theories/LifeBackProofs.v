From Coq Require Import List Arith Bool Lia.
From Verif Require Import Base LifeModel LifeSpec LifeProofs.
Import ListNotations.

(** * Using results *)

Lemma needs_unit_mapo {A} live (g : A -> list region) (f : A -> outcome unit) l : Forall (fun x => needs live (g x) tt (f x)) l ->
  needs live (flat_map g l) tt (obind (mapo f l) (fun _ => Ok tt)).
Proof. intros H. apply (needs_map live _ _ _ (fun _ => tt) (needs_mapo live g (fun _ => tt) f l H)). Qed.
Theorem use_needs live r : needs live (uses r) tt (use live r).
Proof.
  induction r as [n| |s|q s|q v|l H|l H|l H] using result_ind'; cbn [uses use]; try apply needs_nil.
  - apply needs_region.
  - change (q :: refs v) with ([q] ++ refs v). eapply needs_bind; [apply needs_region|]. exact (needs_map live _ _ _ (fun _ => tt) (read_needs live v)).
  - now apply needs_unit_mapo.
  - now apply (needs_unit_mapo live (fun e => uses (snd e))).
  - now apply needs_unit_mapo.
Qed.

(** * What results point to *)

Lemma mapo_ok {A B} (f : A -> outcome B) l r : mapo f l = Ok r -> Forall2 (fun x y => f x = Ok y) l r.
Proof.
  revert r. induction l as [|x l IH]; intros r E; cbn [mapo] in E; [injection E as <-; constructor|].
  destruct (f x) as [y| |] eqn:F; try discriminate. cbn [obind] in E. destruct (mapo f l) as [ys| |]; try discriminate. injection E as <-. constructor; auto.
Qed.
Lemma forall2_in {A B} (P : A -> B -> Prop) l r y : Forall2 P l r -> In y r -> exists x, In x l /\ P x y.
Proof.
  induction 1 as [|x z l r H H' IH]; intros I; [destruct I|]. destruct I as [-> |I]; [exists x; cbn; auto|]. destruct (IH I) as (u & Hu & Pu). exists u. cbn. auto.
Qed.
Lemma obind_inv {A B} (x : outcome A) (f : A -> outcome B) z : obind x f = Ok z -> exists y, x = Ok y /\ f y = Ok z.
Proof. destruct x; cbn; try discriminate. eauto. Qed.

Definition roots (ty : type) (c : region) : list region := if borrows_root ty then [c] else [].
Lemma find_field_in live c n l p : find_field live c n l = Ok p -> p = (statics, Null) \/ exists t v, In (t, v) l /\ p = (c, v).
Proof.
  induction l as [|[t v] l IH]; cbn [find_field]; [intros [= <-]; now left|]. intros E. apply obind_inv in E as (s & _ & E). destruct (str_eqb s n).
  - injection E as <-. right. exists t, v. cbn. auto.
  - destruct (IH E) as [-> |(t' & v' & H & ->)]; [now left|]. right. exists t', v'. cbn. auto.
Qed.
Lemma cell_in b {A} (l : list A) (g : A -> list region) : In (cell_of b) (statics :: buffer_refs b ++ flat_map g l).
Proof. destruct b; cbn; auto. Qed.
Lemma inside ty b v rest : incl (refs v) rest -> incl (roots ty (cell_of b) ++ statics :: refs v) (statics :: buffer_refs b ++ rest).
Proof.
  intros H r Hr. apply in_app_or in Hr as [Hr|Hr].
  - unfold roots in Hr. destruct (borrows_root ty); [|destruct Hr]. destruct Hr as [<-|[]]. destruct b; cbn; auto.
  - destruct Hr as [<-|Hr]; [now left|]. right. apply in_or_app. right. auto.
Qed.
Lemma incl_flat {A} (g : A -> list region) l x : In x l -> incl (g x) (flat_map g l).
Proof. intros H r Hr. apply in_flat_map. now exists x. Qed.

Theorem deserialize_uses live ty : forall c v res, deserialize live ty c v = Ok res -> incl (uses res) (roots ty c ++ statics :: refs v).
Proof.
  induction ty as [| | | |t IH|t IH|t IH|fs IH] using type_ind'; intros c v res E; cbn [deserialize] in E.
  1-3,5-8: apply obind_inv in E as (u & _ & E).
  - destruct v; try discriminate. injection E as <-. intros r [].
  - destruct v as [|n|t|b l|b l]; try discriminate. apply obind_inv in E as (s & _ & [= <-]). intros r [].
  - destruct v as [|n|t|b l|b l]; try discriminate. injection E as <-. intros r [<-|[]]. apply in_or_app. cbn.
    destruct t as [s|q s|q s]; cbn; auto.
  - destruct v as [|n|x|b l|b l]; try discriminate. apply obind_inv in E as (rs & E & [= <-]). apply mapo_ok in E. intros r Hr. apply in_flat_map in Hr as (x & Hx & Hr).
    destruct (forall2_in _ _ _ x E Hx) as (v & Hv & Ev). apply IH in Ev. apply in_or_app. right. apply (inside t b v (flat_map refs l)); [now apply incl_flat|]. now apply Ev.
  - destruct v as [|n|x|b l|b l]; try discriminate. apply obind_inv in E as (w & _ & E). apply obind_inv in E as (rs & E & [= <-]). apply mapo_ok in E. intros r Hr.
    apply in_flat_map in Hr as (x & Hx & Hr). destruct (forall2_in _ _ _ x E Hx) as ([nm v] & Hv & Ev). apply obind_inv in Ev as (s & _ & Ev).
    apply obind_inv in Ev as (y & Ey & [= <-]). cbn [fst snd] in *. apply IH in Ey. apply in_or_app. right.
    apply (inside t b v (flat_map (fun e => text_refs (fst e) ++ refs (snd e)) l)); [|now apply Ey].
    intros q Hq. apply in_flat_map. exists (nm, v). split; [exact Hv|]. cbn. apply in_or_app. now right.
  - assert (R : roots (D_optional t) c = roots t c) by reflexivity. rewrite R. destruct v; [injection E as <-; intros r [] | exact (IH _ _ _ E)..].
  - destruct v as [|n|x|b l|b l]; try discriminate. apply obind_inv in E as (w & _ & E). apply obind_inv in E as (rs & E & [= <-]). apply mapo_ok in E. intros r Hr.
    apply in_flat_map in Hr as (x & Hx & Hr). destruct (forall2_in _ _ _ x E Hx) as ([nm t] & Hv & Ev). apply obind_inv in Ev as (p & Ep & Ev). cbn [fst snd] in *.
    rewrite Forall_forall in IH. apply (IH (nm, t) Hv) in Ev. apply in_or_app. right. destruct (find_field_in live _ _ _ _ Ep) as [-> |(tx & v & Hin & ->)].
    + apply Ev in Hr. cbn [fst snd] in Hr. apply in_app_or in Hr as [Hr|[<-|[]]]; [|now left]. unfold roots in Hr. destruct (borrows_root t); [|destruct Hr]. destruct Hr as [<-|[]]. now left.
    + cbn [fst snd] in Ev. apply (inside t b v (flat_map (fun e => text_refs (fst e) ++ refs (snd e)) l)); [|now apply Ev].
      intros q Hq. apply in_flat_map. exists (tx, v). split; [exact Hin|]. cbn. apply in_or_app. now right.
  - injection E as <-. intros r [<-|Hr]; apply in_or_app; [left; now left | right; now right].
Qed.
Theorem owning_uses live ty : owning ty = true -> forall c v res, deserialize live ty c v = Ok res -> uses res = [].
Proof.
  assert (F : forall {A} (g : A -> list region) l, (forall x, In x l -> g x = []) -> flat_map g l = []).
  { intros A g l H. induction l as [|x l IHl]; [reflexivity|]. cbn. rewrite H by now left. apply IHl. intros y Hy. apply H. now right. }
  induction ty as [| | | |t IH|t IH|t IH|fs IH] using type_ind'; intros O c v res E; cbn [deserialize] in E; cbn [owning] in O; try discriminate.
  all: apply obind_inv in E as (u & _ & E).
  - destruct v; try discriminate. now injection E as <-.
  - destruct v as [|n|t|b l|b l]; try discriminate. now apply obind_inv in E as (s & _ & [= <-]).
  - destruct v as [|n|x|b l|b l]; try discriminate. apply obind_inv in E as (rs & E & [= <-]). apply mapo_ok in E. apply F. intros x Hx.
    destruct (forall2_in _ _ _ x E Hx) as (v & Hv & Ev). exact (IH O _ _ _ Ev).
  - destruct v as [|n|x|b l|b l]; try discriminate. apply obind_inv in E as (w & _ & E). apply obind_inv in E as (rs & E & [= <-]). apply mapo_ok in E. apply F. intros x Hx.
    destruct (forall2_in _ _ _ x E Hx) as ([nm v] & Hv & Ev). apply obind_inv in Ev as (s & _ & Ev). apply obind_inv in Ev as (y & Ey & [= <-]). exact (IH O _ _ _ Ey).
  - destruct v; [now injection E as <- | exact (IH O _ _ _ E)..].
  - destruct v as [|n|x|b l|b l]; try discriminate. apply obind_inv in E as (w & _ & E). apply obind_inv in E as (rs & E & [= <-]). apply mapo_ok in E. apply F. intros x Hx.
    destruct (forall2_in _ _ _ x E Hx) as ([nm t] & Hv & Ev). apply obind_inv in Ev as (p & Ep & Ev). rewrite Forall_forall in IH. rewrite forallb_forall in O.
    exact (IH (nm, t) Hv (O _ Hv) _ _ _ Ev).
Qed.

(** * Never undefined while the document lives *)

Lemma mapo_defined {A B} (f : A -> outcome B) l : Forall (fun x => f x <> UB) l -> mapo f l <> UB.
Proof. induction 1 as [|x l H _ IH]; cbn [mapo]; [discriminate|]. destruct (f x); cbn [obind]; try discriminate; [|now destruct H]. destruct (mapo f l); cbn [obind]; try discriminate. now destruct IH. Qed.
Lemma obind_defined {A B} (x : outcome A) (f : A -> outcome B) : x <> UB -> (forall y, x = Ok y -> f y <> UB) -> obind x f <> UB.
Proof. intros H H'. destruct x; cbn; [now apply H' | discriminate | now destruct H]. Qed.
Lemma text_defined live t : lives live (text_refs t) -> read_text live t <> UB.
Proof. intros H. rewrite (proj1 (needs_text live t) H). discriminate. Qed.
Lemma find_defined live c n l : lives live (flat_map (fun e => text_refs (fst e) ++ refs (snd e)) l) -> find_field live c n l <> UB.
Proof.
  induction l as [|[t v] l IH]; cbn [find_field flat_map fst snd]; intros H; [discriminate|]. rewrite !lives_app in H. destruct H as [[H1 H2] H3].
  apply obind_defined; [now apply text_defined|]. intros s _. destruct (str_eqb s n); [discriminate | auto].
Qed.
Theorem deserialize_defined live ty : forall c v, lives live (c :: statics :: refs v) -> deserialize live ty c v <> UB.
Proof.
  induction ty as [| | | |t IH|t IH|t IH|fs IH] using type_ind'; intros c v H; cbn [deserialize]; rewrite !lives_cons in H; destruct H as (Hc & Hs & Hv).
  1-3,5-8: apply obind_defined; [unfold at_region; rewrite Hc; discriminate | intros _ _].
  - destruct v; discriminate.
  - destruct v as [|n|t|b l|b l]; try discriminate. apply obind_defined; [now apply text_defined | discriminate].
  - destruct v; discriminate.
  - destruct v as [|n|x|b l|b l]; try discriminate. cbn [refs] in Hv. apply lives_app in Hv as [Hb Hl]. apply obind_defined; [|discriminate]. apply mapo_defined. rewrite Forall_forall.
    intros x Hx. apply IH. rewrite !lives_cons. split; [destruct b; [apply Hb; now left | exact Hs]|]. split; [exact Hs|]. intros r Hr. apply Hl, in_flat_map. now exists x.
  - destruct v as [|n|x|b l|b l]; try discriminate. cbn [refs] in Hv. apply lives_app in Hv as [Hb Hl]. rewrite (proj1 (needs_buffer live b tt) Hb). cbn [obind].
    apply obind_defined; [|discriminate]. apply mapo_defined. rewrite Forall_forall.
    intros [nm x] Hx. cbn [fst snd]. assert (L : lives live (text_refs nm ++ refs x)) by (intros r Hr; apply Hl, in_flat_map; now exists (nm, x)). apply lives_app in L as [L1 L2].
    apply obind_defined; [now apply text_defined|]. intros s _. apply obind_defined; [|discriminate]. apply IH. rewrite !lives_cons.
    split; [destruct b; [apply Hb; now left | exact Hs] | auto].
  - destruct v as [|n|x|b l|b l]; [discriminate|..]; apply IH; rewrite !lives_cons; auto.
  - destruct v as [|n|x|b l|b l]; try discriminate. cbn [refs] in Hv. apply lives_app in Hv as [Hb Hl]. rewrite (proj1 (needs_buffer live b tt) Hb). cbn [obind].
    apply obind_defined; [|discriminate]. apply mapo_defined. rewrite Forall_forall in *. intros [nm t] Ht. cbn [fst snd]. apply obind_defined; [now apply find_defined|].
    intros p Ep. apply (IH (nm, t) Ht). destruct (find_field_in live _ _ _ _ Ep) as [-> |(tx & v & Hin & ->)]; cbn [fst snd]; rewrite !lives_cons.
    + split; [exact Hs|]. split; [exact Hs | apply lives_nil].
    + split; [destruct b; [apply Hb; now left | exact Hs]|]. split; [exact Hs|]. intros r Hr. apply Hl, in_flat_map. exists (tx, v). split; [exact Hin|]. apply in_or_app. now right.
  - discriminate.
Qed.

(** * Parsed documents *)

Lemma tree_ind' (P : tree -> Prop) : P T_null -> (forall n, P (T_scalar n)) -> (forall t, P (T_str t)) ->
  (forall l, Forall P l -> P (T_arr l)) -> (forall l, Forall (fun e => P (snd e)) l -> P (T_obj l)) -> forall v, P v.
Proof.
  intros H0 H1 H2 H3 H4. fix F 1. intros [|n|t|l|l]; [exact H0 | apply H1 | apply H2 | apply H3 | apply H4].
  - induction l as [|x l IH]; constructor; [apply F | exact IH].
  - induction l as [|[t x] l IH]; constructor; [apply F | exact IH].
Qed.
Lemma parsed_refs limit a t : forall r, In r (refs (parsed limit a t)) -> r = a.
Proof.
  induction t as [|n|t|l H|l H] using tree_ind'; intros r; cbn [parsed refs]; try (now intros []).
  - intros Hr. now apply refs_copy_text in Hr.
  - rewrite in_app_iff, in_flat_map. rewrite Forall_forall in H. intros [Hr|(v & Hv & Hr)].
    + destruct l; cbn in Hr; [destruct Hr | destruct Hr as [<-|[]]; reflexivity].
    + apply in_map_iff in Hv as (t & <- & Ht). exact (H t Ht r Hr).
  - rewrite in_app_iff, in_flat_map. rewrite Forall_forall in H. intros [Hr|(v & Hv & Hr)].
    + destruct l; cbn in Hr; [destruct Hr | destruct Hr as [<-|[]]; reflexivity].
    + apply in_map_iff in Hv as ([s t] & <- & Ht). cbn [fst snd] in Hr. apply in_app_or in Hr as [Hr|Hr]; [now apply refs_copy_text in Hr|]. exact (H (s, t) Ht r Hr).
Qed.
Lemma parsed_contents limit a t : contents (parsed limit a t) = t.
Proof.
  induction t as [|n|t|l H|l H] using tree_ind'; cbn [parsed contents]; try reflexivity.
  - now rewrite chars_copy.
  - rewrite map_map. f_equal. rewrite <- (map_id l) at 2. now apply map_forall.
  - rewrite map_map. f_equal. rewrite <- (map_id l) at 2. apply map_forall. eapply Forall_impl; [|exact H]. intros [s t] E. cbn [fst snd] in *. now rewrite chars_copy, E.
Qed.
Theorem parse_reads limit a t live : live a = true -> read live (parsed limit a t) = Ok t.
Proof. intros A. rewrite (proj1 (read_needs live (parsed limit a t))); [now rewrite parsed_contents|]. intros r Hr. now rewrite (parsed_refs limit a t r Hr). Qed.

Theorem owned_outlives live ty c v res live' : owning ty = true -> deserialize live ty c v = Ok res -> use live' res = Ok tt.
Proof. intros O E. apply use_needs. rewrite (owning_uses live ty O c v res E). apply lives_nil. Qed.
Theorem borrowed_while live ty c v res live' : deserialize live ty c v = Ok res -> lives live' (statics :: refs v) -> (borrows_root ty = true -> live' c = true) -> use live' res = Ok tt.
Proof.
  intros E L C. apply use_needs. intros r Hr. apply (deserialize_uses live ty c v res E) in Hr. apply in_app_or in Hr as [Hr|Hr]; [|exact (L r Hr)].
  unfold roots in Hr. destruct (borrows_root ty); [|destruct Hr]. destruct Hr as [<-|[]]. auto.
Qed.
Theorem moved_document live limit a ty c t res live' : deserialize live ty c (parsed limit a t) = Ok res -> borrows_root ty = false ->
  live' a = true -> live' statics = true -> use live' res = Ok tt.
Proof.
  intros E B A S. apply (borrowed_while live ty c _ res live' E); [|congruence]. intros r [<-|Hr]; [exact S|]. now rewrite (parsed_refs limit a t r Hr).
Qed.
