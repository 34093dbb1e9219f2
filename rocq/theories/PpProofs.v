(** Running the preprocessor model symbolically. *)
From Coq Require Import String List Arith Bool Lia.
From Verif Require Import PpModel PpSpec.
Import ListNotations.
Local Open Scope list_scope.

Definition Expands (E : penv) (ts out : list ht) : Prop :=
  exists n, forall m, n <= m -> expand E m ts = Some out.
Definition Run (E : penv) (ts : list ht) (P : list ht -> Prop) : Prop :=
  exists out, Expands E ts out /\ P out.

Lemma run_weak : forall E ts (P Q : list ht -> Prop), (forall o, P o -> Q o) -> Run E ts P -> Run E ts Q.
Proof. intros E ts P Q H (o & A & B). exists o. auto. Qed.

Lemma run_nil : forall E (P : list ht -> Prop), P [] -> Run E [] P.
Proof. intros E P H. exists []. split; [|exact H]. exists 1. intros [|m] L; [lia | reflexivity]. Qed.

Lemma run_keep : forall E t rest P,
  (match fst t with
   | Id n => mem n (snd t) = true \/ lookup E n = None
             \/ (match lookup E n with Some (Obj _) => False | _ => True end
                 /\ match rest with (LP, _) :: _ => False | _ => True end)
   | _ => True end) ->
  Run E rest (fun o => P (t :: o)) -> Run E (t :: rest) P.
Proof.
  intros E [t h] rest P C (o & (n & A) & B). exists ((t, h) :: o). split; [|exact B].
  exists (S n). intros [|m] L; [lia|]. cbn [expand]. rewrite A by lia.
  cbn [fst snd] in C. destruct t; try reflexivity.
  destruct (mem n0 h); [reflexivity|].
  destruct C as [C | [C | [C D]]]; [discriminate | rewrite C; reflexivity |].
  destruct (lookup E n0) as [[?|? ? ?|?]|]; try contradiction; try reflexivity;
    destruct rest as [|[[] ?] ?]; try contradiction; reflexivity.
Qed.

Lemma all_forall2 : forall E (l : list (list ht)) ex n,
  Forall2 (fun a x => forall m, n <= m -> expand E m a = Some x) l ex ->
  forall m, n <= m -> all (map (expand E m) l) = Some ex.
Proof.
  intros E l ex n H. induction H as [|a x l ex A H IH]; intros m L; [reflexivity|].
  cbn. rewrite A by exact L. rewrite IH by exact L. reflexivity.
Qed.

Lemma expands_all : forall E (l : list (list ht)) ex, Forall2 (Expands E) l ex ->
  exists n, Forall2 (fun a x => forall m, n <= m -> expand E m a = Some x) l ex.
Proof.
  intros E l ex H. induction H as [|a x l ex (n & A) H (k & IH)]; [exists 0; constructor|].
  exists (Nat.max n k). constructor; [intros m L; apply A; lia|].
  clear -IH. induction IH as [|b y l ex B IH IH2]; constructor; [|exact IH2]. intros m L. apply B. lia.
Qed.

Lemma run_fun0 : forall E n h hl rest1 ps va body args h1 rest2 raw ex out P,
  mem n h = false -> lookup E n = Some (Fun ps va body) ->
  collect 0 [] rest1 = Some (args, h1, rest2) -> bind ps va args = Some raw ->
  Forall2 (Expands E) (map snd raw) ex ->
  subst raw (combine (map fst raw) ex) body [] = Some out ->
  Run E (hsadd (n :: inter h h1) (rev out) ++ rest2) P ->
  Run E ((Id n, h) :: (LP, hl) :: rest1) P.
Proof.
  intros E n h hl rest1 ps va body args h1 rest2 raw ex out P M Lk C B X Sb (o & (k & A) & Q).
  exists o. split; [|exact Q]. destruct (expands_all _ _ _ X) as (k2 & X2).
  exists (S (Nat.max k k2)). intros [|m] L; [lia|]. cbn [expand]. rewrite M, Lk, C, B.
  rewrite (all_forall2 _ _ _ _ X2) by lia. rewrite Sb. apply A. lia.
Qed.

Lemma run_builtin0 : forall E n h hl rest1 b args h1 rest2 ex out r P,
  mem n h = false -> lookup E n = Some (Builtin b) ->
  collect 0 [] rest1 = Some (args, h1, rest2) ->
  Forall2 (Expands E) args ex ->
  builtin_text E b n (inter h h1) ex = Some (out, r) ->
  Run E (hsadd (r :: inter h h1) out ++ rest2) P ->
  Run E ((Id n, h) :: (LP, hl) :: rest1) P.
Proof.
  intros E n h hl rest1 b args h1 rest2 ex out r P M Lk C X T (o & (k & A) & Q).
  exists o. split; [|exact Q]. destruct (expands_all _ _ _ X) as (k2 & X2).
  exists (S (Nat.max k k2)). intros [|m] L; [lia|]. cbn [expand]. rewrite M, Lk, C.
  rewrite (all_forall2 _ _ _ _ X2) by lia. rewrite T. apply A. lia.
Qed.

Lemma run_obj0 : forall E n h rest body out P,
  mem n h = false -> lookup E n = Some (Obj body) -> subst [] [] body [] = Some out ->
  Run E (hsadd (n :: h) (rev out) ++ rest) P -> Run E ((Id n, h) :: rest) P.
Proof.
  intros E n h rest body out P M Lk Sb (o & (k & A) & Q).
  exists o. split; [|exact Q]. exists (S k). intros [|m] L; [lia|]. cbn [expand]. rewrite M, Lk, Sb.
  apply A. lia.
Qed.

(** * Hide sets *)

Definition free (F : list string) (h : hs) : Prop := forallb (fun n => negb (mem n h)) F = true.

Lemma free_mem : forall F h n, free F h -> mem n F = true -> mem n h = false.
Proof.
  intros F h n H M. unfold mem in M. apply existsb_exists in M. destruct M as (x & I & Q).
  apply String.eqb_eq in Q. subst x. unfold free in H. rewrite forallb_forall in H.
  specialize (H _ I). apply negb_true_iff in H. exact H.
Qed.

Lemma free_sub : forall F G h, free F h -> forallb (fun n => mem n F) G = true -> free G h.
Proof.
  intros F G h H S. unfold free. apply forallb_forall. intros n I. rewrite forallb_forall in S.
  apply negb_true_iff. eapply free_mem; [exact H | apply S, I].
Qed.

Lemma mem_inter : forall n a b, mem n (inter a b) = true -> mem n b = true.
Proof.
  intros n a b H. unfold mem in H. apply existsb_exists in H. destruct H as (x & I & Q).
  apply String.eqb_eq in Q. subst x. unfold inter in I. apply filter_In in I. apply I.
Qed.

(** The hide set after a call of [m] whose closing parenthesis has the set [h1]. *)
Definition from (m : string) (h1 h : hs) : Prop := forall n, mem n h = true -> n = m \/ mem n h1 = true.

Lemma from_inter : forall m a b, from m b (m :: inter a b).
Proof.
  intros m a b n H. cbn in H. apply orb_true_iff in H. destruct H as [H | H].
  - left. apply String.eqb_eq, H.
  - right. eapply mem_inter, H.
Qed.

Lemma from_free : forall F m h1 h, from m h1 h -> free F h1 -> mem m F = false -> free F h.
Proof.
  intros F m h1 h H Fr M. unfold free. apply forallb_forall. intros n I. apply negb_true_iff.
  destruct (mem n h) eqn:B; [|reflexivity]. destruct (H n B) as [-> | C].
  - exfalso. unfold mem in M. assert (existsb (String.eqb m) F = true); [|congruence].
    apply existsb_exists. exists m. split; [exact I | apply String.eqb_refl].
  - unfold free in Fr. rewrite forallb_forall in Fr. specialize (Fr _ I). rewrite C in Fr. discriminate.
Qed.

(** * Tokens up to hide sets *)

(** [o] is [v] with hide sets; those of macro names contain nothing of [G]. *)
Definition sim (E : penv) (G : list string) (o : list ht) (v : list tok) : Prop :=
  strip o = v /\ forall n h, In (Id n, h) o -> lookup E n <> None -> free G h.

Lemma mem_app : forall n a b, mem n (a ++ b) = mem n a || mem n b.
Proof. intros. unfold mem. apply existsb_app. Qed.

Lemma free_app : forall F a b, free F a -> free F b -> free F (a ++ b).
Proof.
  intros F a b A B. unfold free in *. rewrite forallb_forall in *. intros n I. rewrite mem_app.
  specialize (A _ I). specialize (B _ I). apply negb_true_iff in A, B. rewrite A, B. reflexivity.
Qed.

Lemma strip_hsadd : forall h ts, strip (hsadd h ts) = strip ts.
Proof. intros. unfold strip, hsadd. rewrite map_map. reflexivity. Qed.

Lemma sim_hsadd : forall E G h o v, free G h -> sim E G o v -> sim E G (hsadd h o) v.
Proof.
  intros E G h o v F [A B]. split; [rewrite strip_hsadd; exact A|].
  intros n k I Lk. unfold hsadd in I. apply in_map_iff in I. destruct I as ((t & k') & Q & I).
  cbn in Q. inversion Q; subst. apply free_app; [exact F|]. eapply B; eauto.
Qed.

Lemma strip_app : forall a b, strip (a ++ b) = strip a ++ strip b.
Proof. intros. apply map_app. Qed.

Lemma sim_app : forall E G a b v w, sim E G a v -> sim E G b w -> sim E G (a ++ b) (v ++ w).
Proof.
  intros E G a b v w [A1 A2] [B1 B2]. split; [rewrite strip_app; congruence|].
  intros n h I L. apply in_app_iff in I. destruct I; eauto.
Qed.

Lemma sim_app_inv : forall E G o v w, sim E G o (v ++ w) -> exists a b, o = a ++ b /\ sim E G a v /\ sim E G b w.
Proof.
  intros E G o v w [A B]. apply map_eq_app in A. destruct A as (a & b & -> & <- & <-).
  exists a, b. split; [reflexivity|]. split; (split; [reflexivity|]); intros n h I L; eapply B; eauto; apply in_app_iff; auto.
Qed.

Lemma sim_cons_inv : forall E G o t w, sim E G o (t :: w) -> exists h b, o = (t, h) :: b /\ sim E G b w.
Proof.
  intros E G [|[t' h] b] t w [A B]; [discriminate|]. inversion A; subst. exists h, b.
  split; [reflexivity|]. split; [reflexivity|]. intros n k I L. eapply B; [right; exact I | exact L].
Qed.

Lemma sim_nil_inv : forall E G o, sim E G o [] -> o = [].
Proof. intros E G [|] [A B]; [reflexivity | discriminate]. Qed.

Lemma sim_cons : forall E G t h o v,
  match t with Id n => lookup E n = None \/ free G h | _ => True end ->
  sim E G o v -> sim E G ((t, h) :: o) (t :: v).
Proof.
  intros E G t h o v C [A B]. split; [cbn; f_equal; exact A|].
  intros n k [Q | I] L; [|eapply B; eauto]. inversion Q; subst. destruct C as [C | C]; [contradiction | exact C].
Qed.

Lemma sim_nil : forall E G, sim E G [] [].
Proof. intros. split; [reflexivity | intros n h []]. Qed.

Lemma quiet_app : forall E a b, quiet E (a ++ b) <-> quiet E a /\ quiet E b.
Proof.
  intros E a b. unfold quiet. split.
  - intros H. split; intros n I; apply H, in_app_iff; auto.
  - intros [A B] n I. apply in_app_iff in I. destruct I; auto.
Qed.

Lemma quiet_cons : forall E t a, quiet E (t :: a) <-> match t with Id n => lookup E n = None | _ => True end /\ quiet E a.
Proof.
  intros E t a. change (t :: a) with ([t] ++ a). rewrite quiet_app. split; intros [A B]; split; auto.
  - destruct t; auto. apply A. left. reflexivity.
  - intros n [Q | []]. subst t. exact A.
Qed.

Lemma quiet_nil : forall E, quiet E [].
Proof. intros E n []. Qed.

Lemma sim_quiet : forall E G o v, strip o = v -> quiet E v -> sim E G o v.
Proof.
  intros E G o v A Q. split; [exact A|]. intros n h I L. exfalso. apply L, Q. rewrite <- A.
  unfold strip. apply in_map_iff. exists (Id n, h). auto.
Qed.

(** * Tokens that stay *)

(** No macro is followed by a parenthesis, and none is without parameters. *)
Fixpoint dormant (E : penv) (v : list tok) : Prop :=
  match v with
  | [] => True
  | Id n :: v' =>
      (lookup E n = None
       \/ (match lookup E n with Some (Obj _) => False | _ => True end
           /\ match v' with LP :: _ => False | _ => True end))
      /\ dormant E v'
  | _ :: v' => dormant E v'
  end.

Lemma dormant_quiet : forall E v, quiet E v -> dormant E v.
Proof.
  intros E v. induction v as [|t v IH]; intros Q; [exact I|]. apply quiet_cons in Q. destruct Q as [A B].
  destruct t; cbn; auto.
Qed.

Lemma run_dormant : forall E o (P : list ht -> Prop), dormant E (strip o) -> P o -> Run E o P.
Proof.
  intros E o. induction o as [|[t h] o IH]; intros P D H; [apply run_nil, H|].
  apply run_keep.
  - cbn [fst snd]. destruct t; auto. cbn in D. destruct D as [[D | [D1 D2]] _]; [auto|].
    right. right. split; [exact D1|]. destruct o as [|[[] ?] ?]; cbn in D2; auto.
  - apply IH; [|exact H]. destruct t; cbn in D; auto. apply D.
Qed.

Lemma run_quiet : forall E o rest P, quiet E (strip o) -> Run E rest (fun r => P (o ++ r)) -> Run E (o ++ rest) P.
Proof.
  intros E o. induction o as [|[t h] o IH]; intros rest P Q H; [exact H|].
  cbn in Q. apply quiet_cons in Q. destruct Q as [A B]. cbn [app]. apply run_keep.
  - cbn [fst snd]. destruct t; auto.
  - apply IH; [exact B | exact H].
Qed.

(** An argument on its own. *)
Definition Val (E : penv) (G : list string) (a : list ht) (v : list tok) : Prop := Run E a (fun o => sim E G o v).

Lemma val_dormant : forall E G a v, sim E G a v -> dormant E v -> Val E G a v.
Proof. intros E G a v S D. apply run_dormant; [rewrite (proj1 S); exact D | exact S]. Qed.

(** * Arguments *)

Lemma closed_collect : forall o d k cur rest, closed d (strip o) = true ->
  collect (d + k) cur (o ++ rest) = collect k (rev o ++ cur) rest.
Proof.
  induction o as [|[t h] o IH]; intros d k cur rest C.
  - cbn in C. apply Nat.eqb_eq in C. subst d. reflexivity.
  - cbn [app]. cbn in C.
    assert (K : forall c, rev ((t, h) :: o) ++ c = rev o ++ (t, h) :: c)
      by (intros; cbn [rev]; rewrite <- app_assoc; reflexivity).
    rewrite K. destruct t; cbn [collect]; try (apply IH; exact C).
    + apply (IH (S d)). exact C.
    + destruct d as [|d]; [discriminate|]. cbn [plus]. apply IH. exact C.
    + apply andb_true_iff in C. destruct C as [C1 C2]. destruct d as [|d]; [discriminate|]. cbn [plus].
      rewrite <- (IH (S d) k) by exact C2. reflexivity.
Qed.

Lemma collect_seg : forall o k cur rest, closed 0 (strip o) = true ->
  collect k cur (o ++ rest) = collect k (rev o ++ cur) rest.
Proof. intros. apply (closed_collect o 0). assumption. Qed.

Lemma closed_app : forall a d b, closed d a = true -> closed 0 b = true -> closed d (a ++ b) = true.
Proof.
  induction a as [|t a IH]; intros d b A B.
  - cbn in A. apply Nat.eqb_eq in A. subst d. exact B.
  - destruct t; cbn in *; try (apply IH; assumption).
    + destruct d; [discriminate | apply IH; assumption].
    + apply andb_true_iff in A. destruct A as [A1 A2]. rewrite A1. apply IH; assumption.
Qed.

Lemma closed_deep : forall a d k, closed d a = true -> forall b, closed k b = true -> closed (d + k) (a ++ b) = true.
Proof.
  induction a as [|t a IH]; intros d k A b B.
  - cbn in A. apply Nat.eqb_eq in A. subst d. exact B.
  - destruct t; cbn in *; try (apply IH; assumption).
    + apply (IH (S d)); assumption.
    + destruct d; [discriminate | apply IH; assumption].
    + apply andb_true_iff in A. destruct A as [A1 A2]. destruct d; [discriminate|]. cbn.
      apply (IH (S d)); assumption.
Qed.

Lemma closed_listed : forall vs k b, Forall (fun v => closed 0 v = true) vs -> closed (S k) b = true ->
  closed (S k) (listed vs ++ b) = true.
Proof.
  induction vs as [|v vs IH]; intros k b H B; [exact B|].
  inversion H as [|? ? A R]; subst. destruct vs as [|w vs].
  - cbn [listed]. apply (closed_deep v 0 (S k)); assumption.
  - cbn [listed]. rewrite <- app_assoc. apply (closed_deep v 0 (S k)); [assumption|]. cbn [app closed].
    cbn. apply IH; assumption.
Qed.

Lemma closed_paren : forall vs, Forall (fun v => closed 0 v = true) vs -> closed 0 (paren vs) = true.
Proof. intros vs H. unfold paren. cbn [closed]. apply closed_listed; [exact H | reflexivity]. Qed.

(** Collecting a list of arguments. *)
Lemma collect_listed : forall E G vs e h rest, vs <> [] -> Forall (fun v => closed 0 v = true) vs ->
  sim E G e (listed vs) ->
  exists es, collect 0 [] (e ++ (RP, h) :: rest) = Some (es, h, rest) /\ Forall2 (sim E G) es vs
             /\ (forall c, In c es -> closed 0 (strip c) = true).
Proof.
  intros E G vs. induction vs as [|v vs IH]; intros e h rest N H S; [contradiction|].
  inversion H as [|? ? A R]; subst. destruct vs as [|w vs].
  - cbn [listed] in S. exists [e]. rewrite collect_seg by (rewrite (proj1 S); exact A). cbn [collect].
    rewrite app_nil_r, rev_involutive. split; [reflexivity|]. split; [repeat constructor; apply S|].
    intros c [<- | []]. rewrite (proj1 S). exact A.
  - cbn [listed] in S. apply sim_app_inv in S. destruct S as (a & b & -> & S1 & S2).
    apply sim_cons_inv in S2. destruct S2 as (hc & b' & -> & S2).
    destruct (IH b' h rest) as (es & C & F & K); [discriminate | exact R | exact S2 |].
    exists (a :: es). rewrite <- app_assoc, collect_seg by (rewrite (proj1 S1); exact A). cbn [app collect].
    rewrite C, app_nil_r, rev_involutive. split; [reflexivity|]. split; [constructor; assumption|].
    intros c [<- | I]; [rewrite (proj1 S1); exact A | apply K, I].
Qed.

Lemma sim_commas : forall E G es vs, Forall2 (sim E G) es vs -> sim E G (commas es) (listed vs).
Proof.
  intros E G es vs H. induction H as [|e v es vs S H IH]; [apply sim_nil|].
  destruct H as [|e2 v2 es2 vs2 S2 H2]; [exact S|].
  change (sim E G (e ++ (Comma, []) :: commas (e2 :: es2)) (v ++ Comma :: listed (v2 :: vs2))).
  apply sim_app; [exact S|]. apply sim_cons; [exact I | exact IH].
Qed.

Lemma tuple_sim : forall E G e vs, vs <> [] -> Forall (fun v => closed 0 v = true) vs -> sim E G e (paren vs) ->
  exists es, tuple e = Some (es, []) /\ Forall2 (sim E G) es vs.
Proof.
  intros E G e vs N H S. unfold paren in S. apply sim_cons_inv in S. destruct S as (h & b & -> & S).
  apply sim_app_inv in S. destruct S as (a & c & -> & S1 & S2).
  apply sim_cons_inv in S2. destruct S2 as (h2 & d & -> & S2). apply sim_nil_inv in S2. subst d.
  destruct (collect_listed E G vs a h2 [] N H S1) as (es & C & F & _).
  exists es. cbn [tuple]. rewrite C. auto.
Qed.

Lemma f2_length : forall {A B} {R : A -> B -> Prop} {l l'}, Forall2 R l l' -> length l = length l'.
Proof. intros A B R l l' H. induction H; cbn; congruence. Qed.

Lemma whole_tuple_sim : forall E G e vs, vs <> [] -> Forall (fun v => closed 0 v = true) vs -> sim E G e (paren vs) ->
  length vs <= p_tuple E ->
  exists es, whole_tuple E e = Some es /\ Forall2 (sim E G) es vs.
Proof.
  intros E G e vs N H S L. destruct (tuple_sim E G e vs N H S) as (es & T & F).
  exists es. split; [|exact F]. unfold whole_tuple. rewrite T.
  rewrite (f2_length F). apply Nat.leb_le in L. rewrite L. reflexivity.
Qed.

Notation sq := in_sequence (only parsing).

Lemma seq_aux_sim : forall E G vs e f, Forall (fun v => closed 0 v = true) vs -> sim E G e (sq vs) ->
  length vs <= f ->
  exists es, seq_aux f e = Some es /\ Forall2 (sim E G) es vs.
Proof.
  intros E G vs. induction vs as [|v vs IH]; intros e f H S L.
  - apply sim_nil_inv in S. subst e. exists []. destruct f; split; constructor.
  - inversion H as [|? ? A R]; subst. destruct f as [|f]; [cbn in L; lia|].
    unfold in_sequence in S. cbn [flat_map app] in S. apply sim_cons_inv in S. destruct S as (h & b & -> & S).
    rewrite <- app_assoc in S. apply sim_app_inv in S. destruct S as (a & c & -> & S1 & S2).
    cbn [app] in S2. apply sim_cons_inv in S2. destruct S2 as (h2 & d & -> & S2).
    destruct (IH d f R S2) as (es & C & F); [cbn in L; lia|].
    exists (a :: es). cbn [seq_aux tuple].
    rewrite collect_seg by (rewrite (proj1 S1); exact A). cbn [collect].
    rewrite app_nil_r, rev_involutive, C. split; [reflexivity | constructor; assumption].
Qed.

Lemma sq_length : forall vs, length vs <= length (sq vs).
Proof.
  induction vs as [|v vs IH]; [reflexivity|]. unfold in_sequence in *. cbn [flat_map]. rewrite app_length. cbn [length]. lia.
Qed.

Lemma seq_sim : forall E G e vs, Forall (fun v => closed 0 v = true) vs -> sim E G e (sq vs) ->
  length vs <= 256 ->
  exists es, seq e = Some es /\ Forall2 (sim E G) es vs.
Proof.
  intros E G e vs H S L. destruct (seq_aux_sim E G vs e (length e) H S) as (es & T & F).
  - rewrite <- (map_length fst e). change (map fst e) with (strip e). rewrite (proj1 S). apply sq_length.
  - exists es. split; [|exact F]. unfold seq. rewrite T, (f2_length F).
    apply Nat.leb_le in L. rewrite L. reflexivity.
Qed.

(** * Calls of macros without # and ## *)

Definition tag (h : hs) (ex : list (string * list ht)) (body : list tok) : list ht :=
  flat_map (fun t => match as_param ex t with Some a => hsadd h a | None => [(t, h)] end) body.

Definition is_hash (t : tok) : bool := match t with Op o => String.eqb o "#" || String.eqb o "##" | _ => false end.

Lemma hsadd_app : forall h a b, hsadd h (a ++ b) = hsadd h a ++ hsadd h b.
Proof. intros. apply map_app. Qed.

Lemma hsadd_rev : forall h a, hsadd h (rev a) = rev (hsadd h a).
Proof. intros. apply map_rev. Qed.

Lemma subst_tag : forall raw ex body out, existsb is_hash body = false ->
  exists o, subst raw ex body out = Some o /\ forall h, hsadd h (rev o) = hsadd h (rev out) ++ tag h ex body.
Proof.
  intros raw ex body. induction body as [|t body IH]; intros out H.
  - exists out. split; [reflexivity|]. intros. unfold tag. cbn. rewrite app_nil_r. reflexivity.
  - cbn [existsb] in H. apply orb_false_iff in H. destruct H as [H1 H2].
    assert (K : exists o, subst raw ex body (rev (or_tok (as_param ex t) t) ++ out) = Some o
                          /\ forall h, hsadd h (rev o) = hsadd h (rev out) ++ tag h ex (t :: body)).
    { destruct (IH (rev (or_tok (as_param ex t) t) ++ out) H2) as (o & A & B). exists o. split; [exact A|].
      intros h. rewrite B. rewrite rev_app_distr, rev_involutive, hsadd_app, <- app_assoc. f_equal.
      unfold tag. cbn [flat_map]. f_equal. unfold or_tok. destruct (as_param ex t); [reflexivity|].
      cbn. rewrite app_nil_r. reflexivity. }
    assert (N : match body with Op o :: _ => if String.eqb o "##" then raw else ex | _ => ex end = ex).
    { destruct body as [|[] ?]; try reflexivity. cbn [existsb is_hash] in H2.
      apply orb_false_iff in H2. destruct H2 as [H2 _]. apply orb_false_iff in H2. destruct H2 as [_ H2].
      rewrite H2. reflexivity. }
    destruct K as (o & A & B). exists o. split; [|exact B].
    destruct t; cbn [subst]; try (rewrite N; exact A).
    cbn [is_hash] in H1. apply orb_false_iff in H1. destruct H1 as [H3 H4]. rewrite H3, H4.
    exact A.
Qed.

Lemma run_fun : forall E n h hl rest1 ps va body args h1 rest2 raw ex P,
  mem n h = false -> lookup E n = Some (Fun ps va body) -> existsb is_hash body = false ->
  collect 0 [] rest1 = Some (args, h1, rest2) -> bind ps va args = Some raw ->
  Forall2 (Expands E) (map snd raw) ex ->
  (forall h', from n h1 h' -> Run E (tag h' (combine (map fst raw) ex) body ++ rest2) P) ->
  Run E ((Id n, h) :: (LP, hl) :: rest1) P.
Proof.
  intros E n h hl rest1 ps va body args h1 rest2 raw ex P M Lk N C B X K.
  destruct (subst_tag raw (combine (map fst raw) ex) body [] N) as (o & Sb & Q).
  eapply run_fun0; eauto. rewrite Q. cbn. apply K. apply from_inter.
Qed.

Lemma run_builtin : forall E n h hl rest1 b args h1 rest2 ex out P,
  mem n h = false -> lookup E n = Some (Builtin b) ->
  collect 0 [] rest1 = Some (args, h1, rest2) ->
  Forall2 (Expands E) args ex ->
  (forall h', builtin_text E b n h' ex = Some (out, n)) ->
  (forall h', from n h1 h' -> Run E (hsadd h' out ++ rest2) P) ->
  Run E ((Id n, h) :: (LP, hl) :: rest1) P.
Proof.
  intros E n h hl rest1 b args h1 rest2 ex out P M Lk C X T K.
  eapply run_builtin0; eauto. apply K. apply from_inter.
Qed.
