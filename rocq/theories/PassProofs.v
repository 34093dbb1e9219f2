(** Proofs about what the slots of a signal are given. *)
From Coq Require Import List Arith Bool Lia.
From Verif Require Import PassModel PassSpec.
Import ListNotations.

Section Proofs.
Context {V : Type}.
Local Notation cell := (cell V).
Local Notation store := (store V).
Local Notation slot := (slot V).
Local Notation signal := (signal V).
Local Notation log := (log V).
Local Notation env := (env V).
Local Notation arg := (arg V).
Local Notation read := (read V).
Local Notation cells := (cells V).
Local Notation copies := (copies V).
Local Notation bind_all := (bind_all V).

(** * Induction and the loops *)

Section Ind.
Variables (P : signal -> Prop) (Q : slot -> Prop).
Hypothesis HF : forall id ps f, Q (Function V id ps f).
Hypothesis HM : forall id ps f, Q (Member V id ps f).
Hypothesis HC : forall sg, P sg -> Q (Chain V sg).
Hypothesis HS : forall ps ss, Forall Q ss -> P (Signal V ps ss).
Fixpoint signal_rect_ (sg : signal) : P sg :=
  match sg with
  | Signal _ ps ss =>
      HS ps ss ((fix all (l : list slot) : Forall Q l :=
        match l with
        | [] => Forall_nil _
        | s :: l' =>
            Forall_cons s
              (match s with Function _ id qs f => HF id qs f | Member _ id qs f => HM id qs f | Chain _ g => HC g (signal_rect_ g) end)
              (all l')
        end) ss)
  end.
End Ind.

Definition each (ps : list param) (l : list nat) := fix each (ss : list slot) (st : store) : option (store * log) :=
  match ss with
  | [] => Some (st, [])
  | s :: ss' =>
      match call V ps s (zip name ps l) st with
      | None => None
      | Some (st, g) => match each ss' st with None => None | Some (st, g') => Some (st, g ++ g') end
      end
  end.
Lemma emit_eq : forall ps ss es st,
  emit V (Signal V ps ss) es st =
  if forallb can_call ps
  then match bind_all ps es st with None => None | Some (st, l) => each ps l ss st end
  else None.
Proof. reflexivity. Qed.
Definition deliver_each (l : list arg) := fix deliver_each (ss : list slot) (v : env) : env * log :=
  match ss with
  | [] => (v, [])
  | s :: ss' => let '(v, g) := deliver_slot V s l v in let '(v, g') := deliver_each ss' v in (v, g ++ g')
  end.
Lemma deliver_eq : forall ps ss l v,
  deliver V (Signal V ps ss) l v = let '(v, l) := settle_all V ps l v in deliver_each l ss v.
Proof. reflexivity. Qed.

Lemma each_cons : forall ps l s ss st,
  each ps l (s :: ss) st =
  match call V ps s (zip name ps l) st with
  | None => None
  | Some (st, g) => match each ps l ss st with None => None | Some (st, g') => Some (st, g ++ g') end
  end.
Proof. reflexivity. Qed.
Lemma deliver_each_cons : forall l s ss v,
  deliver_each l (s :: ss) v = let '(v, g) := deliver_slot V s l v in let '(v, g') := deliver_each l ss v in (v, g ++ g').
Proof. reflexivity. Qed.

(** * The store *)

Lemma length_put : forall (l : list cell) a c, length (put V l a c) = length l.
Proof. induction l as [|x l IH]; intros [|a] c; cbn; try reflexivity. now rewrite IH. Qed.
Lemma nth_put : forall (l : list cell) a b c d, nth b (put V l a c) d = if Nat.eqb b a && Nat.ltb a (length l) then c else nth b l d.
Proof.
  induction l as [|x l IH]; intros a b c d.
  - cbn. rewrite Bool.andb_false_r. destruct b; reflexivity.
  - destruct a as [|a]; destruct b as [|b]; cbn [put nth length]; try reflexivity.
    rewrite IH. reflexivity.
Qed.
Lemma read_write : forall (st : store) a b c, a < length (cells st) -> read (write V st a c) b = if Nat.eqb b a then c else read st b.
Proof.
  intros st a b c H. unfold PassModel.read, write. cbn [PassModel.cells]. rewrite nth_put.
  rewrite (proj2 (Nat.ltb_lt _ _) H), Bool.andb_true_r. reflexivity.
Qed.

(** * What compiles *)

Lemma bind_accepts : forall p e (st : store), PassModel.bind V p e st <> None <-> accepts p (category_of e).
Proof.
  intros [p b] e st. unfold PassModel.bind; cbn [p_pass p_copy]. split.
  - intros H. destruct p, e, b; cbn [category_of]; try (exfalso; apply H; reflexivity); try constructor.
  - intros H. inversion H; subst; destruct e; cbn [category_of] in *; try discriminate.
Qed.
Lemma bind_all_accepts : forall ps es (st : store), bind_all ps es st <> None <-> Forall2 accepts ps (map category_of es).
Proof.
  induction ps as [|p ps IH]; intros [|e es] st; cbn [PassModel.bind_all map].
  - split; intros _; [constructor | discriminate].
  - split; [intros H; exfalso; now apply H | intros H; inversion H].
  - split; [intros H; exfalso; now apply H | intros H; inversion H].
  - pose proof (bind_accepts p e st) as B. destruct (PassModel.bind V p e st) as [[st1 a]|].
    + specialize (IH es st1). destruct (PassModel.bind_all V ps es st1) as [[st2 l]|].
      * split; [intros _; constructor; [now apply B | now apply IH] | discriminate].
      * split; [intros H; exfalso; now apply H|]. intros H. inversion H; subst. exfalso. now apply (proj2 IH).
    + split; [intros H; exfalso; now apply H|]. intros H. inversion H; subst. exfalso. now apply (proj2 B).
Qed.
Lemma bind_all_length : forall ps es (st st' : store) l, bind_all ps es st = Some (st', l) -> length l = length ps.
Proof.
  induction ps as [|p ps IH]; intros [|e es] st st' l H; cbn [PassModel.bind_all] in H; try discriminate.
  - injection H as <- <-. reflexivity.
  - destruct (PassModel.bind V p e st) as [[st1 a]|]; [|discriminate].
    destruct (PassModel.bind_all V ps es st1) as [[st2 l']|] eqn:E; [|discriminate].
    injection H as <- <-. cbn. f_equal. eapply IH; eassumption.
Qed.
Lemma can_call_repeatable : forall ps, forallb can_call ps = true <-> Forall repeatable ps.
Proof.
  intros ps. rewrite forallb_forall, Forall_forall. unfold can_call, repeatable.
  split; intros H p J; specialize (H p J).
  - destruct (p_pass p); split; try discriminate; intros; try discriminate; assumption.
  - destruct H as [H1 H2]. destruct (p_pass p); try reflexivity; [now apply H2 | now destruct H1].
Qed.
Lemma names_accepted : forall ps l, Forall repeatable ps -> length l = length ps -> Forall2 accepts ps (map category_of (zip name ps l)).
Proof.
  induction ps as [|p ps IH]; intros [|a l] R E; try discriminate; cbn [zip map]; constructor.
  - inversion R as [|? ? [R1 R2] R']; subst. destruct p as [[] b]; cbn in *; unfold name; cbn; try constructor.
    + rewrite (R2 eq_refl). constructor.
    + now destruct R1.
  - inversion R; subst. apply IH; [assumption | now injection E].
Qed.
Lemma category_forward : forall ps l, length l = length ps -> map category_of (zip forward ps l) = map arrives ps.
Proof.
  induction ps as [|p ps IH]; intros [|a l] E; try discriminate; [reflexivity|].
  cbn [zip map]. f_equal; [|apply IH; now injection E]. unfold forward, arrives. destruct (p_pass p); reflexivity.
Qed.
Lemma bind_collapse : forall ps l (st : store), length l = length ps -> bind_all (map collapse ps) (zip forward ps l) st = Some (st, l).
Proof.
  induction ps as [|p ps IH]; intros [|a l] st E; try discriminate; [reflexivity|].
  cbn [map zip PassModel.bind_all].
  assert (B : PassModel.bind V (collapse p) (forward p a) st = Some (st, a)).
  { destruct p as [[] b]; reflexivity. }
  rewrite B, IH by now injection E. reflexivity.
Qed.
Lemma run_accepts : forall id qs f es (st : store), run V id qs f es st <> None <-> Forall2 accepts qs (map category_of es).
Proof.
  intros id qs f es st. rewrite <- (bind_all_accepts qs es st). unfold run.
  destruct (PassModel.bind_all V qs es st) as [[st1 l]|]; split; intros H; try discriminate; now destruct H.
Qed.

(** A call of a slot, without the layers that change nothing. *)
Definition target (ps : list param) (s : slot) (l : list nat) (st : store) : option (store * log) :=
  match s with
  | Function _ id qs f | Member _ id qs f => run V id qs f (zip forward ps l) st
  | Chain _ sg => emit V sg (zip forward ps l) st
  end.
Lemma call_eq : forall ps s es (st : store),
  call V ps s es st = match bind_all ps es st with None => None | Some (st, l) => target ps s l st end.
Proof.
  intros ps s es st. destruct s as [id qs f|id qs f|sg]; cbn [call];
    destruct (PassModel.bind_all V ps es st) as [[st1 l]|] eqn:E; try reflexivity;
    pose proof (bind_all_length _ _ _ _ _ E) as N; rewrite (bind_collapse ps l st1 N); reflexivity.
Qed.

Lemma emit_well_formed : forall sg es (st : store), emit V sg es st <> None <-> well_formed V sg (map category_of es).
Proof.
  intros sg. apply (signal_rect_
    (fun sg => forall es st, emit V sg es st <> None <-> well_formed V sg (map category_of es))
    (fun s => forall ps l st, Forall repeatable ps -> length l = length ps ->
       (call V ps s (zip name ps l) st <> None <-> fits V (map arrives ps) s))).
  - intros id qs f ps l st R E. rewrite call_eq.
    pose proof (proj2 (bind_all_accepts ps (zip name ps l) st) (names_accepted ps l R E)) as B.
    destruct (PassModel.bind_all V ps (zip name ps l) st) as [[st1 l1]|] eqn:Eb; [clear B | now destruct B].
    cbn [target]. rewrite run_accepts, (category_forward ps l1 (bind_all_length _ _ _ _ _ Eb)).
    split; [constructor; assumption | intros H; inversion H; subst; assumption].
  - intros id qs f ps l st R E. rewrite call_eq.
    pose proof (proj2 (bind_all_accepts ps (zip name ps l) st) (names_accepted ps l R E)) as B.
    destruct (PassModel.bind_all V ps (zip name ps l) st) as [[st1 l1]|] eqn:Eb; [clear B | now destruct B].
    cbn [target]. rewrite run_accepts, (category_forward ps l1 (bind_all_length _ _ _ _ _ Eb)).
    split; [constructor; assumption | intros H; inversion H; subst; assumption].
  - intros g IH ps l st R E. rewrite call_eq.
    pose proof (proj2 (bind_all_accepts ps (zip name ps l) st) (names_accepted ps l R E)) as B.
    destruct (PassModel.bind_all V ps (zip name ps l) st) as [[st1 l1]|] eqn:Eb; [clear B | now destruct B].
    cbn [target]. rewrite IH, (category_forward ps l1 (bind_all_length _ _ _ _ _ Eb)).
    split; [constructor; assumption | intros H; inversion H; subst; assumption].
  - intros ps ss F es st. rewrite emit_eq.
    pose proof (can_call_repeatable ps) as CR. destruct (forallb can_call ps).
    2:{ split; [intros H; now destruct H|]. intros H. inversion H; subst. assert (X : false = true) by now apply CR. discriminate X. }
    pose proof (proj1 CR eq_refl) as R. clear CR.
    pose proof (bind_all_accepts ps es st) as B.
    destruct (PassModel.bind_all V ps es st) as [[st1 l]|] eqn:Eb.
    2:{ split; [intros H; now destruct H|]. intros H. inversion H; subst. exfalso. now apply (proj2 B). }
    pose proof (bind_all_length _ _ _ _ _ Eb) as N.
    pose proof (proj1 B ltac:(discriminate)) as A.
    assert (X : each ps l ss st1 <> None <-> Forall (fits V (map arrives ps)) ss).
    { clear Eb B. revert st1. induction F as [|s ss Hs F IH]; intros st1; [|rewrite each_cons].
      - split; [constructor | discriminate].
      - specialize (Hs ps l st1 R N). destruct (call V ps s (zip name ps l) st1) as [[st2 g]|].
        + specialize (IH st2). destruct (each ps l ss st2) as [[st3 g']|].
          * split; [intros _; constructor; [now apply Hs | now apply IH] | discriminate].
          * split; [intros H; now destruct H|]. intros H. inversion H; subst. exfalso. now apply (proj2 IH).
        + split; [intros H; now destruct H|]. intros H. inversion H; subst. exfalso. now apply (proj2 Hs). }
    rewrite X. split; [constructor; assumption | intros H; inversion H; subst; assumption].
Qed.

(** * Copies *)

Lemma bind_all_copies : forall ps es (st st' : store) l, bind_all ps es st = Some (st', l) ->
  copies st' = copies st + total (zip copied ps (map category_of es)).
Proof.
  induction ps as [|p ps IH]; intros [|e es] st st' l H; cbn [PassModel.bind_all] in H; try discriminate.
  - injection H as <- <-. cbn. lia.
  - destruct (PassModel.bind V p e st) as [[st1 a]|] eqn:E1; [|discriminate].
    destruct (PassModel.bind_all V ps es st1) as [[st2 l']|] eqn:E; [|discriminate].
    injection H as <- <-. rewrite (IH _ _ _ _ E). cbn [map zip]. cbn [total fold_right].
    assert (X : copies st1 = copies st + copied p (category_of e)).
    { unfold PassModel.bind in E1. unfold copied. destruct (p_pass p), e; cbn [category_of];
        try discriminate; try (injection E1 as <- <-; cbn; lia).
      all: destruct (p_copy p); [injection E1 as <- <-; cbn; lia | discriminate]. }
    unfold total in *. lia.
Qed.
Lemma store_back_copies : forall ps l cs (st : store), copies (store_back V ps l cs st) = copies st.
Proof.
  induction ps as [|p ps IH]; intros [|a l] [|c cs] st; cbn [store_back]; try reflexivity.
  rewrite IH. destruct (p_pass p); reflexivity.
Qed.
Lemma run_copies : forall id qs f es (st st' : store) g, run V id qs f es st = Some (st', g) ->
  copies st' = copies st + total (zip copied qs (map category_of es)).
Proof.
  intros id qs f es st st' g H. unfold run in H. destruct (PassModel.bind_all V qs es st) as [[st1 l]|] eqn:E; [|discriminate].
  injection H as <- <-. rewrite store_back_copies. exact (bind_all_copies _ _ _ _ _ E).
Qed.
Lemma names_copied : forall ps l, length l = length ps -> total (zip copied ps (map category_of (zip name ps l))) = values ps.
Proof.
  induction ps as [|p ps IH]; intros [|a l] E; try discriminate; [reflexivity|].
  unfold values in *. cbn [zip map]. cbn [total fold_right]. unfold total in *. rewrite IH by now injection E.
  unfold copied, name. destruct (p_pass p); cbn; lia.
Qed.
Lemma emit_copies : forall sg es (st st' : store) g, emit V sg es st = Some (st', g) ->
  copies st' = copies st + cost V sg (map category_of es).
Proof.
  intros sg. apply (signal_rect_
    (fun sg => forall es st st' g, emit V sg es st = Some (st', g) -> copies st' = copies st + cost V sg (map category_of es))
    (fun s => forall ps l st st' g, length l = length ps -> call V ps s (zip name ps l) st = Some (st', g) ->
       copies st' = copies st + (values ps +
          match s with
          | Function _ _ qs _ | Member _ _ qs _ => total (zip copied qs (map arrives ps))
          | Chain _ sg' => cost V sg' (map arrives ps)
          end))).
  1,2: intros id qs f ps l st st' g E H.
  3: intros sg' IH ps l st st' g E H.
  1-3: rewrite call_eq in H; destruct (PassModel.bind_all V ps (zip name ps l) st) as [[st1 l1]|] eqn:Eb; [|discriminate];
    pose proof (bind_all_length _ _ _ _ _ Eb) as N; pose proof (bind_all_copies _ _ _ _ _ Eb) as K;
    rewrite (names_copied _ _ E) in K; cbn [target] in H.
  - rewrite (run_copies _ _ _ _ _ _ _ H), (category_forward _ _ N). lia.
  - rewrite (run_copies _ _ _ _ _ _ _ H), (category_forward _ _ N). lia.
  - rewrite (IH _ _ _ _ H), (category_forward _ _ N). lia.
  - intros ps ss F es st st' g H. rewrite emit_eq in H. destruct (forallb can_call ps); [|discriminate].
    destruct (PassModel.bind_all V ps es st) as [[st1 l]|] eqn:Eb; [|discriminate].
    pose proof (bind_all_length _ _ _ _ _ Eb) as N. cbn [cost].
    rewrite Nat.add_assoc, <- (bind_all_copies _ _ _ _ _ Eb). clear Eb.
    revert st1 st' g H. induction F as [|s ss Hs F IH]; intros st1 st' g H; [|rewrite each_cons in H].
    + injection H as <- <-. cbn. lia.
    + destruct (call V ps s (zip name ps l) st1) as [[st2 g2]|] eqn:Ec; [|discriminate].
      destruct (each ps l ss st2) as [[st3 g3]|] eqn:Ee; [|discriminate]. injection H as <- <-.
      rewrite (IH _ _ _ Ee), (Hs _ _ _ _ _ N Ec). cbn [map]. cbn [total fold_right]. unfold total. lia.
Qed.

End Proofs.
