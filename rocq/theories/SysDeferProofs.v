(** Programs with deferred actions that throw. *)
From Coq Require Import List NArith Arith Bool Lia.
From Verif Require Import Base SysModel SysSpec SysProofs.
Import ListNotations.

Lemma view_failed_lemma p memory file : shows p memory file -> mmap_answer p = map_failed -> memory map_failed = None ->
  match fst (file_view p) with
  | None => open_answer p = None \/ fstat_answer p = None
  | Some v => open_answer p <> None /\ fstat_answer p <> None /\
      match file with [] => get_bytes memory v = Ok [] | _ => get_bytes memory v = UB end
  end.
Proof.
  intros (Hn & _ & _) Hm Hu. unfold file_view. destruct (open_answer p) as [fd|]; [|left; reflexivity].
  destruct (fstat_answer p) as [n|]; [|right; reflexivity]. specialize (Hn n eq_refl). subst n.
  destruct file as [|b file]; cbn [length N.of_nat N.eqb].
  - cbn. repeat split; discriminate.
  - rewrite Hm. cbn [fst]. change (N.eqb map_failed 0) with false. cbn [fst]. split; [discriminate|]. split; [discriminate|].
    unfold get_bytes. cbn [fst snd]. replace (N.to_nat (N.pos (Pos.of_succ_nat (length file)))) with (S (length file)) by lia.
    cbn [read_bytes]. rewrite Hu. reflexivity.
Qed.

Section Loud.
Variable loud : nat -> bool.

Definition tagged (g : list (nat * bool)) : Prop := Forall (fun p => snd p = loud (fst p)) g.

(** How a scope with the guards [g] ends. *)
Definition fine (g : list (nat * bool)) (r : list event * exit) : Prop :=
  (snd r <> Terminated /\ pending g (fst r) /\ (forall n, In (Reg n) (fst r) -> loud n = false) /\
   (forall n, In n (map fst g) -> loud n = false)) \/
  (snd r = Terminated /\ exists t n rest, fst r = t ++ [Ran n] /\ loud n = true /\
     pending g (fst r ++ map Ran rest) /\ (In (Reg n) (fst r) \/ In n (map fst g))).

Lemma pending_left g : pending g (map Ran (map fst g)).
Proof.
  induction g as [|[n b] g IH]; cbn [map fst]; [constructor; constructor|].
  apply (pending_cons n b g [] (map Ran (map fst g))); [constructor|exact IH].
Qed.

Lemma unwind_fine g : tagged g ->
  (exists u, unwind g = (u, true) /\ pending g u /\ (forall n, ~ In (Reg n) u) /\ forall n, In n (map fst g) -> loud n = false) \/
  (exists u n rest, unwind g = (u ++ [Ran n], false) /\ loud n = true /\ In n (map fst g) /\
     (forall m, ~ In (Reg m) (u ++ [Ran n])) /\ pending g ((u ++ [Ran n]) ++ map Ran rest)).
Proof.
  induction 1 as [|[n b] g H F IH]; cbn [unwind].
  - left. exists []. split; [reflexivity|]. split; [repeat constructor|]. split; [intros n []|intros n []].
  - cbn in H. destruct b.
    + right. exists [], n, (map fst g). cbn [app map fst]. split; [reflexivity|]. split; [congruence|]. split; [left; reflexivity|].
      split; [intros m [X|[]]; discriminate|]. apply (pending_cons n true g [] (map Ran (map fst g))); [constructor|apply pending_left].
    + destruct IH as [(u & E & P & R & Q)|(u & m & rest & E & L & I & R & P)]; rewrite E.
      * left. exists (Ran n :: u). split; [reflexivity|]. split; [apply (pending_cons n false g [] u); [constructor|exact P]|].
        split; [intros m [X|X]; [discriminate|exact (R m X)]|]. intros m [<-|X]; [cbn; congruence|exact (Q m X)].
      * right. exists (Ran n :: u), m, rest. split; [reflexivity|]. split; [exact L|]. split; [right; exact I|].
        split; [intros k [X|X]; [discriminate|exact (R k X)]|].
        change (pending ((n, false) :: g) ([] ++ Ran n :: ((u ++ [Ran m]) ++ map Ran rest))). constructor; [constructor|exact P].
Qed.

Lemma leave_fine g t how : tagged g -> nested t -> (forall n, In (Reg n) t -> loud n = false) -> how <> Terminated ->
  fine g (leave g t how).
Proof.
  intros Hg Ht Hq Hh.
  assert (leave g t how = let '(u, ok) := unwind g in (t ++ u, if ok then how else Terminated)) as E by (destruct how; [reflexivity|reflexivity|reflexivity|contradiction]).
  rewrite E. destruct (unwind_fine g Hg) as [(u & -> & P & R & Q)|(u & n & rest & -> & L & I & R & P)].
  - left. cbn [fst snd]. split; [exact Hh|]. split; [now apply pending_app|]. split; [|exact Q].
    intros n X. apply in_app_iff in X. destruct X as [X|X]; [exact (Hq n X)|destruct (R n X)].
  - right. cbn [fst snd]. split; [reflexivity|]. exists (t ++ u), n, rest. split; [now rewrite app_assoc|]. split; [exact L|].
    split; [|right; exact I]. rewrite <- app_assoc. now apply pending_app.
Qed.

(** The end of the program inside: the guards of the scope are not run. *)
Lemma ended_fine g t : fine [] (t, Terminated) -> fine g (t, Terminated).
Proof.
  intros [(H & _)|(_ & u & n & rest & E & L & P & I)]; [exfalso; apply H; reflexivity|]. right. cbn [fst snd] in *. split; [reflexivity|].
  exists u, n, (rest ++ map fst g). split; [exact E|]. split; [exact L|].
  destruct I as [I|[]]. split; [|left; exact I]. rewrite map_app, app_assoc. apply pending_app; [|apply pending_left].
  inversion P; assumption.
Qed.

Lemma fine_after g t r : nested t -> (forall n, In (Reg n) t -> loud n = false) -> fine g r -> fine g (t ++ fst r, snd r).
Proof.
  intros Ht Hq [(H & P & Q & G)|(H & u & n & rest & E & L & P & I)]; [left|right]; cbn [fst snd].
  - split; [exact H|]. split; [now apply pending_app|]. split; [|exact G].
    intros n X. apply in_app_iff in X. destruct X as [X|X]; [exact (Hq n X)|exact (Q n X)].
  - split; [exact H|]. exists (t ++ u), n, rest. split; [rewrite E; now rewrite app_assoc|]. split; [exact L|].
    split; [rewrite <- app_assoc; now apply pending_app|]. destruct I as [I|I]; [left; apply in_app_iff; right; exact I|right; exact I].
Qed.

Lemma fine_nested t e : fine [] (t, e) -> e <> Terminated -> nested t /\ forall n, In (Reg n) t -> loud n = false.
Proof.
  intros [(_ & P & Q & _)|(H & _)] He; [|cbn in H; contradiction]. split; [inversion P; assumption|exact Q].
Qed.

Definition labelled_list (b : list stmt) : Prop := fold_right (fun s P => labelled loud s /\ P) True b.

Lemma exec_fine s : labelled loud s -> fine [] (exec s).
Proof.
  apply (stmt_both (fun s => labelled loud s -> fine [] (exec s))
    (fun b => labelled_list b -> forall g, tagged g -> fine g (scope g b))); clear s.
  - intros n _. left. cbn. split; [discriminate|]. split; [repeat constructor|]. split; [intros m [X|[]]; discriminate|intros m []].
  - intros n b H. cbn in H. subst b. cbn. destruct (loud n) eqn:L.
    + right. cbn. split; [reflexivity|]. exists [Reg n], n, []. split; [reflexivity|]. split; [exact L|].
      split; [|left; left; reflexivity]. constructor. apply (nested_pair n [] []); constructor.
    + left. cbn. split; [discriminate|]. split; [constructor; apply (nested_pair n [] []); constructor|].
      split; [|intros m []]. intros m [[= <-]|[X|[]]]; [exact L|discriminate].
  - intros b IH H. rewrite exec_block. apply IH; [exact H|constructor].
  - intros k b IH H. rewrite exec_repeat. specialize (IH H [] (Forall_nil _)).
    induction k as [|k IHk]; cbn [repeat_exit].
    + left. cbn. split; [discriminate|]. split; [repeat constructor|]. split; intros m [].
    + unfold seq_exit. destruct (scope [] b) as [t e] eqn:E. cbn [fst snd]. destruct e; try exact IH.
      destruct (fine_nested t Normal IH) as [N Q]; [discriminate|].
      destruct (repeat_exit k (fun _ => (t, Normal))) as [t' e'] eqn:E'.
      exact (fine_after [] t (t', e') N Q (IHk H)).
  - intros b h IHb IHh [Hb Hh]. rewrite exec_try. specialize (IHb Hb [] (Forall_nil _)). specialize (IHh Hh [] (Forall_nil _)).
    destruct (scope [] b) as [t e]. destruct e; try exact IHb.
    destruct (fine_nested t Throwing IHb) as [N Q]; [discriminate|]. destruct (scope [] h) as [t' e'].
    exact (fine_after [] t (t', e') N Q IHh).
  - intros _. left. cbn. split; [discriminate|]. split; [repeat constructor|]. split; intros m [].
  - intros _. left. cbn. split; [discriminate|]. split; [repeat constructor|]. split; intros m [].
  - intros _ g Hg. apply leave_fine; [exact Hg|constructor|intros n []|discriminate].
  - intros s b IHs IHb [Hs Hb] g Hg.
    assert (REST : (forall n th, s <> Defer n th) -> fine g (scope g (s :: b))).
    { intros H. assert (scope g (s :: b) = match exec s with
        | (t, Normal) => let '(t', e) := scope g b in (t ++ t', e) | (t, how) => leave g t how end) as ->.
      { destruct s; try reflexivity. exfalso. eapply H. reflexivity. }
      specialize (IHs Hs). specialize (IHb Hb g Hg). destruct (exec s) as [t e]. destruct e.
      - destruct (fine_nested t Normal IHs) as [N Q]; [discriminate|]. destruct (scope g b) as [t' e']. exact (fine_after g t (t', e') N Q IHb).
      - destruct (fine_nested t Throwing IHs) as [N Q]; [discriminate|]. apply leave_fine; [exact Hg|exact N|exact Q|discriminate].
      - destruct (fine_nested t Returning IHs) as [N Q]; [discriminate|]. apply leave_fine; [exact Hg|exact N|exact Q|discriminate].
      - apply ended_fine. exact IHs. }
    destruct s; try (apply REST; discriminate). cbn in Hs. subst throws. cbn [scope].
    assert (tagged ((n, loud n) :: g)) as Hg' by (constructor; [reflexivity|exact Hg]).
    specialize (IHb Hb _ Hg'). destruct (scope ((n, loud n) :: g) b) as [t e].
    assert (RG : forall u, pending ((n, loud n) :: g) u -> pending g (Reg n :: u)).
    { intros u P. destruct (pending_reg _ _ _ _ P) as (v & v' & -> & Hv & Hv').
      assert (nested (Reg n :: v ++ [Ran n])) as NP by (apply (nested_pair n v []); [assumption|constructor]).
      replace (Reg n :: v ++ Ran n :: v') with ((Reg n :: v ++ [Ran n]) ++ v') by (cbn; now rewrite <- app_assoc).
      now apply pending_app. }
    destruct IHb as [(H & P & Q & G)|(H & u & m & rest & E & L & P & I)]; [left|right]; cbn [fst snd map] in *.
    + split; [exact H|]. split; [apply RG; exact P|]. split; [|intros m X; apply G; right; exact X].
      intros m [[= <-]|X]; [apply G; left; reflexivity|exact (Q m X)].
    + split; [exact H|]. exists (Reg n :: u), m, rest. split; [rewrite E; reflexivity|]. split; [exact L|].
      split; [apply (RG _ P)|]. destruct I as [I|[<-|I]]; [left; right; exact I|left; left; reflexivity|right; exact I].
Qed.

Theorem defer_any s : labelled loud s ->
  (snd (exec s) = Terminated <-> exists n, loud n = true /\ In (Reg n) (fst (exec s))) /\
  (snd (exec s) <> Terminated -> nested (fst (exec s)) /\ forall n, runs n (fst (exec s)) = regs n (fst (exec s))) /\
  (snd (exec s) = Terminated -> exists t n rest, fst (exec s) = t ++ [Ran n] /\ loud n = true /\
     nested (fst (exec s) ++ map Ran rest)).
Proof.
  intros H. pose proof (exec_fine s H) as F. destruct F as [(E & P & Q & _)|(E & t & n & rest & Et & L & P & I)].
  - split; [|split].
    + split; [intros X; contradiction|]. intros (n & L & I). rewrite (Q n I) in L. discriminate.
    + intros _. assert (nested (fst (exec s))) as N by (inversion P; assumption). split; [exact N|]. apply nested_counts. exact N.
    + intros X. contradiction.
  - destruct I as [I|[]]. split; [|split].
    + split; [intros _; exists n; auto|intros _; exact E].
    + intros X. contradiction.
    + intros _. exists t, n, rest. split; [exact Et|]. split; [exact L|]. inversion P; assumption.
Qed.
End Loud.
