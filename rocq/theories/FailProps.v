(** C172: resource requests in which something throws. *)
From Coq Require Import List Arith Bool.
From Verif Require Import Base FailModel FailSpec FailProofs FailMainProofs FailSamples.
Import ListNotations.

(** [put], and [patch]: answered [ok], the value is the valid one read and everybody is told; answered otherwise, nothing happened; left by an
    exception, nothing happened or the valid value is there and not everybody has been told.  [std::terminate] takes an assignment that may throw. *)
Theorem put_ends : forall V moved torn fails c read identical validate p sub (w : world V),
  ends w (put V moved torn fails c read identical validate p sub w) SOk
    (fun v => read (cell V w) = Fine v /\ identical v = true /\ exists a, validate v = Fine a) p sub (assign_nothrow c = false) /\
  (no_failure fails -> forall v, read (cell V w) = Fine v -> identical v = true -> (exists a, validate v = Fine a) ->
     fst (put V moved torn fails c read identical validate p sub w) = Answered SOk).
Proof. exact put_spec. Qed.
Print Assumptions put_ends.

Example put_ends_ex :
  put_7 ok_traits never start = (Answered SOk, mkworld nat 7 4 [([], 4); ([1], 4); ([1; 2], 4)] [] 3) /\
  fst (put_8 ok_traits never start) = Answered SConflict /\ cell nat (snd (put_8 ok_traits never start)) = 5 /\
  fst (put_8 ok_traits (at_step 1) start) = Thrown /\ cell nat (snd (put_8 ok_traits (at_step 1) start)) = 5.
Proof. repeat split. Qed.

(** Optionals that are emptied. *)
Theorem reset_ends : forall V moved torn fails c empty veto validate p sub (w : world V),
  ends w (reset V moved torn fails c empty veto validate p sub w) SNoContent
    (fun v => v = empty /\ (exists a, veto (cell V w) = Fine a) /\ exists a, validate v = Fine a) p sub (assign_nothrow c = false) /\
  (no_failure fails -> (exists a, veto (cell V w) = Fine a) -> (exists a, validate empty = Fine a) ->
     fst (reset V moved torn fails c empty veto validate p sub w) = Answered SNoContent).
Proof. exact reset_spec. Qed.
Print Assumptions reset_ends.

Example reset_ends_ex :
  clear never a_list = (Answered SNoContent, mkworld _ [] 4 [([], 4); ([4], 4)] [([4], 4)] 4) /\
  fst (clear (at_step 0) a_list) = Thrown /\ cell _ (snd (clear (at_step 0) a_list)) = [1; 2].
Proof. repeat split. Qed.

(** Children that are removed. *)
Theorem remove_ends : forall V moved torn fails c erase_nothrow shorter validate p (w : world V),
  ends w (remove_child V moved torn fails c erase_nothrow shorter validate p w) SNoContent
    (fun v => v = shorter /\ exists a, validate v = Fine a) (removelast p) true (assign_nothrow c = false) /\
  (no_failure fails -> (exists a, validate shorter = Fine a) ->
     fst (remove_child V moved torn fails c erase_nothrow shorter validate p w) = Answered SNoContent).
Proof. exact remove_spec. Qed.
Print Assumptions remove_ends.

Example remove_ends_ex :
  del_1 never a_list = (Answered SNoContent, mkworld _ [2] 4 [([], 4); ([4], 4)] [([4], 4)] 5) /\
  fst (del_1 (at_step 1) a_list) = Thrown /\ cell _ (snd (del_1 (at_step 1) a_list)) = [1; 2].
Proof. repeat split. Qed.

(** [post] never terminates the program. *)
Theorem post_ends : forall V fails E push pop (read : verdict E) check validate p (w : world V), (forall v e, pop (push v e) = v) ->
  ends w (post V fails push pop read check validate p w) SCreated
    (fun v => exists e, read = Fine e /\ v = push (cell V w) e /\ (exists a, check (cell V w) e = Fine a) /\ exists a, validate v = Fine a) p true False /\
  (no_failure fails -> forall e, read = Fine e -> (exists a, check (cell V w) e = Fine a) -> (exists a, validate (push (cell V w) e) = Fine a) ->
     fst (post V fails push pop read check validate p w) = Answered SCreated).
Proof. intros V fails E. exact (@post_spec V fails E). Qed.
Print Assumptions post_ends.

Example post_ends_ex :
  post_3 never a_list = (Answered SCreated, mkworld _ [1; 2; 3] 4 [([], 4); ([4], 4)] [([4], 4)] 5) /\
  fst (post_3 (at_step 1) a_list) = Thrown /\ cell _ (snd (post_3 (at_step 1) a_list)) = [1; 2] /\
  fst (post_3 (at_step 4) a_list) = Thrown /\ cell _ (snd (post_3 (at_step 4) a_list)) = [1; 2; 3].
Proof. repeat split. Qed.

(** Where all places on the way have been reported before, what is left by an exception has had no effect. *)
Theorem familiar_paths_safe : forall V (w : world V) r s good p sub deadly,
  familiar w p sub -> ends w r s good p sub deadly -> fst r = Thrown -> untouched w (snd r).
Proof. exact familiar_thrown. Qed.
Print Assumptions familiar_paths_safe.

Example familiar_paths_safe_ex :
  familiar seen [1; 2] false /\ ~ familiar start [1; 2] false /\ fst (put_7 ok_traits (at_step 1) seen) = Answered SOk /\
  fst (put_7 ok_traits (at_step 0) seen) = Thrown.
Proof.
  split; [split; [|discriminate]|split; [|split; reflexivity]].
  - intros [|[|[|k]]] H; cbn; auto.
  - intros [F _]. specialize (F 1 (le_S _ _ (le_n _))). cbn in F. destruct F as [F|[]]. discriminate.
Qed.

(** A request left by an exception may have changed the value, and then those who poll the node need not notice; and where an assignment may throw
    a refused value may end the program. *)
Theorem requests_all_or_nothing_refuted :
  ~ (forall V moved torn fails c read identical validate p sub (w : world V),
       fst (put V moved torn fails c read identical validate p sub w) = Thrown ->
       cell V (snd (put V moved torn fails c read identical validate p sub w)) = cell V w) /\
  ~ (forall V fails E push pop (read : verdict E) check validate p (w : world V),
       (forall v e, pop (push v e) = v) -> fst (post V fails push pop read check validate p w) = Thrown ->
       cell V (snd (post V fails push pop read check validate p w)) = cell V w \/
       changed_at (nodes V (snd (post V fails push pop read check validate p w))) (subtrees V (snd (post V fails push pop read check validate p w))) p >
       changed_at (nodes V w) (subtrees V w) p) /\
  ~ (forall V moved torn fails c read identical validate p sub (w : world V),
       fst (put V moved torn fails c read identical validate p sub w) <> Died).
Proof.
  split; [|split].
  - intros H. specialize (H nat (fun _ => 0) (fun _ => 99) (at_step 1) ok_traits (fun _ => Fine 7) (fun _ => true) (fun v => if v =? 7 then Fine tt else Refused) [1; 2] false start eq_refl).
    discriminate H.
  - intros H. specialize (H (list nat) (at_step 3) nat (fun l e => l ++ [e]) (@removelast nat) (Fine 3) (fun _ _ => Fine tt) (fun _ => Fine tt) [4] a_list (@removelast_last nat) eq_refl).
    destruct H as [H|H]; [discriminate H|]. vm_compute in H. inversion H.
  - intros H. apply (H nat (fun _ => 0) (fun _ => 99) (at_step 3) bad_traits (fun _ => Fine 8) (fun _ => true) (fun v => if v =? 5 then Fine tt else Refused) [1; 2] false start).
    reflexivity.
Qed.
Print Assumptions requests_all_or_nothing_refuted.

Example requests_all_or_nothing_refuted_ex :
  put_7 ok_traits (at_step 1) start = (Thrown, mkworld nat 7 4 [([], 4)] [] 2) /\
  changed_at [([], 4)] [] [1; 2] = changed_at (nodes nat start) (subtrees nat start) [1; 2] /\
  fst (put_8 bad_traits (at_step 3) start) = Died.
Proof. repeat split. Qed.
