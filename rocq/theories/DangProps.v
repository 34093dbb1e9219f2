(** C175: views and temporaries. *)
From Coq Require Import List Arith Bool.
From Verif Require Import Base DangModel DangSpec DangProofs DangMainProofs DangSamples.
Import ListNotations.

(** Programs in which views that are kept refer to variables only never touch an object that is gone, however they are nested; printing is always safe. *)
Theorem views_of_variables_safe : forall ss, compiles ss = true -> Forall careful ss -> exists env h, run_all ss = Ok (env, h).
Proof. exact careful_runs. Qed.
Print Assumptions views_of_variables_safe.

Example tidy_safe : compiles tidy = true /\ Forall careful tidy.
Proof.
  split; [reflexivity|]. unfold tidy. do 3 (constructor; [repeat constructor|]).
  constructor; [apply c_for; [apply o_zip | repeat constructor]|].
  - intros e [<-|[<-|[<-|[]]]]; [left | left | right]; repeat constructor.
  - constructor; [apply c_for; [apply o_member | constructor] | constructor].
Qed.

(** A loop is undefined exactly if it is not over a part of a variable, a new object or a member of one, or a view of variables. *)
Theorem loops_exact : forall ss e, compiles (ss ++ [SFor e []]) = true -> Forall careful ss ->
  (run_all (ss ++ [SFor e []]) = UB <-> ~ loopable e).
Proof. exact loop_exact. Qed.
Print Assumptions loops_exact.

Example loops : run_all [SFor EMake []] <> UB /\ run_all [SFor (EMoved EMake) []] = UB /\ run_all [SFor (EItems EHolder) []] <> UB /\
  run_all [SFor (ECall EHolder) []] = UB /\ run_all [SFor (EItems (EMoved EHolder)) []] = UB.
Proof. repeat split; discriminate. Qed.

(** The use of a variable is undefined exactly if what it was made from refers to a temporary. *)
Theorem variables_exact : forall ss e use, use = SPrint (EVar (declares ss)) \/ use = SFor (EVar (declares ss)) [] ->
  compiles (ss ++ [SAuto e; use]) = true -> Forall careful ss -> (run_all (ss ++ [SAuto e; use]) = UB <-> ~ kept e).
Proof. exact declared_exact. Qed.
Print Assumptions variables_exact.

Example joined_undefined : compiles joined = true /\ run_all joined = UB /\
  compiles [SAuto EMake; SAuto (ERange (EVar 0)); SAuto (EJoin (EVar 1)); SPrint (EVar 2)] = true /\
  run_all [SAuto EMake; SAuto (ERange (EVar 0)); SAuto (EJoin (EVar 1)); SPrint (EVar 2)] <> UB.
Proof. repeat split. discriminate. Qed.

(** The assertion in zipped suffices where no function returns a reference to a part of a temporary. *)
Theorem zip_assertion_suffices : forall ss es, compiles (ss ++ [SFor (EZip es) []]) = true -> Forall careful ss -> direct (EZip es) ->
  exists env h, run_all (ss ++ [SFor (EZip es) []]) = Ok (env, h).
Proof. exact zip_loop. Qed.
Print Assumptions zip_assertion_suffices.

Example zip_rejects : compiles rejected = false /\ run_all rejected = UB /\
  compiles [SAuto EMake; SFor (EZip [EVar 0; EIota]) []] = true.
Proof. repeat split. Qed.

(** Not everything that compiles is safe: neither with zipped, nor with range, nor with stream_join. *)
Theorem views_refuted : (compiles hidden = true /\ run_all hidden = UB) /\ (compiles ranged = true /\ run_all ranged = UB) /\
  (compiles joined = true /\ run_all joined = UB).
Proof. repeat split. Qed.
Print Assumptions views_refuted.
