(** C58, C59: values attached to exceptions. *)
From Coq Require Import List NArith Arith Bool.
From Verif Require Import Base XinfoModel XinfoSpec XinfoProofs XinfoShareProofs.
Import ListNotations.

(** C58: any number of objects, none copied: a stack of values per tag. *)
Theorem exception_info_stack_per_tag : forall (V : Type) (ops : list (op V)),
  well_formed 0 ops -> no_copies ops ->
  exists w, run empty_world ops = Ok w /\
    forall o tag, o < length (ideal ops) -> get w o tag = Ok (answer (ideal ops) o tag).
Proof. exact stack_lemma. Qed.
Print Assumptions exception_info_stack_per_tag.

(** C59: copies are independent as long as values are only added. *)
Theorem exception_info_copies_independent_partial : forall (V : Type) (ops : list (op V)),
  well_formed 0 ops -> only_adds ops ->
  exists w, run empty_world ops = Ok w /\
    forall o tag, o < length (ideal ops) -> get w o tag = Ok (answer (ideal ops) o tag).
Proof. exact copies_lemma. Qed.
Print Assumptions exception_info_copies_independent_partial.

(** C59: removing an object's newest value never shows in another object. *)
Theorem exception_info_unset_newest_partial : forall (V : Type) (ops : list (op V)) w o tag v rest,
  well_formed 0 ops -> run empty_world ops = Ok w -> listing w o = Ok ((tag, v) :: rest) ->
  exists w', unset w o tag = Ok w' /\ listing w' o = Ok rest /\
    forall o' t, o' <> o -> get w' o' t = get w o' t.
Proof. exact newest_lemma. Qed.
Print Assumptions exception_info_unset_newest_partial.

(** C59 fails: unset of an older value in a copy, and writing through get. *)
Theorem exception_info_copies_refuted :
  (exists (ops : list (op nat)) w o tag, well_formed 0 ops /\ o < length (ideal ops) /\
     Forall (fun a => match a with Poke _ _ _ => False | _ => True end) ops /\
     run empty_world ops = Ok w /\ get w o tag <> Ok (answer (ideal ops) o tag)) /\
  (exists (ops : list (op nat)) w o tag, well_formed 0 ops /\ o < length (ideal ops) /\
     Forall (fun a => match a with Unset _ _ => False | _ => True end) ops /\
     run empty_world ops = Ok w /\ get w o tag <> Ok (answer (ideal ops) o tag)).
Proof.
  split.
  - exists [Construct; Set_ 0 1 10; Set_ 0 2 20; Copy 0; Unset 1 1]. eexists. exists 0, 1.
    split; [cbn; repeat split; auto|]. split; [cbn; auto|]. split; [repeat constructor|]. split; [vm_compute; reflexivity|].
    intros H. vm_compute in H. discriminate H.
  - exists [Construct; Set_ 0 1 10; Copy 0; Poke 1 1 99]. eexists. exists 0, 1.
    split; [cbn; repeat split; auto|]. split; [cbn; auto|]. split; [repeat constructor|]. split; [vm_compute; reflexivity|].
    intros H. vm_compute in H. discriminate H.
Qed.
Print Assumptions exception_info_copies_refuted.

(** C59, exactly: every history over any number of copies behaves as objects that share entries. *)
Theorem exception_info_copies_exactly : forall (V : Type) (ops : list (op V)), well_formed 0 ops ->
  exists w, run empty_world ops = Ok w /\
    forall o, o < length (held (sharing ops)) ->
      listing w o = Ok (contents (sharing ops) o) /\ forall tag, get w o tag = Ok (shared_answer (sharing ops) o tag).
Proof. intros V. exact sharing_lemma. Qed.
Print Assumptions exception_info_copies_exactly.
(** 2 is unhooked from 3, so it goes from the copy that holds 3 too, and not from the copy made before 3 was set. *)
Example ex_sharing :
  let s := sharing [Construct; Set_ 0 1 10; Set_ 0 2 20; Copy 0; Set_ 0 3 30; Copy 0; Unset 2 2; Poke 1 1 99] in
  contents s 0 = [(3, 30); (1, 99)] /\ contents s 1 = [(2, 20); (1, 99)] /\ contents s 2 = [(3, 30); (1, 99)].
Proof. vm_compute. repeat split. Qed.

(** C67: no history follows a bad pointer or runs in circles. *)
Theorem exception_info_memory_safe : forall (V : Type) (ops : list (op V)),
  well_formed 0 ops -> exists w, run empty_world ops = Ok w.
Proof. exact total_lemma. Qed.
Print Assumptions exception_info_memory_safe.

Definition ex_ops : list (op nat) :=
  [Construct; Set_ 0 1 10; Set_ 0 2 20; Set_ 0 1 11; Unset 0 2; Unset 0 1; Poke 0 1 12].
Example ex_run : exists w, run empty_world ex_ops = Ok w /\ get w 0 1 = Ok (Some 12) /\ get w 0 2 = Ok None.
Proof. eexists. split; [vm_compute; reflexivity|]. split; vm_compute; reflexivity. Qed.
