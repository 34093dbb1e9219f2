(** Property C112: the text that describes an exception. *)
From Coq Require Import String List NArith ZArith Bool.
From Verif Require Import Base PathModel SerialMsgModel XinfoModel XinfoSpec DiagModel DiagSpec DiagProofs DiagSamples.
Import ListNotations.
Local Open Scope list_scope.

(** After any history without copies, or with copies and no removal, [diagnostic_info] is the line about the place and
    one line for each value set and not removed, for each tag the newest first. *)
Theorem diagnostic_lines : forall names (ops : list (op value)), well_formed 0 ops -> no_copies ops \/ only_adds ops ->
  Forall (fun a => match a with Set_ _ _ v | Poke _ _ v => plain v | _ => True end) ops ->
  exists w, run empty_world ops = Ok w /\
    forall pl o, o < length (ideal ops) -> exists first l ls,
      place_line pl first /\ Forall2 (fun p s => line_about (names (fst p)) (snd p) s) l ls /\
      (forall tag, of_tag tag l = nth o (ideal ops) nothing tag) /\
      diagnostic_info names w pl o = Ok (concat (map ended (first :: ls))).
Proof. exact lines_lemma. Qed.
Print Assumptions diagnostic_lines.

(** Readable values of two objects, in whatever state, with the same text are the same. *)
Theorem diagnostic_tells_values : forall has_operator names names' w w' pl pl' o o' l l' s,
  listing w o = Ok l -> listing w' o' = Ok l' ->
  Forall (readable has_operator names) l -> Forall (readable has_operator names') l' -> one_line pl -> one_line pl' ->
  diagnostic_info names w pl o = Ok s -> diagnostic_info names' w' pl' o' = Ok s ->
  map (fun p => (names (fst p), snd p)) l = map (fun p => (names' (fst p), snd p)) l'.
Proof. exact text_tells_lemma. Qed.
Print Assumptions diagnostic_tells_values.

(** Through [std::exception_ptr] an exception is described as through a reference to any polymorphic base. *)
Theorem described_through_pointer : forall names w e, t_info e <> None \/ t_what e <> None ->
  describe_pointer names w (Some e) = describe_exception names w None e.
Proof. exact pointer_lemma. Qed.
Print Assumptions described_through_pointer.

(** [throw_with_info] only adds the information: the description starts with that of the exception itself. *)
Theorem info_only_adds : forall names w wrapper e pl o, t_wrapped e = None -> t_info e = None ->
  exists own, describe_exception names w None e = Ok own /\
    describe_pointer names w (Some (with_info wrapper e (pl, o))) =
    match diagnostic_info names w pl o with Ok s => Ok (own ++ s) | Throws => Throws | UB => UB end.
Proof. exact wrapped_lemma. Qed.
Print Assumptions info_only_adds.

(** A value that leaves the stream bad hides all older ones, and one whose [operator<<] throws the whole description. *)
Theorem all_values_shown_refuted : forall names, exists w w' l v,
  run empty_world broken_first = Ok w /\ listing w 0 = Ok l /\ In (1, v) l /\ plain v /\
  (forall pl, exists first, place_line pl first /\ diagnostic_info names w pl 0 = Ok (ended first ++ names 0 ++ bytes " = ")) /\
  run empty_world raising = Ok w' /\ forall pl, diagnostic_info names w' pl 0 = Throws.
Proof.
  intros names. eexists. eexists. eexists. exists (Streamed (bytes "2") Fine).
  split; [vm_compute; reflexivity|]. split; [vm_compute; reflexivity|]. split; [cbn; auto|]. split; [reflexivity|]. split; [|split].
  - intros pl. exists (first_line pl). split; [apply first_line_ok|]. unfold diagnostic_info, first_line, ended, new_stream. cbn [listing]. destruct (p_file pl); rewrite !write_good;
      cbn -[bytes ScalarModel.int_text app]; rewrite ?write_good; cbn -[bytes ScalarModel.int_text app]; f_equal; rewrite <- ?app_assoc, ?app_nil_r; reflexivity.
  - vm_compute. reflexivity.
  - intros pl. unfold diagnostic_info. cbn -[bytes]. reflexivity.
Qed.
Print Assumptions all_values_shown_refuted.

(** With a new line in a value, the text of one value is that of two. *)
Theorem values_told_refuted : exists w w' l l', run empty_world forged = Ok w /\ run empty_world honest = Ok w' /\
  listing w 0 = Ok l /\ listing w' 0 = Ok l' /\ length l <> length l' /\
  forall pl, diagnostic_info tag_names w pl 0 = diagnostic_info tag_names w' pl 0.
Proof.
  do 4 eexists. split; [vm_compute; reflexivity|]. split; [vm_compute; reflexivity|]. split; [vm_compute; reflexivity|].
  split; [vm_compute; reflexivity|]. split; [discriminate|]. intros pl.
  erewrite diagnostic_text; [|vm_compute; reflexivity|repeat constructor]. symmetry.
  erewrite diagnostic_text; [|vm_compute; reflexivity|repeat constructor]. reflexivity.
Qed.
Print Assumptions values_told_refuted.

(** Through a reference to a class that is not polymorphic the information is not shown; an
    exception that is neither [std::exception] nor [exception_info] has no name through a pointer. *)
Theorem described_everywhere_refuted : forall names w pl o, exists e n s,
  describe_exception names w (Some n) (with_info (bytes "wrapper") e (pl, o)) = Ok s /\
  s = ended (bytes "dynamic exception type: " ++ n) /\ t_name e = n /\
  describe_exception names w None e = Ok s /\ describe_pointer names w (Some e) <> Ok s.
Proof.
  intros. exists unknown_thing, (bytes "thing"). eexists. split; [reflexivity|]. repeat split. discriminate.
Qed.
Print Assumptions described_everywhere_refuted.

Example attached_text : exists w, run empty_world attached = Ok w /\
  describe_pointer tag_names w (Some (with_info (bytes "W") runtime_error (somewhere, 0))) = Ok (concat (map ended
    [bytes "dynamic exception type: std::runtime_error"; bytes "what: boom";
     bytes "main.cpp(42): throw_with_info in function f()";
     bytes "blob = [00 FF 1A]"; bytes "file_name = b.txt"; bytes "file_name = a.txt"])).
Proof. eexists. split; vm_compute; reflexivity. Qed.

Example attached_reachable : well_formed 0 attached /\ no_copies attached /\
  Forall (fun a => match a with Set_ _ _ v | Poke _ _ v => plain v | _ => True end) attached /\
  exists w l, run empty_world attached = Ok w /\ listing w 0 = Ok l /\
    Forall (readable (fun n => negb (Nat.eqb (length n) 4)) tag_names) l /\ one_line somewhere.
Proof.
  split; [cbn; repeat split; auto|]. split; [repeat constructor|]. split; [repeat constructor|].
  eexists. eexists. split; [vm_compute; reflexivity|]. split; [vm_compute; reflexivity|].
  split; [|split; cbn; intuition discriminate]. repeat constructor; cbn; try (intuition discriminate).
Qed.
