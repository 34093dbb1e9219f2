(** Throwing with information: the claims C135, C136 and C137. *)
From Coq Require Import List Bool.
From Verif Require Import ThrowModel ThrowSpec ThrowProofs ThrowCastProofs ThrowSamples.
Import ListNotations.

(** ** C135: handlers *)

Theorem throw_with_info_compiles V I (fresh : place -> datum V I) (r : reference V I) x :
  (exists o, throw_with_info fresh r x = Some o) <->
  t_final (c_traits (r_type r)) = false /\ ~ has Info (r_type r) /\
  (forall u n d, part (r_type r) (mkplace (Some n) []) u d -> t_default (c_traits d) = true).
Proof. exact (thrown_compiles fresh r x). Qed.
Print Assumptions throw_with_info_compiles.

Theorem thrown_with_info_caught V I (fresh : place -> datum V I) (r : reference V I) x o t :
  library (r_type r) -> proper (r_type r) -> throw_with_info fresh r x = Some o ->
  (catches t (o_class o) = true <-> takes t (r_type r) \/ carrier (r_type r) t).
Proof. exact (thrown_caught fresh r x o t). Qed.
Print Assumptions thrown_with_info_caught.

Theorem first_handler_taken hs c : first_taking hs c (handler_for hs c).
Proof. exact (handler_for_first hs c). Qed.
Print Assumptions first_handler_taken.

Theorem thrown_with_info_same_handler V I (fresh : place -> datum V I) (r : reference V I) x o hs :
  library (r_type r) -> proper (r_type r) -> throw_with_info fresh r x = Some o ->
  (forall t, In (Some t) hs -> ~ carrier (r_type r) t) ->
  handler_for hs (o_class o) = handler_for hs (r_type r).
Proof. exact (thrown_same_handler fresh r x o hs). Qed.
Print Assumptions thrown_with_info_same_handler.

Theorem rethrown_whole_caught V I (fresh : place -> datum V I) (r : reference V I) x o :
  library (r_type r) -> proper (r_type r) -> sound r -> r_place r = whole -> throw_with_info fresh r x = Some o ->
  forall t, takes t (o_class (r_obj r)) -> takes t (o_class o).
Proof. exact (rethrown_whole fresh r x o). Qed.
Print Assumptions rethrown_whole_caught.

Example io_error_caught :
  library io_error /\ proper io_error /\ map (fun t => catches t (with_class io_error)) [User 0; User 1; Std; Info; Info_base; User 5]
    = [true; true; true; true; true; false].
Proof.
  split; [|split].
  - each_part; cbn; intros [E|(n & E)]; discriminate E.
  - each_part; cbn; intros E; try discriminate E; reflexivity.
  - vm_compute. reflexivity.
Qed.
Example info_handler_first :
  handler_for [Some Info; Some Std] (with_class io_error) = Some 0 /\ handler_for [Some Info; Some Std] io_error = Some 1 /\
  handler_for [Some (User 5); Some (User 0); None] (with_class io_error) = Some 1.
Proof. vm_compute. repeat split; reflexivity. Qed.
Example ambiguous_caught :
  catches Std both = false /\ catches Std (with_class both) = false /\ catches (User 5) (with_class both) = true /\
  catches (User 2) diamond = true /\ catches (User 2) (with_class diamond) = true /\ catches (User 2) (with_class job_error) = false.
Proof. vm_compute. repeat split; reflexivity. Qed.

Theorem rethrown_caught_refuted :
  ~ (forall (r : reference nat nat) x o t, library (r_type r) -> proper (r_type r) -> sound r -> open r ->
       throw_with_info zeros r x = Some o -> takes t (o_class (r_obj r)) -> takes t (o_class o)).
Proof.
  intros H. pose (r := mkref (object io_error) (mkplace None [User 0]) runtime).
  assert (P : part io_error (mkplace None [User 0]) true runtime).
  { apply in_all'. vm_compute. right. now left. }
  assert (X : takes (User 1) (with_class runtime)).
  { apply (H r 0 (mkobj (with_class runtime) (with_data zeros r 0))).
    - each_part; cbn; intros [E|(n & E)]; discriminate E.
    - each_part; cbn; intros E; try discriminate E; reflexivity.
    - exists true. exact P.
    - exists runtime. exact P.
    - vm_compute. reflexivity.
    - left. reflexivity. }
  apply catches_takes in X. vm_compute in X. discriminate X.
Qed.
Print Assumptions rethrown_caught_refuted.

(** ** C136: the information *)

Theorem info_found_by_reference V I (fresh : place -> datum V I) (r : reference V I) x o p S :
  library (r_type r) -> throw_with_info fresh r x = Some o -> sound (mkref o p S) -> polymorphic S = true ->
  (open (mkref o p S) -> get_exception_info (mkref o p S) = To at_info /\ o_data o at_info = Value x) /\
  (~ open (mkref o p S) -> get_exception_info (mkref o p S) = Null).
Proof. exact (info_found fresh r x o p S). Qed.
Print Assumptions info_found_by_reference.

Theorem info_found_in_handlers V I (fresh : place -> datum V I) (r : reference V I) x o t r' :
  library (r_type r) -> throw_with_info fresh r x = Some o -> bind o t = Some r' -> polymorphic (r_type r') = true ->
  exists p, get_exception_info r' = To p /\ o_data o p = Value x.
Proof. exact (handlers_reach_info fresh r x o t r'). Qed.
Print Assumptions info_found_in_handlers.

Theorem handlers_bind V I (o : obj V I) t :
  ((exists r, bind o t = Some r) <-> catches t (o_class o) = true) /\
  (forall r, bind o t = Some r -> sound r /\ open r /\ r_obj r = o /\ c_name (r_type r) = t).
Proof. exact (conj (bind_catches o t) (bind_open o t)). Qed.
Print Assumptions handlers_bind.

Theorem no_info_without V I (o : obj V I) p S :
  ~ has Info (o_class o) -> sound (mkref o p S) -> polymorphic S = true -> get_exception_info (mkref o p S) = Null.
Proof. exact (get_info_without o p S). Qed.
Print Assumptions no_info_without.

Example info_of_io_error :
  match bind (thrown io_error 5) Std with
  | Some r => get_exception_info r = To at_info /\ o_data (r_obj r) at_info = Value 5
  | None => False
  end.
Proof. vm_compute. split; reflexivity. Qed.
Example plain_has_none : get_exception_info (itself io_error) = Null.
Proof. vm_compute. reflexivity. Qed.
Example bare_does_not_compile : get_exception_info (itself bare) = Ill_formed.
Proof. vm_compute. reflexivity. Qed.

Theorem info_found_refuted :
  ~ (forall (r : reference nat nat) x o p S, library (r_type r) -> throw_with_info zeros r x = Some o ->
       sound (mkref o p S) -> polymorphic S = true -> exists q, get_exception_info (mkref o p S) = To q).
Proof.
  intros H. destruct (H (itself job_error) 5 (thrown job_error 5) (mkplace None [User 2; User 4]) code) as (q & E).
  - each_part; cbn; intros [E|(n & E)]; discriminate E.
  - vm_compute. reflexivity.
  - exists false. apply in_all'. vm_compute. right; right; right; right; now left.
  - reflexivity.
  - vm_compute in E. discriminate E.
Qed.
Print Assumptions info_found_refuted.

Theorem rethrown_info_kept_refuted :
  ~ (forall (r : reference nat nat) x y o o2 t r2, library (r_type r) -> throw_with_info zeros r x = Some o ->
       bind o t = Some r2 -> polymorphic (r_type r2) = true -> throw_with_info zeros r2 y = Some o2 ->
       exists p, o_data o2 p = Value x).
Proof.
  intros H. pose (o := thrown io_error 5).
  pose (r2 := mkref o (mkplace None [Std; User 0; User 1]) std_class).
  destruct (H (itself io_error) 5 6 o (mkobj (with_class std_class) (with_data zeros r2 6)) Std r2) as (p & E).
  - each_part; cbn; intros [E|(n & E)]; discriminate E.
  - vm_compute. reflexivity.
  - vm_compute. reflexivity.
  - reflexivity.
  - vm_compute. reflexivity.
  - cbn [o_data] in E. unfold with_data in E. destruct p as [[n|] path]; cbn [p_root p_path] in E; [discriminate E|].
    destruct (rev path) as [|n rest]; [discriminate E|].
    destruct (name_eqb n (c_name (r_type r2))).
    + cbn [r_obj r2 o thrown o_data] in E. unfold with_data in E.
      change (p_root (below (r_place r2) (rev rest))) with (@None name) in E. cbv iota in E.
      change (p_path (below (r_place r2) (rev rest))) with (rev rest ++ [Std; User 0; User 1]) in E.
      rewrite rev_app_distr in E. cbn in E. discriminate E.
    + destruct rest; discriminate E.
Qed.
Print Assumptions rethrown_info_kept_refuted.

Theorem described_by_reference V I (fresh : place -> datum V I) (r : reference V I) x o p S :
  library (r_type r) -> standard (r_type r) -> throw_with_info fresh r x = Some o ->
  sound (mkref o p S) -> open (mkref o p S) -> polymorphic S = true -> (has Std S -> exists q, only_public Std S q) ->
  exists w, describe (mkref o p S) = Some (mkdescription (Some (c_name (r_type r))) w (Some (Value x))) /\
    (w = true <-> has Std S \/ exists q, only_public Std (r_type r) q).
Proof. exact (describe_thrown fresh r x o p S). Qed.
Print Assumptions described_by_reference.

Theorem described_by_pointer V I (fresh : place -> datum V I) (r : reference V I) x o :
  library (r_type r) -> standard (r_type r) -> throw_with_info fresh r x = Some o ->
  exists w, describe_pointer o = Some (mkdescription (Some (c_name (r_type r))) w (Some (Value x))) /\
    (w = true <-> exists q, only_public Std (r_type r) q).
Proof. exact (describe_thrown_pointer fresh r x o). Qed.
Print Assumptions described_by_pointer.

Theorem others_described_by_pointer V I (o : obj V I) :
  ~ has Info (o_class o) -> library (o_class o) -> standard (o_class o) -> c_name (o_class o) <> Std ->
  (forall q, only_public Std (o_class o) q ->
     describe_pointer o = Some (mkdescription (Some (c_name (o_class o))) true None)) /\
  ((~ exists q, only_public Std (o_class o) q) -> describe_pointer o = Some (mkdescription None false None)).
Proof. exact (describe_pointer_without o). Qed.
Print Assumptions others_described_by_pointer.

(** Without virtual functions there is only the static type, and no way to the information. *)
Theorem described_without_virtual_functions V I (o : obj V I) p S :
  (forall q u d, part S q u d -> t_virtual_functions (c_traits d) = false) ->
  describe (mkref o p S) = Some (mkdescription (Some (c_name S)) false None) /\ get_exception_info (mkref o p S) = Ill_formed.
Proof. exact (describe_bare V I o p S). Qed.
Print Assumptions described_without_virtual_functions.

Example bare_described : describe (itself bare) = Some (mkdescription (Some (User 10)) false None).
Proof. apply described_without_virtual_functions. each_part. reflexivity. Qed.
Example descriptions :
  describe_pointer (thrown io_error 5) = Some (mkdescription (Some (User 1)) true (Some (Value 5))) /\
  describe_pointer (thrown both 5) = Some (mkdescription (Some (User 6)) false (Some (Value 5))) /\
  describe_pointer (object io_error) = Some (mkdescription (Some (User 1)) true None) /\
  describe (itself both) = None.
Proof. vm_compute. repeat split; reflexivity. Qed.

Theorem pointer_as_reference_refuted :
  ~ (forall (o : obj nat nat), ~ has Info (o_class o) -> polymorphic (o_class o) = true ->
       describe (mkref o whole (o_class o)) <> None -> describe_pointer o = describe (mkref o whole (o_class o))).
Proof.
  intros H. specialize (H (object code)). vm_compute in H.
  discriminate H; try discriminate. 2: reflexivity.
  intros (p & u & d & K & E). apply in_all' in K. vm_compute in K. destruct K as [K|[]]. injection K as <- <- <-. discriminate E.
Qed.
Print Assumptions pointer_as_reference_refuted.

(** ** C137: what the exception holds *)

Theorem contents_of_thrown V I (fresh : place -> datum V I) (r : reference V I) x o p u d :
  throw_with_info fresh r x = Some o -> part (r_type r) p u d ->
  part (o_class o) (lifted (r_type r) p) u d /\
  o_data o (lifted (r_type r) p) = match p_root p with None => o_data (r_obj r) (absolute r p) | Some _ => fresh p end.
Proof. exact (contents_copied fresh r x o p u d). Qed.
Print Assumptions contents_of_thrown.

Theorem contents_kept_without_virtual V I (fresh : place -> datum V I) (r : reference V I) x o :
  no_virtual (r_type r) -> throw_with_info fresh r x = Some o ->
  forall p u d, part (r_type r) p u d -> o_data o (lifted (r_type r) p) = o_data (r_obj r) (absolute r p).
Proof. exact (contents_kept fresh r x o). Qed.
Print Assumptions contents_kept_without_virtual.

Theorem contents_kept_refuted :
  ~ (forall (r : reference nat nat) x o p u d, throw_with_info zeros r x = Some o -> part (r_type r) p u d ->
       o_data o (lifted (r_type r) p) = o_data (r_obj r) (absolute r p)).
Proof.
  intros H. specialize (H (itself coded) 5 (thrown coded 5) (mkplace (Some (User 2)) []) true code).
  assert (X : Own 0 = Own 7 :> datum nat nat); [|discriminate X].
  apply H; [vm_compute; reflexivity|]. apply in_all'. vm_compute. right; right; right; now left.
Qed.
Print Assumptions contents_kept_refuted.

Example runtime_kept :
  no_virtual io_error /\ o_data (thrown io_error 5) (mkplace None [Std; User 0; User 1]) = Own 2.
Proof. split; [each_part; reflexivity | vm_compute; reflexivity]. Qed.
