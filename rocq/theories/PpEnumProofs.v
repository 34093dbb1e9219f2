(** KL_REFLECT_ENUM *)
From Coq Require Import String List Arith Bool Lia.
From Verif Require Import PpModel PpSpec PpProofs PpMacroProofs PpLoopProofs PpLoop2Proofs.
Import ListNotations.
Local Open Scope list_scope.
Local Open Scope string_scope.

Lemma word : forall E n, ordinary E ->
  mem n written && negb (String.eqb n "__COUNTER__") && match assoc n kl_macros with None => true | _ => false end = true ->
  lookup E n = None.
Proof.
  intros E n [O _] H. apply andb_true_iff in H. destruct H as [H A]. apply andb_true_iff in H. destruct H as [W N].
  unfold lookup. destruct (assoc n kl_macros); [discriminate|]. apply O.
  - unfold mem in W. apply existsb_exists in W. destruct W as (x & I & Q). apply String.eqb_eq in Q. subst x. exact I.
  - intros ->. rewrite String.eqb_refl in N. discriminate.
Qed.

(** Tokens that stay. *)
Ltac keeps :=
  repeat (apply run_keep;
    [solve [exact I | right; left; eapply word; [eassumption | vm_compute; reflexivity]
           | right; left; assumption ] |]).

(** The end of a call whose text is done. *)
Ltac done_call Kn :=
  cbv beta;
  match goal with
  | |- Run ?E ?rest (fun r => ?P (@?X r)) =>
      refine (run_weak E rest _ _ _ (Kn (X []) _));
      [let r := fresh "r" in let H := fresh in intros r H; cbv beta in *;
       match goal with H : P ?a |- P ?c => replace c with a; [exact H |] end;
       repeat (rewrite <- ?app_assoc; cbn [app]); rewrite ?app_nil_r; reflexivity
      | cbv beta]
  end.

Ltac strips :=
  repeat first [rewrite strip_app | progress cbn [strip map fst app] | match goal with H : strip ?o = _ |- context [map fst ?o] => change (map fst o) with (strip o); rewrite H
     | H : sim _ _ ?o _ |- context [map fst ?o] => change (map fst o) with (strip o); rewrite (proj1 H)
     | H : strip ?o = _ |- context [strip ?o] => rewrite H
     | H : sim _ _ ?o _ |- context [strip ?o] => rewrite (proj1 H)
     | |- context [map fst (?a ++ ?b)] => rewrite (map_app fst a b) end ].

Ltac lexed :=
  repeat match goal with |- context [tokens ?s] => let v := eval vm_compute in (tokens s) in change (tokens s) with v end;
  repeat (rewrite <- ?app_assoc; cbn [app]); rewrite ?app_nil_r; reflexivity.

Lemma qval : forall E G y v, sim E G y v -> quiet E v -> Val E G y v.
Proof. intros E G y v S Q. apply val_dormant; [exact S | apply dormant_quiet, Q]. Qed.

Lemma nval : forall E G k h, Val E G [(Num k, h)] [Num k].
Proof. intros E G k h. apply val_dormant; [apply sim_cons; [exact I | apply sim_nil] | exact I]. Qed.

Lemma paren_shut2 : forall a b, shut a -> shut b -> shut (paren [a; b]).
Proof. intros a b A B. apply shut_paren. repeat constructor; assumption. Qed.

Definition F_pair := ("KL_REFLECT_ENUM_REFLECTION_PAIR2" :: F_extend ++ F_stringize)%list.

Lemma enumerator_parts : forall E e, enumerator_ok E e ->
  shut (constant e) /\ shut (name_text e) /\ quiet E (constant e) /\ quiet E (name_text e).
Proof. intros E [a | a b]; cbn; unfold phrase, argument, shut; intuition. Qed.

Lemma written_parts : forall E e, enumerator_ok E e -> shut (written_as e) /\ quiet E (written_as e).
Proof.
  intros E e H. destruct (enumerator_parts E e H) as (A & B & C & D). destruct e as [a | a b]; cbn in *; [auto|].
  split; [apply paren_shut2; assumption | apply quiet_paren; repeat constructor; assumption].
Qed.

Lemma pair_body : forall E name e, ordinary E -> shut name -> quiet E name -> enumerator_ok E e ->
  body2 E F_pair "KL_REFLECT_ENUM_REFLECTION_PAIR" name (written_as e) (pair_code name e).
Proof.
  intros E name e O Cn Qn Oe hb hl rest1 a c h1 rest2 P M C F (xn & Xn & Sn) (xc & Xc & Sc) Kn.
  destruct (enumerator_parts E e Oe) as (Ca & Cb & Qa & Qb). destruct (written_parts E e Oe) as (Cw & Qw).
  eapply run_fun with (ex := [xn; xc]); [exact M | reflexivity | reflexivity | exact C | reflexivity | repeat constructor; assumption |].
  body h' Fr. do 4 (rewrite <- ?app_assoc; cbn [app]).
  assert (F' : free F_pair h') by fr. assert (FG : free [] h') by reflexivity.
  seg xn yn Tn Ln. seg xc yc Tc Lc.
  assert (V : Val E [] ((Id "KL_TUPLE_EXTEND_BY_FIRST", h') :: (LP, h') :: yc ++ [(RP, h')]) (paren [constant e; name_text e])).
  { destruct e as [x | x y]; cbn [written_as constant name_text] in *.
    - eapply (val_extend E [] _ _ _ _ _ _ [] x); [fr | coll | fr | fr | reflexivity | apply qval; [exact Tc | exact Qw] | | | | ].
      + right. destruct Oe as [_ Hd]. auto.
      + repeat constructor; assumption.
      + repeat constructor; assumption.
      + cbn. destruct O as [_ [O _]]. lia.
    - eapply (val_extend E [] _ _ _ _ _ _ [y] x); [fr | coll | fr | fr | reflexivity | apply qval; [exact Tc | exact Qw] | | | | ].
      + left. reflexivity.
      + repeat constructor; assumption.
      + repeat constructor; assumption.
      + cbn. destruct O as [_ [O _]]. lia. }
  destruct V as (xv & Xv & Sv).
  destruct (qval _ _ _ _ Tn Qn) as (xm & Xm & Sm).
  eapply run_fun with (ex := [xm; xv]); [fr | reflexivity | reflexivity | coll | reflexivity | repeat constructor; assumption |].
  body h2 Fr2. do 4 (rewrite <- ?app_assoc; cbn [app]).
  assert (F2 : free (tl F_pair) h2) by fr. assert (FG2 : free [] h2) by reflexivity.
  seg xm ym Tm Lm.
  pose proof (paren_shut2 _ _ Ca Cb) as Cp.
  assert (Qp : quiet E (paren [constant e; name_text e])) by (apply quiet_paren; repeat constructor; assumption).
  assert (Cs : Forall shut [constant e; name_text e]) by (repeat constructor; assumption).
  assert (two : length [constant e; name_text e] <= p_tuple E) by (cbn; destruct O as [_ [O _]]; lia).
  seg xv yv Tv Lv.
  keeps. apply run_quiet; [rewrite (proj1 Tm); exact Qn|]. keeps.
  eapply (run_tuple_elem E []) with (i := 0) (vs := [constant e; name_text e]);
    [fr | coll | fr | fr | reflexivity | apply nval | apply qval; [exact Tv | exact Qp] | exact Cs | apply dormant_quiet, Qp | exact two | reflexivity |].
  intros o So. apply run_quiet; [rewrite (proj1 So); exact Qa|]. keeps.
  eapply (run_stringize E []) with (v := name_text e); [fr | coll | fr | fr | reflexivity | | exact Cb | exact Qb |].
  { eapply (run_tuple_elem E []) with (i := 1) (vs := [constant e; name_text e]);
      [fr | coll | fr | fr | reflexivity | apply nval | apply qval; [exact Tv | exact Qp] | exact Cs | apply dormant_quiet, Qp | exact two | reflexivity |].
    done_val. exact Qb. }
  intros k. keeps. done_call Kn. strips. unfold pair_code. reflexivity.
Qed.

Lemma level_1 : forall Fb h, free ["BOOST_PP_REPEAT_1"] h ->
  repeat_level h = Some "BOOST_PP_REPEAT_1" \/ (repeat_level h = Some "BOOST_PP_REPEAT_2" /\ mem "BOOST_PP_REPEAT_2" Fb = false).
Proof. intros Fb h F. left. apply repeat_level_1, F. Qed.

Definition F_pairs := (["KL_SEQ_FOR_EACH2"; "BOOST_PP_REPEAT_1"; "KL_REFLECT_ENUM_REFLECTION_PAIR"] ++ F_loop3 ++ F_pair)%list.

Lemma run_pairs : forall E name es h hl rest1 an av h1 rest2 P,
  ordinary E -> shut name -> quiet E name -> Forall (enumerator_ok E) es -> es <> [] -> length es <= 256 ->
  mem "KL_REFLECT_ENUM_REFLECTION_PAIRS" h = false -> collect 0 [] rest1 = Some ([an; av], h1, rest2) ->
  free F_pairs h1 -> Val E [] an name -> Val E [] av (sq (map written_as es)) ->
  (forall o, strip o = flat_map (pair_code name) es -> Run E rest2 (fun r => P (o ++ r)%list)) ->
  Run E ((Id "KL_REFLECT_ENUM_REFLECTION_PAIRS", h) :: (LP, hl) :: rest1) P.
Proof.
  intros E name es h hl rest1 an av h1 rest2 P O Cn Qn Oe NE Le M C F (xn & Xn & Sn) (xv & Xv & Sv) Kn.
  assert (Cv : Forall shut (map written_as es)).
  { apply Forall_map. revert Oe. apply Forall_impl. intros e Q. apply (proj1 (written_parts E e Q)). }
  assert (Qv : Forall (quiet E) (map written_as es)).
  { apply Forall_map. revert Oe. apply Forall_impl. intros e Q. apply (proj2 (written_parts E e Q)). }
  pose proof (shut_sq _ Cv) as Cs. pose proof (quiet_sq _ _ Qv) as Qs.
  eapply run_fun with (ex := [xn; xv]); [exact M | reflexivity | reflexivity | exact C | reflexivity | repeat constructor; assumption |].
  body h' Fr. do 4 (rewrite <- ?app_assoc; cbn [app]).
  assert (F' : free F_pairs h') by fr. assert (FG : free [] h') by reflexivity.
  seg xn yn Tn Ln. seg xv yv Tv Lv.
  eapply run_seq_for_each2 with (Fb := F_pair) (b := "KL_REFLECT_ENUM_REFLECTION_PAIR") (rs := ["BOOST_PP_REPEAT_1"])
      (w := name) (vs := map written_as es) (codes := map (pair_code name) es);
    [reflexivity | destruct O as [_ O]; lia | reflexivity | apply level_1 | reflexivity | reflexivity | reflexivity
    | fr | coll | fr | fr | fr | fr | apply qval; assumption | exact Cn | exact Qn | apply qval; assumption | | | exact Cv | exact Qv | | |].
  - apply val_dormant; [apply sim_cons; [right; fr | apply sim_nil] | cbn [dormant]; repeat split; right; split; exact I].
  - destruct es; [contradiction | discriminate].
  - rewrite map_length. exact Le.
  - clear -O Cn Qn Oe. induction Oe as [|e es A Oe IH]; constructor; [apply pair_body; assumption | exact IH].
  - intros o So. apply Kn. rewrite So. symmetry. apply flat_map_concat_map.
Qed.

Definition F_nsname := ("KL_REFLECT_ENUM_NSNAME" :: F_concat).

Lemma run_nsname : forall E name h hl rest1 an h1 rest2 P,
  ordinary E -> lookup E name = None -> lookup E ("kl_reflect_" ++ name) = None ->
  mem "KL_REFLECT_ENUM_NSNAME" h = false -> collect 0 [] rest1 = Some ([an], h1, rest2) ->
  free F_concat h1 -> Val E [] an [Id name] ->
  (forall k, Run E rest2 (fun r => P ((Id ("kl_reflect_" ++ name), k) :: r))) ->
  Run E ((Id "KL_REFLECT_ENUM_NSNAME", h) :: (LP, hl) :: rest1) P.
Proof.
  intros E name h hl rest1 an h1 rest2 P O Ln Lk M C F (xn & Xn & Sn) Kn.
  eapply run_fun with (ex := [xn]); [exact M | reflexivity | reflexivity | exact C | reflexivity | repeat constructor; assumption |].
  body h' Fr. do 4 (rewrite <- ?app_assoc; cbn [app]).
  assert (F' : free F_concat h') by fr. assert (FG : free [] h') by reflexivity.
  assert (Cn : shut [Id name]) by reflexivity.
  assert (Qn : quiet E [Id name]) by (apply quiet_cons; split; [exact Ln | apply quiet_nil]).
  seg xn yn Tn Lc.
  assert (Lw : lookup E "kl_reflect_" = None) by (eapply word; [exact O | vm_compute; reflexivity]).
  eapply (run_concat E []) with (x := "kl_reflect_") (t := Id name);
    [fr | coll | fr | fr | reflexivity | | exact Lw | apply qval; assumption | reflexivity | exact Qn | reflexivity |].
  - apply qval; [apply sim_cons; [left; exact Lw | apply sim_nil]|]. apply quiet_cons. split; [exact Lw | apply quiet_nil].
  - intros k. apply run_keep; [right; left; exact Lk|]. apply Kn.
Qed.

Definition F_enum := (["KL_REFLECT_ENUM_REFLECTION_PAIRS"; "KL_REFLECT_ENUM_NSNAME"] ++ F_concat ++ F_pairs)%list.

Lemma run_enum_seq : forall E name es h hl rest1 an av h1 rest2 P,
  ordinary E -> lookup E name = None -> lookup E ("kl_reflect_" ++ name) = None ->
  Forall (enumerator_ok E) es -> es <> [] -> length es <= 256 ->
  mem "KL_REFLECT_ENUM_SEQ" h = false -> collect 0 [] rest1 = Some ([an; av], h1, rest2) ->
  free F_enum h1 -> Val E [] an [Id name] -> Val E [] av (sq (map written_as es)) ->
  (forall o, strip o = enum_code name es -> Run E rest2 (fun r => P (o ++ r)%list)) ->
  Run E ((Id "KL_REFLECT_ENUM_SEQ", h) :: (LP, hl) :: rest1) P.
Proof.
  intros E name es h hl rest1 an av h1 rest2 P O Ln Lk Oe NE Le M C F (xn & Xn & Sn) (xv & Xv & Sv) Kn.
  assert (Cs : shut (sq (map written_as es))).
  { apply shut_sq. apply Forall_map. revert Oe. apply Forall_impl. intros e Q. apply (proj1 (written_parts E e Q)). }
  assert (Qs : quiet E (sq (map written_as es))).
  { apply quiet_sq. apply Forall_map. revert Oe. apply Forall_impl. intros e Q. apply (proj2 (written_parts E e Q)). }
  eapply run_fun with (ex := [xn; xv]); [exact M | reflexivity | reflexivity | exact C | reflexivity | repeat constructor; assumption |].
  assert (Cn : shut [Id name]) by reflexivity.
  assert (Qn : quiet E [Id name]) by (apply quiet_cons; split; [exact Ln | apply quiet_nil]).
  body h' Fr. do 10 (rewrite <- ?app_assoc; cbn [app]).
  assert (F' : free F_enum h') by fr. assert (FG : free [] h') by reflexivity.
  seg xn yn Tn Lc. seg xv yv Tv Lv.
  pose proof (qval _ _ _ _ Tn Qn) as Vn. pose proof (qval _ _ _ _ Tv Qs) as Vv.
  assert (Qy : quiet E (strip yn)) by (rewrite (proj1 Tn); exact Qn).
  keeps. eapply run_nsname; [exact O | exact Ln | exact Lk | fr | coll | fr | exact Vn |]. intros k1.
  keeps. apply run_quiet; [exact Qy|].
  keeps. eapply run_pairs with (name := [Id name]) (es := es);
    [exact O | exact Cn | exact Qn | exact Oe | exact NE | exact Le | fr | coll | fr | exact Vn | exact Vv |]. intros o So.
  keeps. apply run_quiet; [exact Qy|].
  keeps. eapply run_nsname; [exact O | exact Ln | exact Lk | fr | coll | fr | exact Vn |]. intros k2.
  keeps. apply run_quiet; [exact Qy|].
  keeps. eapply (run_stringize E []) with (v := [Id name]); [fr | coll | fr | fr | reflexivity | exact Vn | exact Cn | exact Qn |].
  intros k3. keeps.
  done_call Kn. strips. unfold enum_code. lexed.
Qed.

(** * From a call in the source *)

Lemma run_expands : forall E ts out, Run E (plain ts) (fun o => strip o = out) -> expands_to E ts out.
Proof.
  intros E ts out (o & (n & A) & B). exists n. intros m L. unfold preprocess. rewrite (A m L), B. reflexivity.
Qed.

Lemma sim_plain : forall E v, sim E [] (plain v) v.
Proof.
  intros E v. split; [unfold strip, plain; rewrite map_map; apply map_id|]. intros n h I _. reflexivity.
Qed.

Lemma plain_call : forall m args, plain (call m args) = (Id m, []) :: (LP, []) :: plain (listed args) ++ [(RP, [])].
Proof. intros m args. unfold call, plain. cbn [map]. rewrite map_app. reflexivity. Qed.

Lemma call_args : forall E m args P, args <> [] -> Forall shut args ->
  (forall es, Forall2 (sim E []) es args -> forall rest1, collect 0 [] rest1 = Some (es, [], []) ->
     Run E ((Id m, []) :: (LP, []) :: rest1) P) -> Run E (plain (call m args)) P.
Proof.
  intros E m args P NE Cl K. rewrite plain_call.
  destruct (collect_listed E [] args (plain (listed args)) [] [] NE Cl (sim_plain E _)) as (es & Ce & Fe & _).
  apply (K es Fe). exact Ce.
Qed.

Lemma done_all : forall E code, forall o : list (tok * list string), strip o = code -> Run E [] (fun r => strip (o ++ r)%list = code).
Proof. intros E code o So. apply run_nil. rewrite app_nil_r. exact So. Qed.

Lemma sim_list_quiet : forall E es vs, Forall2 (sim E []) es vs -> Forall (quiet E) vs -> Val E [] (commas es) (listed vs).
Proof. intros E es vs Fe Qu. apply qval; [apply sim_commas, Fe | apply quiet_listed, Qu]. Qed.

Lemma enum_expands : forall E name es, ordinary E -> lookup E name = None -> lookup E ("kl_reflect_" ++ name) = None ->
  Forall (enumerator_ok E) es -> es <> [] -> length es <= p_tuple E ->
  expands_to E (call "KL_REFLECT_ENUM" ([Id name] :: map written_as es)) (enum_code name es).
Proof.
  intros E name es O Ln Lk Oe NE Le. apply run_expands.
  assert (Cv : Forall shut (map written_as es)).
  { apply Forall_map. revert Oe. apply Forall_impl. intros e Q. apply (proj1 (written_parts E e Q)). }
  assert (Qv : Forall (quiet E) (map written_as es)).
  { apply Forall_map. revert Oe. apply Forall_impl. intros e Q. apply (proj2 (written_parts E e Q)). }
  assert (Cn : shut [Id name]) by reflexivity.
  assert (Qn : quiet E [Id name]) by (apply quiet_cons; split; [exact Ln | apply quiet_nil]).
  assert (NV : map written_as es <> []) by (destruct es; [contradiction | discriminate]).
  apply call_args; [discriminate | constructor; assumption |]. intros as_ Fa rest1 C.
  inversion Fa as [|an ? av ? Sn Fv]; subst.
  destruct (qval _ _ _ _ Sn Qn) as (xn & Xn & Un). destruct (sim_list_quiet _ _ _ Fv Qv) as (xv & Xv & Uv).
  eapply run_fun with (ex := [xn; xv]); [reflexivity | reflexivity | reflexivity | exact C | reflexivity | repeat constructor; assumption |].
  body h' Fr. do 10 (rewrite <- ?app_assoc; cbn [app]).
  assert (F0 : free ("KL_REFLECT_ENUM_SEQ" :: F_to_seq ++ F_enum)%list []) by reflexivity.
  assert (F' : free ("KL_REFLECT_ENUM_SEQ" :: F_to_seq ++ F_enum)%list h') by fr.
  assert (FG : free [] h') by reflexivity.
  seg xn yn Tn Lc.
  assert (Tv : sim E [] (hsadd h' xv) (listed (map written_as es))) by (apply sim_hsadd; assumption).
  generalize dependent (hsadd h' xv). intros yv Tv.
  destruct (collect_listed E [] _ yv h' [] NV Cv Tv) as (ws & Cw & Fw & _).
  assert (Lp : closed 0 (strip ((LP, h') :: yv ++ [(RP, h')])) = true).
  { cbn [strip map fst]. rewrite map_app. change (map fst yv) with (strip yv). rewrite (proj1 Tv). apply (shut_paren _ Cv). }
  assert (Cc : collect 0 [] (yn ++ (Comma, h') :: (Id "KL_VARIADIC_TO_SEQ", h') :: (LP, h') :: yv ++ [(RP, h'); (RP, h')])
      = Some ([yn; (Id "KL_VARIADIC_TO_SEQ", h') :: (LP, h') :: yv ++ [(RP, h')]], h', [])).
  { replace ((LP, h') :: yv ++ [(RP, h'); (RP, h')]) with (((LP, h') :: yv ++ [(RP, h')]) ++ [(RP, h')])%list
      by (cbn [app]; rewrite <- app_assoc; reflexivity).
    remember ((LP, h') :: yv ++ [(RP, h')]) as z. coll. }
  eapply run_enum_seq with (name := name) (es := es);
    [exact O | exact Ln | exact Lk | exact Oe | exact NE | destruct O as [_ O]; lia | fr | exact Cc | fr | apply qval; [exact Tn | exact Qn] | | apply done_all].
  eapply (val_to_seq E []); [fr | exact Cw | fr | fr | reflexivity | apply sim_list_quiet; assumption | exact NV | exact Cv | exact Qv | rewrite map_length; exact Le].
Qed.

Lemma enum_seq_expands : forall E name es, ordinary E -> lookup E name = None -> lookup E ("kl_reflect_" ++ name) = None ->
  Forall (enumerator_ok E) es -> es <> [] -> length es <= 256 ->
  expands_to E (call "KL_REFLECT_ENUM_SEQ" [[Id name]; in_sequence (map written_as es)]) (enum_code name es).
Proof.
  intros E name es O Ln Lk Oe NE Le. apply run_expands.
  assert (Cs : shut (sq (map written_as es))).
  { apply shut_sq. apply Forall_map. revert Oe. apply Forall_impl. intros e Q. apply (proj1 (written_parts E e Q)). }
  assert (Qs : quiet E (sq (map written_as es))).
  { apply quiet_sq. apply Forall_map. revert Oe. apply Forall_impl. intros e Q. apply (proj2 (written_parts E e Q)). }
  assert (Cn : shut [Id name]) by reflexivity.
  assert (Qn : quiet E [Id name]) by (apply quiet_cons; split; [exact Ln | apply quiet_nil]).
  apply call_args; [discriminate | repeat constructor; assumption |]. intros as_ Fa rest1 C.
  inversion Fa as [|an ? ? ? Sn Fv]; subst. inversion Fv as [|av ? ? ? Sv Fz]; subst. inversion Fz; subst.
  eapply run_enum_seq with (name := name) (es := es);
    [exact O | exact Ln | exact Lk | exact Oe | exact NE | exact Le | reflexivity | exact C | reflexivity
    | apply qval; assumption | apply qval; assumption | apply done_all].
Qed.
