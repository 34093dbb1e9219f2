(** The remaining macros of detail/macros.hpp: loops, names, literals. *)
From Coq Require Import String List Arith Bool Lia.
From Verif Require Import PpModel PpSpec PpProofs PpMacroProofs.
Import ListNotations.
Local Open Scope list_scope.
Local Open Scope string_scope.

(** * Facts about values *)

Lemma free_cons : forall F a l, free F [a] -> free F l -> free F (a :: l).
Proof. intros F a l A B. apply (free_app F [a] l A B). Qed.

Lemma free_nil : forall F, free F [].
Proof. intros F. unfold free. apply forallb_forall. reflexivity. Qed.

Lemma dormant_app : forall E a b, quiet E a -> dormant E b -> dormant E (a ++ b).
Proof.
  intros E a b. induction a as [|t a IH]; intros Q D; [exact D|]. apply quiet_cons in Q. destruct Q as [A Q].
  cbn [app]. destruct t; cbn [dormant]; auto.
Qed.

Lemma quiet_listed : forall E vs, Forall (quiet E) vs -> quiet E (listed vs).
Proof.
  intros E vs H. induction H as [|v vs A H IH]; [apply quiet_nil|]. destruct vs as [|w vs]; [exact A|].
  change (quiet E (v ++ Comma :: listed (w :: vs))). apply quiet_app. split; [exact A|].
  apply quiet_cons. split; [exact I | exact IH].
Qed.

Lemma quiet_paren : forall E vs, Forall (quiet E) vs -> quiet E (paren vs).
Proof.
  intros E vs H. unfold paren. apply quiet_cons. split; [exact I|]. apply quiet_app.
  split; [apply quiet_listed, H|]. apply quiet_cons. split; [exact I | apply quiet_nil].
Qed.

Lemma quiet_sq : forall E vs, Forall (quiet E) vs -> quiet E (sq vs).
Proof.
  intros E vs H. induction H as [|v vs A H IH]; [apply quiet_nil|]. unfold in_sequence. cbn [flat_map].
  apply quiet_app. split; [|exact IH]. apply quiet_cons. split; [exact I|]. apply quiet_app. split; [exact A|].
  apply quiet_cons. split; [exact I | apply quiet_nil].
Qed.

Lemma quiet_num : forall E n, quiet E [Num n].
Proof. intros E n k [A | []]. discriminate. Qed.

Lemma shut_paren : forall vs, Forall shut vs -> shut (paren vs).
Proof. exact closed_paren. Qed.

(** * Macros in arguments *)

Ltac done_val := let o := fresh in let So := fresh in intros o So; rewrite app_nil_r; apply val_dormant; [exact So | apply dormant_quiet].

Section Values.
Variables (E : penv) (G : list string).

Definition F_minus := ["KL_TUPLE_SIZE_MINUS_ONE"; "BOOST_PP_DEC"; "KL_TUPLE_SIZE"; "BOOST_PP_TUPLE_SIZE"].

Lemma val_minus_one : forall h hl rest1 a1 h1 vs,
  mem "KL_TUPLE_SIZE_MINUS_ONE" h = false -> collect 0 [] rest1 = Some ([a1], h1, []) ->
  free F_minus h1 -> free G h1 -> free F_minus G ->
  Val E G a1 (paren vs) -> vs <> [] -> Forall shut vs -> Forall (quiet E) vs -> length vs <= p_tuple E ->
  Val E G ((Id "KL_TUPLE_SIZE_MINUS_ONE", h) :: (LP, hl) :: rest1) [Num (length vs - 1)].
Proof.
  intros h hl rest1 a1 h1 vs M C F FG D (x1 & X1 & S1) NE Cl Qu Le.
  eapply run_fun with (ex := [x1]); [exact M | reflexivity | reflexivity | exact C | reflexivity | repeat constructor; assumption |].
  body h' Fr. rewrite <- ?app_assoc; cbn [app].
  pose proof (shut_paren _ Cl) as C1. seg x1 y1 T1 L1.
  assert (FG' : free G h') by fr.
  assert (F' : free ["BOOST_PP_DEC"; "KL_TUPLE_SIZE"; "BOOST_PP_TUPLE_SIZE"] h') by fr.
  pose proof (quiet_paren _ _ Qu) as Qp.
  assert (V : Val E G ((Id "KL_TUPLE_SIZE", h') :: (LP, h') :: y1 ++ [(RP, h')]) [Num (length vs)]).
  { eapply (run_tuple_size E G); [fr | coll | fr | fr | fr | apply val_dormant; [exact T1 | apply dormant_quiet, Qp]
                           | exact NE | exact Cl | apply dormant_quiet, Qp | exact Le |].
    done_val. apply quiet_num. }
  destruct V as (x2 & X2 & S2). apply sim_num in S2. destruct S2 as (hn & ->).
  eapply run_builtin with (ex := [[(Num (length vs), hn)]]) (b := B_dec);
    [fr | reflexivity | coll | repeat constructor; assumption | reflexivity |].
  intros h2 Fr2. apply run_quiet; [apply quiet_num|]. apply run_nil. cbn. apply sim_cons; [exact I | apply sim_nil].
Qed.

Definition F_to_tuple := ["KL_ARG_TO_TUPLE"; "BOOST_PP_REMOVE_PARENS"].

Lemma val_arg_to_tuple : forall h hl rest1 a1 h1 v vs,
  mem "KL_ARG_TO_TUPLE" h = false -> collect 0 [] rest1 = Some ([a1], h1, []) ->
  free F_to_tuple h1 -> free G h1 -> free F_to_tuple G ->
  Val E G a1 v -> (v = paren vs \/ vs = [v] /\ hd Comma v <> LP) ->
  vs <> [] -> Forall shut vs -> Forall (quiet E) vs ->
  Val E G ((Id "KL_ARG_TO_TUPLE", h) :: (LP, hl) :: rest1) (paren vs).
Proof.
  intros h hl rest1 a1 h1 v vs M C F FG D (x1 & X1 & S1) Sh NE Cl Qu.
  eapply run_fun with (ex := [x1]); [exact M | reflexivity | reflexivity | exact C | reflexivity | repeat constructor; assumption |].
  body h' Fr. rewrite <- ?app_assoc; cbn [app].
  assert (C1 : shut v) by (destruct Sh as [-> | [-> _]]; [apply shut_paren, Cl | inversion Cl; assumption]).
  assert (Qv : quiet E v) by (destruct Sh as [-> | [-> _]]; [apply quiet_paren, Qu | inversion Qu; assumption]).
  seg x1 y1 T1 L1.
  assert (FG' : free G h') by fr.
  assert (F' : free ["BOOST_PP_REMOVE_PARENS"] h') by fr.
  apply run_keep; [exact I|].
  destruct (val_dormant E G y1 v T1 (dormant_quiet _ _ Qv)) as (z1 & Z1 & U1).
  assert (exists out, (forall hh, builtin_text E B_remove_parens "BOOST_PP_REMOVE_PARENS" hh [z1] = Some (out, "BOOST_PP_REMOVE_PARENS"))
            /\ sim E G out (listed vs)) as (out & Bt & So).
  { destruct Sh as [-> | [-> Hd]].
    - destruct (tuple_sim E G z1 vs NE Cl U1) as (es & Te & Fe).
      exists (commas es). split; [|apply sim_commas, Fe]. intros hh.
      unfold paren in U1. destruct (sim_cons_inv _ _ _ _ _ U1) as (hp & w & -> & _).
      cbn [builtin_text]. rewrite Te, app_nil_r. reflexivity.
    - exists z1. split; [|exact U1]. intros hh. destruct z1 as [|[[] ?] ?]; try reflexivity.
      exfalso. apply Hd. rewrite <- (proj1 U1). reflexivity. }
  eapply run_builtin with (ex := [z1]) (b := B_remove_parens);
    [fr | reflexivity | coll | repeat constructor; assumption | exact Bt |].
  intros h2 Fr2.
  assert (So2 : sim E G (hsadd h2 out) (listed vs)) by (apply sim_hsadd; [fr | exact So]).
  apply run_quiet; [rewrite (proj1 So2); apply quiet_listed, Qu|].
  apply run_keep; [exact I|]. apply run_nil. unfold paren.
  apply sim_cons; [exact I|]. apply sim_app; [exact So2|]. apply sim_cons; [exact I | apply sim_nil].
Qed.

Definition F_to_tuple_va := ["KL_VARIADIC_TO_TUPLE"; "BOOST_PP_VARIADIC_TO_TUPLE"].

Lemma val_to_tuple : forall h hl rest1 args h1 vs,
  mem "KL_VARIADIC_TO_TUPLE" h = false -> collect 0 [] rest1 = Some (args, h1, []) ->
  free F_to_tuple_va h1 -> free G h1 -> free F_to_tuple_va G ->
  Val E G (commas args) (listed vs) -> vs <> [] -> Forall shut vs -> Forall (quiet E) vs -> length vs <= p_tuple E ->
  Val E G ((Id "KL_VARIADIC_TO_TUPLE", h) :: (LP, hl) :: rest1) (paren vs).
Proof.
  intros h hl rest1 args h1 vs M C F FG D (x1 & X1 & S1) NE Cl Qu Le.
  eapply run_fun with (ex := [x1]); [exact M | reflexivity | reflexivity | exact C | reflexivity | repeat constructor; assumption |].
  body h' Fr. rewrite <- ?app_assoc; cbn [app].
  assert (FG' : free G h') by fr. assert (F' : free ["BOOST_PP_VARIADIC_TO_TUPLE"] h') by fr.
  assert (S2 : sim E G (hsadd h' x1) (listed vs)) by (apply sim_hsadd; [fr | exact S1]).
  generalize dependent (hsadd h' x1). intros y1 S2.
  destruct (collect_listed E G vs y1 h' [] NE Cl S2) as (es & Ce & Fe & _).
  assert (X : Forall2 (Expands E) es es).
  { clear -Fe Qu. revert Qu. induction Fe as [|e v es vs S Fe IH]; intros Qu; constructor.
    - inversion Qu; subst. destruct (run_dormant E e (fun o => o = e)) as (o & A & ->); [|reflexivity | exact A].
      rewrite (proj1 S). apply dormant_quiet. assumption.
    - apply IH. inversion Qu; assumption. }
  eapply run_builtin with (ex := es) (b := B_to_tuple); [fr | reflexivity | exact Ce | exact X | |].
  - intros hh. cbn [builtin_text]. rewrite (f2_length Fe).
    replace (Nat.leb (length vs) (p_tuple E)) with true by (symmetry; apply Nat.leb_le; exact Le). reflexivity.
  - intros h2 Fr2. rewrite app_nil_r. apply val_dormant; [|apply dormant_quiet, quiet_paren, Qu].
    apply sim_hsadd; [fr|]. unfold untuple, paren. apply sim_cons; [exact I|]. apply sim_app; [apply sim_commas, Fe|].
    apply sim_cons; [exact I | apply sim_nil].
Qed.

Definition F_to_seq := ["KL_VARIADIC_TO_SEQ"; "BOOST_PP_VARIADIC_TO_SEQ"].

Lemma val_to_seq : forall h hl rest1 args h1 vs,
  mem "KL_VARIADIC_TO_SEQ" h = false -> collect 0 [] rest1 = Some (args, h1, []) ->
  free F_to_seq h1 -> free G h1 -> free F_to_seq G ->
  Val E G (commas args) (listed vs) -> vs <> [] -> Forall shut vs -> Forall (quiet E) vs -> length vs <= p_tuple E ->
  Val E G ((Id "KL_VARIADIC_TO_SEQ", h) :: (LP, hl) :: rest1) (sq vs).
Proof.
  intros h hl rest1 args h1 vs M C F FG D (x1 & X1 & S1) NE Cl Qu Le.
  eapply run_fun with (ex := [x1]); [exact M | reflexivity | reflexivity | exact C | reflexivity | repeat constructor; assumption |].
  body h' Fr. rewrite <- ?app_assoc; cbn [app].
  assert (FG' : free G h') by fr. assert (F' : free ["BOOST_PP_VARIADIC_TO_SEQ"] h') by fr.
  assert (S2 : sim E G (hsadd h' x1) (listed vs)) by (apply sim_hsadd; [fr | exact S1]).
  generalize dependent (hsadd h' x1). intros y1 S2.
  destruct (collect_listed E G vs y1 h' [] NE Cl S2) as (es & Ce & Fe & _).
  assert (X : Forall2 (Expands E) es es).
  { clear -Fe Qu. revert Qu. induction Fe as [|e v es vs S Fe IH]; intros Qu; constructor.
    - inversion Qu; subst. destruct (run_dormant E e (fun o => o = e)) as (o & A & ->); [|reflexivity | exact A].
      rewrite (proj1 S). apply dormant_quiet. assumption.
    - apply IH. inversion Qu; assumption. }
  eapply run_builtin with (ex := es) (b := B_to_seq); [fr | reflexivity | exact Ce | exact X | |].
  - intros hh. cbn [builtin_text]. rewrite (f2_length Fe).
    replace (Nat.leb (length vs) (p_tuple E)) with true by (symmetry; apply Nat.leb_le; exact Le). reflexivity.
  - intros h2 Fr2. rewrite app_nil_r. apply val_dormant; [|apply dormant_quiet, quiet_sq, Qu].
    apply sim_hsadd; [fr|]. clear -Fe. unfold unseq, in_sequence. induction Fe as [|e v es vs S Fe IH]; [apply sim_nil|].
    cbn [flat_map]. apply sim_app; [|exact IH]. apply sim_cons; [exact I|]. apply sim_app; [exact S|].
    apply sim_cons; [exact I | apply sim_nil].
Qed.

Definition F_extend :=
  ["KL_TUPLE_EXTEND_BY_FIRST"; "KL_TUPLE_EXTEND_BY_FIRST_IMPL"; "KL_ARG_TO_TUPLE"; "BOOST_PP_REMOVE_PARENS";
   "KL_IF"; "BOOST_PP_IF"; "KL_TUPLE_SIZE_MINUS_ONE"; "BOOST_PP_DEC"; "KL_TUPLE_SIZE"; "BOOST_PP_TUPLE_SIZE";
   "KL_TUPLE_PUSH_BACK"; "BOOST_PP_TUPLE_PUSH_BACK"; "KL_TUPLE_ELEM"; "BOOST_PP_TUPLE_ELEM"].

Lemma val_extend : forall h hl rest1 a1 h1 v vs a,
  mem "KL_TUPLE_EXTEND_BY_FIRST" h = false -> collect 0 [] rest1 = Some ([a1], h1, []) ->
  free F_extend h1 -> free G h1 -> free F_extend G ->
  Val E G a1 v -> (v = paren (a :: vs) \/ vs = [] /\ v = a /\ hd Comma v <> LP) ->
  Forall shut (a :: vs) -> Forall (quiet E) (a :: vs) -> length (a :: vs) < p_tuple E ->
  Val E G ((Id "KL_TUPLE_EXTEND_BY_FIRST", h) :: (LP, hl) :: rest1)
    (paren (match vs with [] => [a; a] | _ => a :: vs end)).
Proof.
  intros h hl rest1 a1 h1 v vs a M C F FG D (x1 & X1 & S1) Sh Cl Qu Le.
  eapply run_fun with (ex := [x1]); [exact M | reflexivity | reflexivity | exact C | reflexivity | repeat constructor; assumption |].
  body h' Fr. rewrite <- ?app_assoc; cbn [app].
  assert (C1 : shut v) by (destruct Sh as [-> | [-> [-> _]]]; [apply shut_paren, Cl | inversion Cl; assumption]).
  assert (Qv : quiet E v) by (destruct Sh as [-> | [-> [-> _]]]; [apply quiet_paren, Qu | inversion Qu; assumption]).
  seg x1 y1 T1 L1.
  assert (FG' : free G h') by fr.
  assert (F' : free (tl F_extend) h') by fr.
  assert (V : Val E G ((Id "KL_ARG_TO_TUPLE", h') :: (LP, h') :: y1 ++ [(RP, h')]) (paren (a :: vs))).
  { eapply (val_arg_to_tuple); [fr | coll | fr | fr | fr | apply val_dormant; [exact T1 | apply dormant_quiet, Qv]
                               | | discriminate | exact Cl | exact Qu].
    destruct Sh as [-> | [-> [-> Hd]]]; auto. }
  destruct V as (x2 & X2 & S2).
  pose proof (shut_paren _ Cl) as C2. pose proof (quiet_paren _ _ Qu) as Q2.
  eapply run_fun with (ex := [x2]); [fr | reflexivity | reflexivity | coll | reflexivity | repeat constructor; assumption |].
  body h2 Fr2. rewrite <- ?app_assoc; cbn [app].
  assert (FG2 : free G h2) by fr.
  assert (F2 : free (tl (tl F_extend)) h2) by fr.
  assert (S3 : sim E G (hsadd h2 x2) (paren (a :: vs))) by (apply sim_hsadd; [fr | exact S2]).
  generalize dependent (hsadd h2 x2). intros y2 S3.
  pose proof (sim_closed _ _ _ _ S3 C2) as L3.
  assert (V : Val E G y2 (paren (a :: vs))) by (apply val_dormant; [exact S3 | apply dormant_quiet, Q2]).
  eapply (run_if E G) with (k := length vs); [fr | do 4 (rewrite <- ?app_assoc; cbn [app]); coll | fr | fr | fr | | exact V | | | | | |].
  - replace (length vs) with (length (a :: vs) - 1) by (cbn; lia).
    eapply val_minus_one; [fr | coll | fr | fr | fr | exact V | discriminate | exact Cl | exact Qu | lia].
  - eapply (run_push_back E G); [fr | coll | fr | fr | fr | exact V | | discriminate | exact Cl | apply dormant_quiet, Q2 | | | exact Le |].
    + eapply (run_tuple_elem E G) with (i := 0) (v := a); [fr | coll | fr | fr | fr | | exact V | exact Cl | apply dormant_quiet, Q2 | lia | reflexivity |].
      * apply val_dormant; [apply sim_cons; [exact I | apply sim_nil] | exact I].
      * done_val. inversion Qu; assumption.
    + inversion Cl; assumption.
    + apply dormant_quiet. inversion Qu; assumption.
    + done_val. apply quiet_paren. apply Forall_app. split; [exact Qu|]. inversion Qu; auto.
  - exact C2.
  - apply shut_paren. apply Forall_app. split; [exact Cl|]. inversion Cl; auto.
  - apply dormant_quiet, Q2.
  - apply dormant_quiet, quiet_paren. apply Forall_app. split; [exact Qu|]. inversion Qu; auto.
  - intros o So. rewrite app_nil_r. apply val_dormant.
    + destruct vs; exact So.
    + apply dormant_quiet, quiet_paren. destruct vs; [|exact Qu]. inversion Qu; auto.
Qed.

(** * Literals and names *)

Definition F_stringize := ["KL_STRINGIZE"; "BOOST_PP_STRINGIZE"; "BOOST_PP_STRINGIZE_I"].

Lemma run_stringize : forall h hl rest1 a1 h1 rest2 v (P : list ht -> Prop),
  mem "KL_STRINGIZE" h = false -> collect 0 [] rest1 = Some ([a1], h1, rest2) ->
  free F_stringize h1 -> free G h1 -> free F_stringize G ->
  Val E G a1 v -> shut v -> quiet E v ->
  (forall k, Run E rest2 (fun r => P ((Strz v, k) :: r))) ->
  Run E ((Id "KL_STRINGIZE", h) :: (LP, hl) :: rest1) P.
Proof.
  intros h hl rest1 a1 h1 rest2 v P M C F FG D (x1 & X1 & S1) C1 Qv Kn.
  eapply run_fun with (ex := [x1]); [exact M | reflexivity | reflexivity | exact C | reflexivity | repeat constructor; assumption |].
  body h' Fr. rewrite <- ?app_assoc; cbn [app].
  assert (FG' : free G h') by fr. assert (F' : free (tl F_stringize) h') by fr.
  seg x1 y1 T1 L1.
  destruct (val_dormant E G y1 v T1 (dormant_quiet _ _ Qv)) as (x2 & X2 & S2).
  eapply run_fun with (ex := [x2]); [fr | reflexivity | reflexivity | coll | reflexivity | repeat constructor; assumption |].
  body h2 Fr2. rewrite <- ?app_assoc; cbn [app].
  assert (F2 : free (tl (tl F_stringize)) h2) by fr.
  assert (S3 : sim E G (hsadd h2 x2) v) by (apply sim_hsadd; [fr | exact S2]).
  generalize dependent (hsadd h2 x2). intros y2 S3. pose proof (sim_closed _ _ _ _ S3 C1) as L3.
  destruct (val_dormant E G y2 v S3 (dormant_quiet _ _ Qv)) as (x3 & X3 & _).
  eapply run_fun0 with (ex := [x3]); [fr | reflexivity | coll | reflexivity | repeat constructor; assumption | reflexivity |].
  cbn [rev app hsadd map fst snd]. apply run_keep; [exact I|]. change (commas [y2]) with y2. rewrite (proj1 S3). apply Kn.
Qed.

Definition F_concat := ["KL_CONCAT"; "BOOST_PP_CAT"; "BOOST_PP_CAT_I"].

Lemma run_concat : forall h hl rest1 a1 a2 h1 rest2 x t z P,
  mem "KL_CONCAT" h = false -> collect 0 [] rest1 = Some ([a1; a2], h1, rest2) ->
  free F_concat h1 -> free G h1 -> free F_concat G ->
  Val E G a1 [Id x] -> lookup E x = None -> Val E G a2 [t] -> shut [t] -> quiet E [t] ->
  glue_tok (Id x) t = Some (Id z) ->
  (forall k, Run E ((Id z, k) :: rest2) P) ->
  Run E ((Id "KL_CONCAT", h) :: (LP, hl) :: rest1) P.
Proof.
  intros h hl rest1 a1 a2 h1 rest2 x t z P M C F FG D (x1 & X1 & S1) Lx (x2 & X2 & S2) C2 Qt Gl Kn.
  assert (C1 : shut [Id x]) by reflexivity.
  assert (Qx : quiet E [Id x]) by (apply quiet_cons; split; [exact Lx | apply quiet_nil]).
  eapply run_fun with (ex := [x1; x2]); [exact M | reflexivity | reflexivity | exact C | reflexivity | repeat constructor; assumption |].
  body h' Fr. rewrite <- ?app_assoc; cbn [app]. rewrite <- ?app_assoc; cbn [app].
  assert (FG' : free G h') by fr. assert (F' : free (tl F_concat) h') by fr.
  seg x1 y1 T1 L1. seg x2 y2 T2 L2.
  destruct (val_dormant E G y1 _ T1 (dormant_quiet _ _ Qx)) as (x3 & X3 & S3).
  destruct (val_dormant E G y2 _ T2 (dormant_quiet _ _ Qt)) as (x4 & X4 & S4).
  eapply run_fun with (ex := [x3; x4]); [fr | reflexivity | reflexivity | coll | reflexivity | repeat constructor; assumption |].
  body h2 Fr2. rewrite <- ?app_assoc; cbn [app]. rewrite <- ?app_assoc; cbn [app].
  assert (F2 : free (tl (tl F_concat)) h2) by fr.
  assert (S5 : sim E G (hsadd h2 x3) [Id x]) by (apply sim_hsadd; [fr | exact S3]).
  assert (S6 : sim E G (hsadd h2 x4) [t]) by (apply sim_hsadd; [fr | exact S4]).
  generalize dependent (hsadd h2 x3). intros y3 S5. generalize dependent (hsadd h2 x4). intros y4 S6.
  pose proof (sim_closed _ _ _ _ S5 C1) as L5. pose proof (sim_closed _ _ _ _ S6 C2) as L6.
  destruct (val_dormant E G y3 _ S5 (dormant_quiet _ _ Qx)) as (x5 & X5 & _).
  destruct (val_dormant E G y4 _ S6 (dormant_quiet _ _ Qt)) as (x6 & X6 & _).
  eassert (Cc : collect 0 [] (y3 ++ (Comma, h2) :: y4 ++ (RP, h2) :: rest2) = Some ([y3; y4], h2, rest2)) by coll.
  destruct (sim_cons_inv _ _ _ _ _ S5) as (k5 & b5 & -> & B5). apply sim_nil_inv in B5. subst b5.
  destruct (sim_cons_inv _ _ _ _ _ S6) as (k6 & b6 & -> & B6). apply sim_nil_inv in B6. subst b6.
  eapply run_fun0 with (ex := [x5; x6]); [fr | reflexivity | exact Cc | reflexivity | repeat constructor; assumption | |].
  - cbn [subst map fst combine as_param assoc String.eqb Ascii.eqb Bool.eqb or_tok rev app glue]. rewrite Gl.
    cbn. reflexivity.
  - cbn [rev app hsadd map fst snd]. apply Kn.
Qed.
End Values.

(** * Loops *)

Lemma repeat_level_1 : forall h, free ["BOOST_PP_REPEAT_1"] h -> repeat_level h = Some "BOOST_PP_REPEAT_1".
Proof.
  intros h F. unfold repeat_level, repeat_levels. cbn [find].
  rewrite (free_mem _ _ "BOOST_PP_REPEAT_1" F eq_refl). reflexivity.
Qed.

Lemma repeat_level_2 : forall h, free ["BOOST_PP_REPEAT_2"] h ->
  repeat_level h = Some "BOOST_PP_REPEAT_1" \/ repeat_level h = Some "BOOST_PP_REPEAT_2".
Proof.
  intros h F. unfold repeat_level, repeat_levels. cbn [find].
  rewrite (free_mem _ _ "BOOST_PP_REPEAT_2" F eq_refl).
  destruct (negb (mem "BOOST_PP_REPEAT_1" h)); auto.
Qed.

Lemma free_inter : forall F a b, free F b -> free F (inter a b).
Proof.
  intros F a b H. unfold free in *. rewrite forallb_forall in *. intros n I. specialize (H n I).
  apply negb_true_iff in H. apply negb_true_iff. destruct (mem n (inter a b)) eqn:B; [|reflexivity].
  apply mem_inter in B. congruence.
Qed.

Lemma run_repeat : forall E G h hl rest1 a1 a2 a3 h1 rest2 k m d P,
  mem "BOOST_PP_REPEAT" h = false -> collect 0 [] rest1 = Some ([a1; a2; a3], h1, rest2) ->
  Val E G a1 [Num k] -> Val E G a2 m -> Val E G a3 d -> k <= 256 ->
  forall r, repeat_level (inter h h1) = Some r ->
  (forall h' m' d', from r h1 h' -> sim E G m' m -> sim E G d' d ->
     Run E (hsadd h' (flat_map (repeat_call m' d') (List.seq 0 k)) ++ rest2) P) ->
  Run E ((Id "BOOST_PP_REPEAT", h) :: (LP, hl) :: rest1) P.
Proof.
  intros E G h hl rest1 a1 a2 a3 h1 rest2 k m d P M C (x1 & X1 & S1) (x2 & X2 & S2) (x3 & X3 & S3) Lk r Rl Kn.
  apply sim_num in S1. destruct S1 as (hn & ->).
  eapply run_builtin0 with (ex := [[(Num k, hn)]; x2; x3]) (r := r);
    [exact M | reflexivity | exact C | repeat constructor; assumption | |].
  - cbn [builtin_text num]. rewrite Rl. apply Nat.leb_le in Lk. rewrite Lk. reflexivity.
  - apply Kn; [apply from_inter | exact S2 | exact S3].
Qed.

(** The calls that BOOST_PP_REPEAT writes, one after the other. *)
Lemma run_calls : forall E m' d' h' (piece : nat -> list tok) is rest2 P,
  (forall i, In i is -> forall rest P,
     (forall o, strip o = piece i -> Run E rest (fun r => P (o ++ r)%list)) ->
     Run E (hsadd h' (repeat_call m' d' i) ++ rest)%list P) ->
  (forall o, strip o = flat_map piece is -> Run E rest2 (fun r => P (o ++ r)%list)) ->
  Run E (hsadd h' (flat_map (repeat_call m' d') is) ++ rest2)%list P.
Proof.
  intros E m' d' h' piece is. induction is as [|i is IH]; intros rest2 P St Kn.
  - cbn. apply (Kn []). reflexivity.
  - cbn [flat_map]. rewrite hsadd_app, <- app_assoc. apply St; [left; reflexivity|].
    intros o So. apply IH; [intros j J; apply St; right; exact J|]. intros o2 So2.
    refine (run_weak _ _ _ _ _ (Kn (o ++ o2)%list _)).
    + intros r Q. rewrite app_assoc. exact Q.
    + rewrite strip_app, So, So2. reflexivity.
Qed.

Lemma flat_map_nth : forall {B} (l : list (list B)), flat_map (fun i => nth i l []) (List.seq 0 (length l)) = concat l.
Proof.
  intros B l. induction l as [|a l IH]; [reflexivity|]. cbn [length List.seq flat_map concat nth]. f_equal.
  rewrite <- IH, <- seq_shift, !flat_map_concat_map, map_map. reflexivity.
Qed.

Lemma forall2_nth : forall {A B} {R : A -> list B -> Prop} {l l'} (F : Forall2 R l l') {i v},
  nth_error l i = Some v -> R v (nth i l' []).
Proof.
  intros A B R l l' F. induction F as [|a c l l' H F IH]; intros [|i] v Nt; try discriminate; cbn in *.
  - inversion Nt; subst. exact H.
  - apply IH, Nt.
Qed.

Lemma sim_less : forall E G G' o v, sim E G o v -> forallb (fun n => mem n G) G' = true -> sim E G' o v.
Proof. intros E G G' o v [A B] S. split; [exact A|]. intros n h I L. apply (free_sub G); [apply (B n h I L) | exact S]. Qed.

Lemma val_quiet : forall E G G' a v, Val E G a v -> quiet E v -> Val E G' a v.
Proof. intros E G G' a v (o & X & S) Q. exists o. split; [exact X|]. apply sim_quiet; [apply (proj1 S) | exact Q]. Qed.

(** A macro that is called for each element. *)
Definition body1 (E : penv) (Fb : list string) (b : string) (v : list tok) (code : list tok) : Prop :=
  forall hb hl rest1 a h1 rest2 (P : list ht -> Prop),
    mem b hb = false -> collect 0 [] rest1 = Some ([a], h1, rest2) -> free Fb h1 -> Val E [] a v ->
    (forall o, strip o = code -> Run E rest2 (fun r => P (o ++ r)%list)) ->
    Run E ((Id b, hb) :: (LP, hl) :: rest1) P.

Definition body2 (E : penv) (Fb : list string) (b : string) (v w : list tok) (code : list tok) : Prop :=
  forall hb hl rest1 a c h1 rest2 (P : list ht -> Prop),
    mem b hb = false -> collect 0 [] rest1 = Some ([a; c], h1, rest2) -> free Fb h1 ->
    Val E [] a v -> Val E [] c w ->
    (forall o, strip o = code -> Run E rest2 (fun r => P (o ++ r)%list)) ->
    Run E ((Id b, hb) :: (LP, hl) :: rest1) P.

Definition F_elem := ["KL_TUPLE_ELEM"; "BOOST_PP_TUPLE_ELEM"].

Section Loops.
Variables (E : penv) (Fb : list string) (b : string) (ps : list string) (va : bool) (mb : list tok).
Hypothesis Lb : lookup E b = Some (Fun ps va mb).
Hypothesis Two : 3 <= p_tuple E.

Lemma dormant_name : forall v, quiet E v -> dormant E (v ++ [Id b; RP])%list.
Proof. intros v Q. apply dormant_app; [exact Q|]. cbn [dormant]. rewrite Lb. repeat split; auto. Qed.

Lemma named : forall G o, mem b G = true -> sim E G o [Id b] -> exists hb, o = [(Id b, hb)] /\ mem b hb = false.
Proof.
  intros G o Gb S1. destruct (sim_cons_inv _ _ _ _ _ S1) as (k & r & -> & B). apply sim_nil_inv in B. subst r.
  exists k. split; [reflexivity|]. destruct S1 as [_ Q]. apply (free_mem G k b); [|exact Gb].
  apply (Q b); [left; reflexivity | congruence].
Qed.

Lemma paren_two : forall a v, paren [a; [v]] = ((LP :: a ++ [Comma]) ++ [v; RP])%list.
Proof. intros a v. unfold paren. cbn [listed app]. rewrite <- !app_assoc. reflexivity. Qed.

Lemma paren_three : forall a c v, paren [a; c; [v]] = ((LP :: a ++ Comma :: c ++ [Comma]) ++ [v; RP])%list.
Proof. intros a c v. unfold paren. cbn [listed app]. rewrite <- !app_assoc. cbn [app]. rewrite <- !app_assoc. reflexivity. Qed.

Hypothesis be : free F_elem [b].

Lemma run_invoker : forall h hl rest1 az ai ad h1 rest2 i vs v code P,
  mem "KL_TUPLE_LOOP_INVOKER" h = false -> collect 0 [] rest1 = Some ([az; ai; ad], h1, rest2) ->
  free F_elem h1 -> free [b] h1 -> free Fb h1 ->
  mem "KL_TUPLE_LOOP_INVOKER" Fb = false -> mem "KL_TUPLE_LOOP_INVOKER" [b] = false ->
  Val E [] az [Num 1] -> Val E [b] ai [Num i] -> Val E [b] ad (paren [paren vs; [Id b]]) ->
  Forall shut vs -> Forall (quiet E) vs -> length vs <= p_tuple E -> nth_error vs i = Some v ->
  body1 E Fb b v code ->
  (forall o, strip o = code -> Run E rest2 (fun r => P (o ++ r)%list)) ->
  Run E ((Id "KL_TUPLE_LOOP_INVOKER", h) :: (LP, hl) :: rest1) P.
Proof.
  intros h hl rest1 az ai ad h1 rest2 i vs v code P M C F Fg FB NB Nb (xz & Xz & Sz) (xi & Xi & Si) (xd & Xd & Sd) Cl Qu Le Nt Bd Kn.
  eapply run_fun with (ex := [xz; xi; xd]); [exact M | reflexivity | reflexivity | exact C | reflexivity | repeat constructor; assumption |].
  body h' Fr. do 3 (rewrite <- ?app_assoc; cbn [app]).
  assert (F' : free F_elem h') by fr. assert (Fg' : free [b] h') by fr. assert (FB' : free Fb h') by fr.
  assert (Cd : shut (paren [paren vs; [Id b]])).
  { apply shut_paren. repeat constructor. apply shut_paren, Cl. }
  assert (Dd : dormant E (paren [paren vs; [Id b]])).
  { rewrite paren_two.
    apply (dormant_name (LP :: paren vs ++ [Comma])%list). apply quiet_cons. split; [exact I|]. apply quiet_app.
    split; [apply quiet_paren, Qu|]. apply quiet_cons. split; [exact I | apply quiet_nil]. }
  assert (Sdd : sim E [b] (hsadd h' xd) (paren [paren vs; [Id b]])) by (apply sim_hsadd; assumption).
  pose proof (sim_closed _ _ _ _ Sdd Cd) as Ld.
  assert (Ci : shut [Num i]) by reflexivity.
  assert (Sii : sim E [b] (hsadd h' xi) [Num i]) by (apply sim_hsadd; assumption).
  pose proof (sim_closed _ _ _ _ Sii Ci) as Li.
  generalize dependent (hsadd h' xd). intros yd Sdd Ld. generalize dependent (hsadd h' xi). intros yi Sii Li.
  eapply (run_tuple_elem E [b]) with (i := 1) (vs := [paren vs; [Id b]]);
    [fr | coll | fr | fr | fr | | apply val_dormant; [exact Sdd | exact Dd] | | exact Dd | cbn; lia | reflexivity |].
  { apply val_dormant; [apply sim_cons; [exact I | apply sim_nil] | exact I]. }
  { repeat constructor. apply shut_paren, Cl. }
  intros o So. destruct (named [b] o) as (hb & -> & Mb); [cbn; rewrite String.eqb_refl; reflexivity | exact So |]. cbn [app].
  assert (V0 : Val E [b] ((Id "KL_TUPLE_ELEM", h') :: (LP, h') :: (Num 0, h') :: (Comma, h') :: yd ++ [(RP, h')]) (paren vs)).
  { eapply (run_tuple_elem E [b]) with (i := 0) (vs := [paren vs; [Id b]]);
      [fr | coll | fr | fr | fr | | apply val_dormant; [exact Sdd | exact Dd] | | exact Dd | cbn; lia | reflexivity |].
    - apply val_dormant; [apply sim_cons; [exact I | apply sim_nil] | exact I].
    - repeat constructor. apply shut_paren, Cl.
    - done_val. apply quiet_paren, Qu. }
  assert (Qv : quiet E v).
  { apply nth_error_In in Nt. rewrite Forall_forall in Qu. apply Qu, Nt. }
  eapply Bd; [exact Mb | coll | fr | | exact Kn].
  apply (val_quiet E [b]); [|exact Qv].
  eapply (run_tuple_elem E [b]) with (i := i) (vs := vs);
    [fr | coll | fr | fr | fr | apply val_dormant; [exact Sii | exact I] | exact V0 | exact Cl
    | apply dormant_quiet, quiet_paren, Qu | exact Le | exact Nt |].
  done_val. exact Qv.
Qed.

Variable rs : list string.
Hypothesis level : forall h, free rs h ->
  repeat_level h = Some "BOOST_PP_REPEAT_1" \/ (repeat_level h = Some "BOOST_PP_REPEAT_2" /\ mem "BOOST_PP_REPEAT_2" Fb = false).

Definition F_loop := ["KL_TUPLE_SIZE"; "BOOST_PP_TUPLE_SIZE"; "BOOST_PP_REPEAT"; "KL_TUPLE_LOOP_INVOKER";
                      "KL_TUPLE_ELEM"; "BOOST_PP_TUPLE_ELEM"].

Hypothesis bl : free (["KL_TUPLE_FOR_EACH"; "BOOST_PP_REPEAT_1"; "BOOST_PP_REPEAT_2"] ++ F_loop)%list [b].
Hypothesis Bl : free ["KL_TUPLE_FOR_EACH"; "KL_TUPLE_LOOP_INVOKER"; "BOOST_PP_REPEAT_1"] Fb.
Hypothesis Rl : free ["KL_TUPLE_FOR_EACH"] rs.

Lemma run_for_each : forall h hl rest1 at_ ab h1 rest2 vs codes P,
  mem "KL_TUPLE_FOR_EACH" h = false -> collect 0 [] rest1 = Some ([at_; ab], h1, rest2) ->
  free F_loop h1 -> free [b] h1 -> free Fb h1 -> free rs h1 ->
  Val E [] at_ (paren vs) -> Val E ["KL_TUPLE_LOOP_INVOKER"; b] ab [Id b] ->
  vs <> [] -> Forall shut vs -> Forall (quiet E) vs -> length vs <= p_tuple E -> p_tuple E <= 256 ->
  Forall2 (body1 E Fb b) vs codes ->
  (forall o, strip o = concat codes -> Run E rest2 (fun r => P (o ++ r)%list)) ->
  Run E ((Id "KL_TUPLE_FOR_EACH", h) :: (LP, hl) :: rest1) P.
Proof.
  intros h hl rest1 at_ ab h1 rest2 vs codes P M C F Fg FB FR Vt (xb & Xb & Sb) NE Cl Qu Le Lt Bd Kn.
  pose proof (quiet_paren _ _ Qu) as Qp. pose proof (shut_paren _ Cl) as Cp.
  set (G1 := ["KL_TUPLE_LOOP_INVOKER"; b]) in *.
  destruct (val_quiet _ _ G1 _ _ Vt Qp) as (xt & Xt & St).
  eapply run_fun with (ex := [xt; xb]); [exact M | reflexivity | reflexivity | exact C | reflexivity | repeat constructor; assumption |].
  body h' Fr. do 3 (rewrite <- ?app_assoc; cbn [app]).
  assert (F' : free F_loop h') by fr. assert (Fg' : free [b] h') by fr. assert (FB' : free Fb h') by fr.
  assert (FR' : free rs h') by fr.
  assert (FG' : free G1 h').
  { unfold G1, free. cbn [forallb]. rewrite (free_mem F_loop h' "KL_TUPLE_LOOP_INVOKER" F' eq_refl).
    unfold free in Fg'. cbn [forallb] in Fg'. exact Fg'. }
  assert (Cb : shut [Id b]) by reflexivity.
  seg xt yt Tt Lt'. seg xb yb Tb Lb'.
  assert (Db : dormant E [Id b]) by (cbn [dormant]; rewrite Lb; repeat split; auto).
  assert (G1l : free ["KL_TUPLE_SIZE"; "BOOST_PP_TUPLE_SIZE"] G1).
  { apply free_cons; [reflexivity|]. apply (free_sub (["KL_TUPLE_FOR_EACH"; "BOOST_PP_REPEAT_1"; "BOOST_PP_REPEAT_2"] ++ F_loop)%list); [exact bl | reflexivity]. }
  assert (Dd : dormant E (paren [paren vs; [Id b]])).
  { rewrite paren_two.
    apply (dormant_name (LP :: paren vs ++ [Comma])%list). apply quiet_cons. split; [exact I|]. apply quiet_app.
    split; [exact Qp|]. apply quiet_cons. split; [exact I | apply quiet_nil]. }
  assert (Sd : sim E G1 ((LP, h') :: yt ++ (Comma, h') :: yb ++ [(RP, h')]) (paren [paren vs; [Id b]])).
  { unfold paren at 1. cbn [listed]. apply sim_cons; [exact I|]. rewrite <- app_assoc. apply sim_app; [exact Tt|].
    apply sim_cons; [exact I|]. apply (sim_app E G1 yb _ [Id b] [RP]); [exact Tb|]. apply sim_cons; [exact I | apply sim_nil]. }
  assert (exists r, repeat_level (inter h' h') = Some r /\
            ((r = "BOOST_PP_REPEAT_1") \/ (r = "BOOST_PP_REPEAT_2" /\ mem "BOOST_PP_REPEAT_2" Fb = false))) as (r & Lv & Rr).
  { destruct (level (inter h' h') (free_inter _ _ _ FR')) as [A | [A B]]; eauto 6. }
  eapply (run_repeat E G1) with (k := length vs) (m := [Id "KL_TUPLE_LOOP_INVOKER"]) (d := paren [paren vs; [Id b]]) (r := r);
    [fr | coll | | | | lia | exact Lv |].
  { eapply (run_tuple_size E G1) with (vs := vs); [fr | coll | fr | fr | exact G1l | | exact NE | exact Cl | apply dormant_quiet, Qp | exact Le |].
    - apply val_dormant; [exact Tt | apply dormant_quiet, Qp].
    - done_val. apply quiet_num. }
  { apply val_dormant; [apply sim_cons; [right; exact FG' | apply sim_nil] | cbn [dormant]; repeat split; right; split; exact I]. }
  { apply val_dormant; [exact Sd | exact Dd]. }
  intros h2 m' d' Fr2 Sm Sdd.
  assert (Fh2 : free F_elem h2 /\ free [b] h2 /\ free Fb h2 /\ free G1 h2).
  { destruct Rr as [-> | [-> Nr]]; repeat split; try fr. all: apply (from_free G1 _ _ _ Fr2 FG').
    - exact (free_mem _ [b] "BOOST_PP_REPEAT_1" bl eq_refl).
    - exact (free_mem _ [b] "BOOST_PP_REPEAT_2" bl eq_refl). }
  destruct Fh2 as (Fe2 & Fb2 & FB2 & FG2).
  assert (Sm2 : sim E G1 (hsadd h2 m') [Id "KL_TUPLE_LOOP_INVOKER"]) by (apply sim_hsadd; assumption).
  assert (Sd2 : sim E G1 (hsadd h2 d') (paren [paren vs; [Id b]])) by (apply sim_hsadd; assumption).
  assert (Ld2 : closed 0 (strip (hsadd h2 d')) = true).
  { apply (sim_closed _ _ _ _ Sd2), shut_paren. repeat constructor. exact Cp. }
  apply run_calls with (piece := fun i => nth i codes []).
  - intros i Ii rest Q K. apply in_seq in Ii. destruct (nth_error vs i) as [v|] eqn:Nt; [|apply nth_error_None in Nt; lia].
    unfold repeat_call. rewrite hsadd_app. generalize dependent (hsadd h2 m'). intros m2 Sm2.
    destruct (sim_cons_inv _ _ _ _ _ Sm2) as (hm & w & -> & W). apply sim_nil_inv in W. subst w.
    assert (Mm : mem "KL_TUPLE_LOOP_INVOKER" hm = false).
    { apply (free_mem G1); [|reflexivity]. apply (proj2 Sm2 "KL_TUPLE_LOOP_INVOKER"); [left; reflexivity | discriminate]. }
    cbn [hsadd map fst snd app]. rewrite !app_nil_r. fold (hsadd h2 (d' ++ [(RP, [])])%list). rewrite hsadd_app.
    cbn [hsadd map fst snd app]. rewrite !app_nil_r. generalize dependent (hsadd h2 d'). intros d2 Sd2 Ld2. rewrite <- app_assoc. cbn [app].
    eapply run_invoker with (i := i) (vs := vs) (v := v);
      [exact Mm | coll | fr | fr | fr | fr | | | | | exact Cl | exact Qu | exact Le | exact Nt | exact (forall2_nth Bd Nt) | exact K].
    + exact (free_mem _ [b] "KL_TUPLE_LOOP_INVOKER" bl eq_refl).
    + apply val_dormant; [apply sim_cons; [exact I | apply sim_nil] | exact I].
    + apply val_dormant; [apply sim_cons; [exact I | apply sim_nil] | exact I].
    + apply val_dormant; [|exact Dd]. apply (sim_less E G1); [exact Sd2|]. unfold G1. cbn [forallb mem existsb].
      rewrite String.eqb_refl. rewrite orb_true_r. reflexivity.
  - intros o So. apply Kn. rewrite So. rewrite (f2_length Bd). apply flat_map_nth.
Qed.
End Loops.
