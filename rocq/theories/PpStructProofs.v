(** KL_REFLECT_STRUCT and its relatives *)
From Coq Require Import String List Arith Bool Lia.
From Verif Require Import PpModel PpSpec PpProofs PpMacroProofs PpLoopProofs PpLoop2Proofs PpEnumProofs.
Import ListNotations.
Local Open Scope list_scope.
Local Open Scope string_scope.

(** * Attributes *)

Lemma lambda_body : forall E a, ordinary E -> quiet E a ->
  body1 E [] "KL_LAMBDA_WRAP_COMMA_ENTRY" a (attribute_code a).
Proof.
  intros E a O Qa hb hl rest1 aa h1 rest2 P M C F (xa & Xa & Sa) Kn.
  eapply run_fun with (ex := [xa]); [exact M | reflexivity | reflexivity | exact C | reflexivity | repeat constructor; assumption |].
  body h' Fr. do 4 (rewrite <- ?app_assoc; cbn [app]).
  assert (FG : free [] h') by reflexivity.
  assert (Ta : sim E [] (hsadd h' xa) a) by (apply sim_hsadd; assumption).
  generalize dependent (hsadd h' xa). intros ya Ta.
  keeps. apply run_quiet; [rewrite (proj1 Ta); exact Qa|]. keeps. done_call Kn. strips. unfold attribute_code. lexed.
Qed.

Lemma level_2 : forall h, free ["BOOST_PP_REPEAT_2"] h ->
  repeat_level h = Some "BOOST_PP_REPEAT_1" \/ (repeat_level h = Some "BOOST_PP_REPEAT_2" /\ mem "BOOST_PP_REPEAT_2" [] = false).
Proof. intros h F. destruct (repeat_level_2 h F); auto. Qed.

Definition F_lambdas :=
  (["KL_TUPLE_ENUM_POP_FRONT_LAMBDA_COMMA_IMPL"; "KL_TUPLE_ENUM_POP_FRONT_COMMA_EMPTY"; "KL_IF"; "BOOST_PP_IF";
    "KL_TUPLE_POP_FRONT"; "BOOST_PP_TUPLE_POP_FRONT"; "KL_TUPLE_FOR_EACH"; "KL_LAMBDA_WRAP_COMMA_ENTRY"; "BOOST_PP_REPEAT_2"]
   ++ F_minus ++ F_loop)%list.

Lemma run_lambdas : forall E m attrs h hl rest1 af h1 rest2 P, ordinary E ->
  Forall shut (m :: attrs) -> Forall (quiet E) (m :: attrs) -> length (m :: attrs) <= p_tuple E ->
  mem "KL_TUPLE_ENUM_POP_FRONT_LAMBDA_COMMA" h = false -> collect 0 [] rest1 = Some ([af], h1, rest2) ->
  free F_lambdas h1 -> Val E [] af (paren (m :: attrs)) ->
  (forall o, strip o = flat_map attribute_code attrs -> Run E rest2 (fun r => P (o ++ r)%list)) ->
  Run E ((Id "KL_TUPLE_ENUM_POP_FRONT_LAMBDA_COMMA", h) :: (LP, hl) :: rest1) P.
Proof.
  intros E m attrs h hl rest1 af h1 rest2 P O Cl Qu Le M C F (xf & Xf & Sf) Kn.
  pose proof (shut_paren _ Cl) as Cp. pose proof (quiet_paren _ _ Qu) as Qp.
  eapply run_fun with (ex := [xf]); [exact M | reflexivity | reflexivity | exact C | reflexivity | repeat constructor; assumption |].
  body h' Fr. do 4 (rewrite <- ?app_assoc; cbn [app]).
  assert (F' : free F_lambdas h') by fr. assert (FG : free [] h') by reflexivity.
  seg xf yf Tf Lf.
  set (G := ["KL_TUPLE_ENUM_POP_FRONT_LAMBDA_COMMA_IMPL"; "KL_TUPLE_ENUM_POP_FRONT_COMMA_EMPTY"]).
  assert (FG' : free G h') by (unfold G; fr).
  assert (Vf : Val E [] yf (paren (m :: attrs))) by (apply qval; assumption).
  eapply (run_if E G) with (k := length (m :: attrs) - 1) (t := [Id "KL_TUPLE_ENUM_POP_FRONT_LAMBDA_COMMA_IMPL"])
      (e := [Id "KL_TUPLE_ENUM_POP_FRONT_COMMA_EMPTY"]);
    [fr | coll | fr | fr | reflexivity | | | | reflexivity | reflexivity | | |].
  - eapply (val_minus_one E G); [fr | coll | fr | fr | reflexivity | apply (val_quiet E []); [exact Vf | exact Qp] | discriminate | exact Cl | exact Qu | exact Le].
  - apply val_dormant; [apply sim_cons; [right; exact FG' | apply sim_nil] | cbn [dormant]; repeat split; right; split; exact I].
  - apply val_dormant; [apply sim_cons; [right; exact FG' | apply sim_nil] | cbn [dormant]; repeat split; right; split; exact I].
  - cbn [dormant]; repeat split; right; split; exact I.
  - cbn [dormant]; repeat split; right; split; exact I.
  - intros o So. destruct attrs as [|a attrs]; cbn [length Nat.sub Nat.eqb] in So;
      destruct (sim_cons_inv _ _ _ _ _ So) as (k & w & -> & W); apply sim_nil_inv in W; subst w; cbn [app].
    + assert (Mk : mem "KL_TUPLE_ENUM_POP_FRONT_COMMA_EMPTY" k = false).
      { apply (free_mem G); [|reflexivity]. apply (proj2 So "KL_TUPLE_ENUM_POP_FRONT_COMMA_EMPTY"); [left; reflexivity | discriminate]. }
      destruct Vf as (zf & Zf & _).
      eapply run_fun with (ex := [zf]); [exact Mk | reflexivity | reflexivity | coll | reflexivity | repeat constructor; assumption |].
      intros h2 _. cbn. apply (Kn []). reflexivity.
    + assert (Mk : mem "KL_TUPLE_ENUM_POP_FRONT_LAMBDA_COMMA_IMPL" k = false).
      { apply (free_mem G); [|reflexivity]. apply (proj2 So "KL_TUPLE_ENUM_POP_FRONT_LAMBDA_COMMA_IMPL"); [left; reflexivity | discriminate]. }
      destruct Vf as (zf & Zf & Uf).
      eapply run_fun with (ex := [zf]); [exact Mk | reflexivity | reflexivity | coll | reflexivity | repeat constructor; assumption |].
      body h2 Fr2. do 4 (rewrite <- ?app_assoc; cbn [app]).
      assert (F2 : free (tl F_lambdas) h2) by fr. assert (FG2 : free [] h2) by reflexivity.
      seg zf y2 T2 L2. inversion Cl as [|? ? C1 Cl2]; subst. inversion Qu as [|? ? Q1 Qu2]; subst.
      eapply run_for_each with (Fb := []) (b := "KL_LAMBDA_WRAP_COMMA_ENTRY") (rs := ["BOOST_PP_REPEAT_2"])
          (vs := a :: attrs) (codes := map attribute_code (a :: attrs));
        [reflexivity | destruct O as [_ O]; lia | reflexivity | apply level_2 | reflexivity | reflexivity | reflexivity
        | fr | coll | fr | fr | fr | fr | | | discriminate | exact Cl2 | exact Qu2 | clear -Le; cbn [length] in *; lia | destruct O as [_ O]; lia | |].
      * eapply (run_pop_front E []) with (v := m) (vs := a :: attrs);
          [fr | coll | fr | fr | reflexivity | apply qval; assumption | discriminate | exact Cl | apply dormant_quiet, Qp | exact Le |].
        done_val. apply quiet_paren, Qu2.
      * apply val_dormant; [apply sim_cons; [right; fr | apply sim_nil] | cbn [dormant]; repeat split; right; split; exact I].
      * generalize (a :: attrs) Qu2. clear -O. intros l Ql. induction Ql as [|v l A Ql IH]; constructor; [apply lambda_body; assumption | exact IH].
      * intros o2 So2. apply Kn. rewrite So2. symmetry. apply flat_map_concat_map.
Qed.

(** * One field *)

Definition F_member :=
  (["KL_REFLECT_STRUCT_VIS_MEMBER_IMPL"; "KL_REFLECT_STRUCT_VIS_MEMBER_TUPLE"; "KL_TUPLE_ENUM_POP_FRONT_LAMBDA_COMMA"]
   ++ F_to_tuple ++ F_stringize ++ F_lambdas)%list.

Lemma field_parts : forall E f, field_ok E f ->
  Forall shut (fst f :: snd f) /\ Forall (quiet E) (fst f :: snd f) /\ length (fst f :: snd f) <= 64 /\ hd Comma (fst f) <> LP.
Proof.
  intros E [m attrs] [[A Hd] [B C]]. cbn [fst snd] in *. destruct A as (_ & A1 & A2).
  repeat split; [constructor; [exact A1|] | constructor; [exact A2|] | cbn [length]; lia | exact Hd].
  - revert B. apply Forall_impl. intros a (_ & Q & _). exact Q.
  - revert B. apply Forall_impl. intros a (_ & _ & Q). exact Q.
Qed.

Lemma source_parts : forall E f src, field_ok E f -> field_source f src -> shut src /\ quiet E src.
Proof.
  intros E f src Ok Fs. destruct (field_parts E f Ok) as (A & B & _). destruct Fs as [m | m attrs]; cbn [fst snd] in *.
  - inversion A; inversion B; auto.
  - split; [apply shut_paren, A | apply quiet_paren, B].
Qed.

Lemma member_body : forall E type f src, ordinary E -> shut type -> quiet E type -> field_ok E f -> field_source f src ->
  body2 E F_member "KL_REFLECT_STRUCT_VIS_MEMBER" type src (member_code type f).
Proof.
  intros E type f src O Ct Qt Ok Fs hb hl rest1 a c h1 rest2 P M C F (xt & Xt & St) (xs & Xs & Ss) Kn.
  destruct (field_parts E f Ok) as (Cf & Qf & Lf & Hd). destruct (source_parts E f src Ok Fs) as (Cs & Qs).
  assert (Le : length (fst f :: snd f) <= p_tuple E) by (clear -Lf O; destruct O as [_ O]; lia).
  eapply run_fun with (ex := [xt; xs]); [exact M | reflexivity | reflexivity | exact C | reflexivity | repeat constructor; assumption |].
  body h' Fr. do 4 (rewrite <- ?app_assoc; cbn [app]).
  assert (F' : free F_member h') by fr. assert (FG : free [] h') by reflexivity.
  seg xt yt Tt Lt1. seg xs ys Ts Ls.
  pose proof (shut_paren _ Cf) as Cp. pose proof (quiet_paren _ _ Qf) as Qp.
  assert (V : Val E [] ((Id "KL_ARG_TO_TUPLE", h') :: (LP, h') :: ys ++ [(RP, h')]) (paren (fst f :: snd f))).
  { eapply (val_arg_to_tuple E []); [fr | coll | fr | fr | reflexivity | apply qval; [exact Ts | exact Qs] | | discriminate | exact Cf | exact Qf].
    destruct Fs as [m | m attrs]; cbn [fst snd] in *; auto. }
  destruct V as (xf & Xf & Sf). destruct (qval _ _ _ _ Tt Qt) as (x2 & X2 & S2).
  eapply run_fun with (ex := [x2; xf]); [fr | reflexivity | reflexivity | coll | reflexivity | repeat constructor; assumption |].
  body h2 Fr2. do 4 (rewrite <- ?app_assoc; cbn [app]).
  assert (F2 : free (tl F_member) h2) by fr. assert (FG2 : free [] h2) by reflexivity.
  seg x2 y2 T2 L2. seg xf yf Tf Lf2.
  destruct (qval _ _ _ _ T2 Qt) as (x3 & X3 & S3). destruct (qval _ _ _ _ Tf Qp) as (x4 & X4 & S4).
  eapply run_fun with (ex := [x3; x4]); [fr | reflexivity | reflexivity | coll | reflexivity | repeat constructor; assumption |].
  body h3 Fr3. do 4 (rewrite <- ?app_assoc; cbn [app]).
  assert (F3 : free (tl (tl F_member)) h3) by fr. assert (FG3 : free [] h3) by reflexivity.
  seg x3 y3 T3 L3. seg x4 y4 T4 L4.
  pose proof (qval _ _ _ _ T4 Qp) as V4. inversion Cf as [|? ? C1 C2]; subst. inversion Qf as [|? ? Q1 Q2]; subst.
  keeps. apply run_quiet; [rewrite (proj1 T3); exact Qt|]. keeps.
  eapply (run_tuple_elem E []) with (i := 0) (vs := fst f :: snd f);
    [fr | coll | fr | fr | reflexivity | apply nval | exact V4 | exact Cf | apply dormant_quiet, Qp | exact Le | reflexivity |].
  intros o So. apply run_quiet; [rewrite (proj1 So); exact Q1|]. keeps.
  eapply (run_stringize E []) with (v := fst f); [fr | coll | fr | fr | reflexivity | | exact C1 | exact Q1 |].
  { eapply (run_tuple_elem E []) with (i := 0) (vs := fst f :: snd f);
      [fr | coll | fr | fr | reflexivity | apply nval | exact V4 | exact Cf | apply dormant_quiet, Qp | exact Le | reflexivity |].
    done_val. exact Q1. }
  intros k.
  eapply (run_lambdas E) with (m := fst f) (attrs := snd f); [exact O | exact Cf | exact Qf | exact Le | fr | coll | fr | exact V4 |].
  intros o2 So2. keeps. done_call Kn. strips. unfold member_code. lexed.
Qed.

Definition F_members := (["KL_TUPLE_FOR_EACH2"; "BOOST_PP_REPEAT_1"; "KL_REFLECT_STRUCT_VIS_MEMBER"] ++ F_loop2 ++ F_member)%list.

Lemma run_members : forall E type fs srcs h hl rest1 at_ af h1 rest2 P, ordinary E -> shut type -> quiet E type ->
  Forall (field_ok E) fs -> Forall2 field_source fs srcs -> fs <> [] -> length fs <= p_tuple E ->
  mem "KL_REFLECT_STRUCT_VIS_MEMBERS" h = false -> collect 0 [] rest1 = Some ([at_; af], h1, rest2) ->
  free F_members h1 -> Val E [] at_ type -> Val E [] af (paren srcs) ->
  (forall o, strip o = flat_map (member_code type) fs -> Run E rest2 (fun r => P (o ++ r)%list)) ->
  Run E ((Id "KL_REFLECT_STRUCT_VIS_MEMBERS", h) :: (LP, hl) :: rest1) P.
Proof.
  intros E type fs srcs h hl rest1 at_ af h1 rest2 P O Ct Qt Ok Fs NE Le M C F (xt & Xt & St) (xf & Xf & Sf) Kn.
  assert (Cv : Forall shut srcs /\ Forall (quiet E) srcs).
  { clear -Ok Fs. induction Fs as [|f src fs srcs A Fs IH]; [auto|]. inversion Ok; subst.
    destruct (source_parts E f src) as (B1 & B2); [assumption | assumption |]. destruct IH as (I1 & I2); [assumption|]. auto. }
  destruct Cv as (Cv & Qv). pose proof (shut_paren _ Cv) as Cp. pose proof (quiet_paren _ _ Qv) as Qp.
  eapply run_fun with (ex := [xt; xf]); [exact M | reflexivity | reflexivity | exact C | reflexivity | repeat constructor; assumption |].
  body h' Fr. do 4 (rewrite <- ?app_assoc; cbn [app]).
  assert (F' : free F_members h') by fr. assert (FG : free [] h') by reflexivity.
  seg xt yt Tt Lt1. seg xf yf Tf Lf.
  eapply run_for_each2 with (Fb := F_member) (b := "KL_REFLECT_STRUCT_VIS_MEMBER") (rs := ["BOOST_PP_REPEAT_1"])
      (w := type) (vs := srcs) (codes := map (member_code type) fs);
    [reflexivity | destruct O as [_ O]; lia | reflexivity | apply level_1 | reflexivity | reflexivity | reflexivity
    | fr | coll | fr | fr | fr | fr | apply qval; assumption | exact Ct | exact Qt | apply qval; assumption | | | exact Cv | exact Qv | | |].
  - apply val_dormant; [apply sim_cons; [right; fr | apply sim_nil] | cbn [dormant]; repeat split; right; split; exact I].
  - inversion Fs; subst; [contradiction | discriminate].
  - rewrite <- (f2_length Fs). exact Le.
  - clear -O Ct Qt Ok Fs. induction Fs as [|f src fs srcs A Fs IH]; inversion Ok; subst; constructor; [apply member_body; assumption | auto].
  - intros o So. apply Kn. rewrite So. symmetry. apply flat_map_concat_map.
Qed.

(** * Bases *)

Lemma base_body : forall E b, ordinary E -> quiet E b ->
  body1 E [] "KL_REFLECT_STRUCT_VIS_BASE" b (base_code b).
Proof.
  intros E a O Qa hb hl rest1 aa h1 rest2 P M C F (xa & Xa & Sa) Kn.
  eapply run_fun with (ex := [xa]); [exact M | reflexivity | reflexivity | exact C | reflexivity | repeat constructor; assumption |].
  body h' Fr. do 4 (rewrite <- ?app_assoc; cbn [app]).
  assert (FG : free [] h') by reflexivity.
  assert (Ta : sim E [] (hsadd h' xa) a) by (apply sim_hsadd; assumption).
  generalize dependent (hsadd h' xa). intros ya Ta.
  keeps. apply run_quiet; [rewrite (proj1 Ta); exact Qa|]. keeps. done_call Kn. strips. unfold base_code. lexed.
Qed.

Lemma base_count_body : forall E b, ordinary E -> quiet E b ->
  body1 E [] "KL_REFLECT_STRUCT_NUM_FIELDS" b (base_count_code b).
Proof.
  intros E a O Qa hb hl rest1 aa h1 rest2 P M C F (xa & Xa & Sa) Kn.
  eapply run_fun with (ex := [xa]); [exact M | reflexivity | reflexivity | exact C | reflexivity | repeat constructor; assumption |].
  body h' Fr. do 4 (rewrite <- ?app_assoc; cbn [app]).
  assert (FG : free [] h') by reflexivity.
  assert (Ta : sim E [] (hsadd h' xa) a) by (apply sim_hsadd; assumption).
  generalize dependent (hsadd h' xa). intros ya Ta.
  keeps. apply run_quiet; [rewrite (proj1 Ta); exact Qa|]. keeps. done_call Kn. strips. unfold base_count_code. lexed.
Qed.

Definition F_bases := (["KL_TUPLE_FOR_EACH"; "BOOST_PP_REPEAT_1"; "KL_REFLECT_STRUCT_VIS_BASE"; "KL_REFLECT_STRUCT_NUM_FIELDS"] ++ F_loop)%list.

Lemma run_bases : forall E bs h hl rest1 ab h1 rest2 P, ordinary E ->
  Forall shut bs -> Forall (quiet E) bs -> bs <> [] -> length bs <= p_tuple E ->
  mem "KL_REFLECT_STRUCT_VIS_BASES" h = false -> collect 0 [] rest1 = Some ([ab], h1, rest2) ->
  free F_bases h1 -> Val E [] ab (paren bs) ->
  (forall o, strip o = flat_map base_code bs -> Run E rest2 (fun r => P (o ++ r)%list)) ->
  Run E ((Id "KL_REFLECT_STRUCT_VIS_BASES", h) :: (LP, hl) :: rest1) P.
Proof.
  intros E bs h hl rest1 ab h1 rest2 P O Cl Qu NE Le M C F (xb & Xb & Sb) Kn.
  pose proof (shut_paren _ Cl) as Cp. pose proof (quiet_paren _ _ Qu) as Qp.
  eapply run_fun with (ex := [xb]); [exact M | reflexivity | reflexivity | exact C | reflexivity | repeat constructor; assumption |].
  body h' Fr. do 4 (rewrite <- ?app_assoc; cbn [app]).
  assert (F' : free F_bases h') by fr. assert (FG : free [] h') by reflexivity.
  seg xb yb Tb Lb1.
  eapply run_for_each with (Fb := []) (b := "KL_REFLECT_STRUCT_VIS_BASE") (rs := ["BOOST_PP_REPEAT_1"])
      (vs := bs) (codes := map base_code bs);
    [reflexivity | destruct O as [_ O]; lia | reflexivity | apply level_1 | reflexivity | reflexivity | reflexivity
    | fr | coll | fr | fr | fr | fr | apply qval; assumption | | exact NE | exact Cl | exact Qu | exact Le | destruct O as [_ O]; lia | |].
  - apply val_dormant; [apply sim_cons; [right; fr | apply sim_nil] | cbn [dormant]; repeat split; right; split; exact I].
  - clear -O Qu. induction Qu as [|v l A Ql IH]; constructor; [apply base_body; assumption | exact IH].
  - intros o So. apply Kn. rewrite So. symmetry. apply flat_map_concat_map.
Qed.

Lemma run_base_counts : forall E bs h hl rest1 ab h1 rest2 P, ordinary E ->
  Forall shut bs -> Forall (quiet E) bs -> bs <> [] -> length bs <= p_tuple E ->
  mem "KL_REFLECT_STRUCT_NUM_BASE_FIELDS" h = false -> collect 0 [] rest1 = Some ([ab], h1, rest2) ->
  free F_bases h1 -> Val E [] ab (paren bs) ->
  (forall o, strip o = flat_map base_count_code bs -> Run E rest2 (fun r => P (o ++ r)%list)) ->
  Run E ((Id "KL_REFLECT_STRUCT_NUM_BASE_FIELDS", h) :: (LP, hl) :: rest1) P.
Proof.
  intros E bs h hl rest1 ab h1 rest2 P O Cl Qu NE Le M C F (xb & Xb & Sb) Kn.
  pose proof (shut_paren _ Cl) as Cp. pose proof (quiet_paren _ _ Qu) as Qp.
  eapply run_fun with (ex := [xb]); [exact M | reflexivity | reflexivity | exact C | reflexivity | repeat constructor; assumption |].
  body h' Fr. do 4 (rewrite <- ?app_assoc; cbn [app]).
  assert (F' : free F_bases h') by fr. assert (FG : free [] h') by reflexivity.
  seg xb yb Tb Lb1.
  eapply run_for_each with (Fb := []) (b := "KL_REFLECT_STRUCT_NUM_FIELDS") (rs := ["BOOST_PP_REPEAT_1"])
      (vs := bs) (codes := map base_count_code bs);
    [reflexivity | destruct O as [_ O]; lia | reflexivity | apply level_1 | reflexivity | reflexivity | reflexivity
    | fr | coll | fr | fr | fr | fr | apply qval; assumption | | exact NE | exact Cl | exact Qu | exact Le | destruct O as [_ O]; lia | |].
  - apply val_dormant; [apply sim_cons; [right; fr | apply sim_nil] | cbn [dormant]; repeat split; right; split; exact I].
  - clear -O Qu. induction Qu as [|v l A Ql IH]; constructor; [apply base_count_body; assumption | exact IH].
  - intros o So. apply Kn. rewrite So. symmetry. apply flat_map_concat_map.
Qed.

(** * The functions *)

Lemma sources : forall E fs srcs, Forall (field_ok E) fs -> Forall2 field_source fs srcs -> Forall shut srcs /\ Forall (quiet E) srcs.
Proof.
  intros E fs srcs Ok Fs. induction Fs as [|f src fs srcs A Fs IH]; [auto|]. inversion Ok; subst.
  destruct (source_parts E f src) as (B1 & B2); [assumption | assumption |]. destruct IH as (I1 & I2); [assumption|]. auto.
Qed.

Lemma quiet_strip : forall E G o v, sim E G o v -> quiet E v -> quiet E (strip o).
Proof. intros E G o v S Q. rewrite (proj1 S). exact Q. Qed.

Definition F_plain := (["KL_REFLECT_STRUCT_VIS_MEMBERS"; "KL_TUPLE_SIZE"; "BOOST_PP_TUPLE_SIZE"] ++ F_members)%list.

Lemma run_plain : forall E decl type fs srcs h hl rest1 ad at_ af h1 rest2 P, ordinary E ->
  shut decl -> quiet E decl -> shut type -> quiet E type ->
  Forall (field_ok E) fs -> Forall2 field_source fs srcs -> fs <> [] -> length fs <= p_tuple E ->
  mem "KL_REFLECT_STRUCT_TUPLE_IMPL" h = false -> collect 0 [] rest1 = Some ([ad; at_; af], h1, rest2) ->
  free F_plain h1 -> Val E [] ad decl -> Val E [] at_ type -> Val E [] af (paren srcs) ->
  (forall o, strip o = plain_struct_code decl type fs -> Run E rest2 (fun r => P (o ++ r)%list)) ->
  Run E ((Id "KL_REFLECT_STRUCT_TUPLE_IMPL", h) :: (LP, hl) :: rest1) P.
Proof.
  intros E decl type fs srcs h hl rest1 ad at_ af h1 rest2 P O Cd Qd Ct Qt Ok Fs NE Le M C F (xd & Xd & Sd) (xt & Xt & St) (xf & Xf & Sf) Kn.
  destruct (sources E fs srcs Ok Fs) as (Cv & Qv). pose proof (shut_paren _ Cv) as Cp. pose proof (quiet_paren _ _ Qv) as Qp.
  assert (NS : srcs <> []) by (inversion Fs; subst; [contradiction | discriminate]).
  assert (Ls : length srcs <= p_tuple E) by (rewrite <- (f2_length Fs); exact Le).
  eapply run_fun with (ex := [xd; xt; xf]); [exact M | reflexivity | reflexivity | exact C | reflexivity | repeat constructor; assumption |].
  body h' Fr. do 8 (rewrite <- ?app_assoc; cbn [app]).
  assert (F' : free F_plain h') by fr. assert (FG : free [] h') by reflexivity.
  seg xd yd Td Ld1. seg xt yt Tt Lt1. seg xf yf Tf Lf1.
  pose proof (quiet_strip _ _ _ _ Td Qd) as Kd. pose proof (quiet_strip _ _ _ _ Tt Qt) as Kt.
  keeps. apply run_quiet; [exact Kd|]. keeps. apply run_quiet; [exact Kt|]. keeps.
  eapply run_members with (type := type) (fs := fs) (srcs := srcs);
    [exact O | exact Ct | exact Qt | exact Ok | exact Fs | exact NE | exact Le | fr | coll | fr | apply qval; assumption | apply qval; assumption |].
  intros o So. keeps. apply run_quiet; [exact Kd|]. keeps. apply run_quiet; [exact Kt|]. keeps.
  eapply (run_tuple_size E []) with (vs := srcs);
    [fr | coll | fr | fr | reflexivity | apply qval; [exact Tf | exact Qp] | exact NS | exact Cv | apply dormant_quiet, Qp | exact Ls |].
  intros o2 So2. rewrite <- (f2_length Fs) in So2. apply run_quiet; [rewrite (proj1 So2); apply quiet_num|]. keeps.
  done_call Kn. strips. unfold plain_struct_code, struct_code. lexed.
Qed.

Definition F_derived :=
  (["KL_REFLECT_STRUCT_VIS_BASES"; "KL_REFLECT_STRUCT_NUM_BASE_FIELDS"] ++ F_bases ++ F_plain)%list.

Lemma run_derived : forall E decl type bs fs srcs h hl rest1 ad at_ ab af h1 rest2 P, ordinary E ->
  shut decl -> quiet E decl -> shut type -> quiet E type ->
  Forall shut bs -> Forall (quiet E) bs -> bs <> [] -> length bs <= p_tuple E ->
  Forall (field_ok E) fs -> Forall2 field_source fs srcs -> fs <> [] -> length fs <= p_tuple E ->
  mem "KL_REFLECT_STRUCT_DERIVED_TUPLE_IMPL" h = false -> collect 0 [] rest1 = Some ([ad; at_; ab; af], h1, rest2) ->
  free F_derived h1 -> Val E [] ad decl -> Val E [] at_ type -> Val E [] ab (paren bs) -> Val E [] af (paren srcs) ->
  (forall o, strip o = derived_struct_code decl type bs fs -> Run E rest2 (fun r => P (o ++ r)%list)) ->
  Run E ((Id "KL_REFLECT_STRUCT_DERIVED_TUPLE_IMPL", h) :: (LP, hl) :: rest1) P.
Proof.
  intros E decl type bs fs srcs h hl rest1 ad at_ ab af h1 rest2 P O Cd Qd Ct Qt Cb Qb NB LeB Ok Fs NE Le M C F
    (xd & Xd & Sd) (xt & Xt & St) (xb & Xb & Sb) (xf & Xf & Sf) Kn.
  destruct (sources E fs srcs Ok Fs) as (Cv & Qv). pose proof (shut_paren _ Cv) as Cp. pose proof (quiet_paren _ _ Qv) as Qp.
  pose proof (shut_paren _ Cb) as Cpb. pose proof (quiet_paren _ _ Qb) as Qpb.
  assert (NS : srcs <> []) by (inversion Fs; subst; [contradiction | discriminate]).
  assert (Ls : length srcs <= p_tuple E) by (rewrite <- (f2_length Fs); exact Le).
  eapply run_fun with (ex := [xd; xt; xb; xf]); [exact M | reflexivity | reflexivity | exact C | reflexivity | repeat constructor; assumption |].
  body h' Fr. do 8 (rewrite <- ?app_assoc; cbn [app]).
  assert (F' : free F_derived h') by fr. assert (FG : free [] h') by reflexivity.
  seg xd yd Td Ld1. seg xt yt Tt Lt1. seg xb yb Tb Lb1. seg xf yf Tf Lf1.
  pose proof (quiet_strip _ _ _ _ Td Qd) as Kd. pose proof (quiet_strip _ _ _ _ Tt Qt) as Kt.
  pose proof (qval _ _ _ _ Tb Qpb) as Vb.
  keeps. apply run_quiet; [exact Kd|]. keeps. apply run_quiet; [exact Kt|]. keeps.
  eapply run_bases with (bs := bs); [exact O | exact Cb | exact Qb | exact NB | exact LeB | fr | coll | fr | exact Vb |].
  intros o1 So1. keeps.
  eapply run_members with (type := type) (fs := fs) (srcs := srcs);
    [exact O | exact Ct | exact Qt | exact Ok | exact Fs | exact NE | exact Le | fr | coll | fr | apply qval; assumption | apply qval; assumption |].
  intros o So. keeps. apply run_quiet; [exact Kd|]. keeps. apply run_quiet; [exact Kt|]. keeps.
  eapply (run_tuple_size E []) with (vs := srcs);
    [fr | coll | fr | fr | reflexivity | apply qval; [exact Tf | exact Qp] | exact NS | exact Cv | apply dormant_quiet, Qp | exact Ls |].
  intros o2 So2. rewrite <- (f2_length Fs) in So2. apply run_quiet; [rewrite (proj1 So2); apply quiet_num|]. keeps.
  eapply run_base_counts with (bs := bs); [exact O | exact Cb | exact Qb | exact NB | exact LeB | fr | coll | fr | exact Vb |].
  intros o3 So3. keeps.
  done_call Kn. strips. unfold derived_struct_code, struct_code. lexed.
Qed.
