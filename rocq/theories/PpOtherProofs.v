(** KL_ACCESSOR_FIELD and KL_DEFER *)
From Coq Require Import String Ascii List Arith Bool Lia.
From Verif Require Import PpModel PpSpec PpProofs PpMacroProofs PpLoopProofs PpLoop2Proofs PpEnumProofs PpStructProofs PpCallProofs.
Import ListNotations.
Local Open Scope list_scope.
Local Open Scope string_scope.

Lemma run_accessor_named : forall E h hl rest1 an ae h1 rest2 name e P, ordinary E ->
  quiet E name -> quiet E e ->
  mem "KL_ACCESSOR_FIELD_NAMED" h = false -> collect 0 [] rest1 = Some ([an; ae], h1, rest2) ->
  Val E [] an name -> Val E [] ae e ->
  (forall o, strip o = accessor_named_code name e -> Run E rest2 (fun r => P (o ++ r)%list)) ->
  Run E ((Id "KL_ACCESSOR_FIELD_NAMED", h) :: (LP, hl) :: rest1) P.
Proof.
  intros E h hl rest1 an ae h1 rest2 name e P O Qn Qe M C (xn & Xn & Sn) (xe & Xe & Se) Kn.
  eapply run_fun with (ex := [xn; xe]); [exact M | reflexivity | reflexivity | exact C | reflexivity | repeat constructor; assumption |].
  body h' Fr. do 8 (rewrite <- ?app_assoc; cbn [app]).
  assert (FG : free [] h') by reflexivity.
  assert (Tn : sim E [] (hsadd h' xn) name) by (apply sim_hsadd; assumption).
  assert (Te : sim E [] (hsadd h' xe) e) by (apply sim_hsadd; assumption).
  generalize dependent (hsadd h' xn). intros yn Tn. generalize dependent (hsadd h' xe). intros ye Te.
  keeps. apply run_quiet; [rewrite (proj1 Tn); exact Qn|]. keeps. apply run_quiet; [rewrite (proj1 Te); exact Qe|]. keeps.
  done_call Kn. strips. unfold accessor_named_code. lexed.
Qed.

Lemma accessor_named_expands : forall E name e, ordinary E -> argument E name -> argument E e ->
  expands_to E (call "KL_ACCESSOR_FIELD_NAMED" [name; e]) (accessor_named_code name e).
Proof.
  intros E name e O (_ & Cn & Qn) (_ & Ce & Qe). apply run_expands.
  apply call_args; [discriminate | repeat constructor; assumption |]. intros as_ Fa rest1 C.
  inversion Fa as [|an ? ? ? Sn Fv]; subst. inversion Fv as [|ae ? ? ? Se Fz]; subst. inversion Fz; subst.
  eapply run_accessor_named with (name := name) (e := e);
    [exact O | exact Qn | exact Qe | reflexivity | exact C | apply qval; assumption | apply qval; assumption | apply done_all].
Qed.

Lemma accessor_expands : forall E m, ordinary E -> argument E m ->
  expands_to E (call "KL_ACCESSOR_FIELD" [m]) (accessor_code m).
Proof.
  intros E m O (_ & Cm & Qm). change (shut m) in Cm. apply run_expands.
  apply call_args; [discriminate | repeat constructor; assumption |]. intros as_ Fa rest1 C.
  inversion Fa as [|am ? ? ? Sm Fz]; subst. inversion Fz; subst.
  destruct (qval _ _ _ _ Sm Qm) as (xm & Xm & Um).
  eapply run_fun with (ex := [xm]); [reflexivity | reflexivity | reflexivity | exact C | reflexivity | repeat constructor; assumption |].
  body h' Fr. do 8 (rewrite <- ?app_assoc; cbn [app]).
  assert (F0 : free ("KL_ACCESSOR_FIELD_NAMED" :: F_stringize) []) by reflexivity.
  assert (F' : free ("KL_ACCESSOR_FIELD_NAMED" :: F_stringize) h') by fr. assert (FG : free [] h') by reflexivity.
  seg xm ym Tm Lm.
  assert (Lo : lookup E "object" = None) by (eapply word; [exact O | vm_compute; reflexivity]).
  assert (Qo : quiet E (Id "object" :: Op "." :: m)) by (do 2 (apply quiet_cons; split; [first [exact Lo | exact I] |]); exact Qm).
  assert (Qs : quiet E [Strz m]) by (apply quiet_cons; split; [exact I | apply quiet_nil]).
  eapply run_accessor_named with (name := [Strz m]) (e := Id "object" :: Op "." :: m);
    [exact O | exact Qs | exact Qo | fr | | | | ].
  { cbn [app collect]. rewrite collect_seg by exact Lm. cbn [app collect]. rewrite collect_seg by exact Lm. cbn [app collect]. cbn [rev app].
    rewrite !rev_app_distr, rev_involutive, <- app_assoc. cbn [rev app]. reflexivity. }
  - eapply (run_stringize E []) with (v := m); [fr | coll | fr | fr | reflexivity | apply qval; assumption | exact Cm | exact Qm |].
    intros k. apply run_nil. apply sim_quiet; [reflexivity | exact Qs].
  - apply qval; [|exact Qo]. apply sim_cons; [left; exact Lo|]. apply sim_cons; [exact I | exact Tm].
  - intros o So. apply run_nil. rewrite app_nil_r. exact So.
Qed.

(** * KL_DEFER *)

Fixpoint dval (s : string) (a : nat) : nat :=
  match s with EmptyString => a | String c s' => dval s' (a * 10 + (nat_of_ascii c - 48)) end.

Lemma dval_decimal : forall f n acc, n < f -> dval (decimal_aux f n acc) 0 = dval acc n.
Proof.
  induction f as [|f IH]; intros n acc L; [lia|].
  pose proof (Nat.mod_upper_bound n 10 ltac:(discriminate)) as Mb. pose proof (Nat.div_mod n 10 ltac:(discriminate)) as Dm.
  assert (Ch : nat_of_ascii (ascii_of_nat (48 + n mod 10)) - 48 = n mod 10) by (rewrite nat_ascii_embedding by lia; lia).
  cbn [decimal_aux]. destruct (Nat.ltb n 10) eqn:B.
  - cbn [dval]. rewrite Ch. apply Nat.ltb_lt in B. rewrite Nat.mod_small by exact B. reflexivity.
  - apply Nat.ltb_ge in B. rewrite IH.
    + cbn [dval]. rewrite Ch. f_equal. lia.
    + apply Nat.lt_le_trans with n; [apply Nat.div_lt; lia | lia].
Qed.

Lemma decimal_inj : forall a b, decimal a = decimal b -> a = b.
Proof.
  intros a b H. unfold decimal in H. apply (f_equal (fun s => dval s 0)) in H.
  rewrite !dval_decimal in H by lia. exact H.
Qed.

Lemma append_inj : forall p a b, (p ++ a = p ++ b)%string -> a = b.
Proof. induction p as [|c p IH]; intros a b H; [exact H|]. injection H as H. apply IH, H. Qed.

Lemma defer_names_distinct : forall p a b, (p ++ decimal a = p ++ decimal b)%string -> a = b.
Proof. intros p a b H. apply decimal_inj, (append_inj p), H. Qed.

Lemma val_counter : forall E k h, assoc "__COUNTER__" (p_user E) = Some (Obj [Num k]) -> mem "__COUNTER__" h = false ->
  Val E [] [(Id "__COUNTER__", h)] [Num k].
Proof.
  intros E k h A M. eapply run_obj0; [exact M | exact A | reflexivity |]. cbn [rev app hsadd map fst snd or_tok as_param].
  apply run_keep; [exact I|]. apply run_nil. apply sim_cons; [exact I | apply sim_nil].
Qed.

Lemma val_concat : forall E w y h k, ordinary E -> lookup E w = None -> lookup E (w ++ decimal k) = None ->
  free F_concat h -> sim E [] y [Num k] ->
  Val E [] ((Id "KL_CONCAT", h) :: (LP, h) :: (Id w, h) :: (Comma, h) :: y ++ [(RP, h)]) [Id (w ++ decimal k)].
Proof.
  intros E w y h k O Lw Lk F Sy.
  assert (Qk : quiet E [Num k]) by apply quiet_num.
  assert (Ly : closed 0 (strip y) = true) by (rewrite (proj1 Sy); reflexivity).
  assert (FG : free [] h) by reflexivity.
  eapply (run_concat E []) with (x := w) (t := Num k);
    [fr | coll | fr | reflexivity | reflexivity | | exact Lw | apply qval; assumption | reflexivity | exact Qk | reflexivity |].
  - apply qval; [apply sim_cons; [left; exact Lw | apply sim_nil]|]. apply quiet_cons. split; [exact Lw | apply quiet_nil].
  - intros j. apply run_keep; [right; left; exact Lk|]. apply run_nil. apply sim_cons; [left; exact Lk | apply sim_nil].
Qed.

Lemma defer_expands : forall E k actions, ordinary E -> assoc "__COUNTER__" (p_user E) = Some (Obj [Num k]) ->
  lookup E ("kl_defer_func" ++ decimal k) = None -> lookup E ("kl_defer_instance" ++ decimal k) = None ->
  actions <> [] -> Forall (argument E) actions ->
  expands_to E (call "KL_DEFER" actions) (defer_code k (listed actions)).
Proof.
  intros E k actions O A Lf Li NE Ok. apply run_expands.
  assert (Cl : Forall shut actions) by (revert Ok; apply Forall_impl; intros a (_ & C & _); exact C).
  assert (Qu : Forall (quiet E) actions) by (revert Ok; apply Forall_impl; intros a (_ & _ & Q); exact Q).
  pose proof (quiet_listed _ _ Qu) as Ql.
  apply call_args; [exact NE | exact Cl |]. intros es Fa rest1 C.
  destruct (sim_list_quiet _ _ _ Fa Qu) as (xv & Xv & Uv).
  eapply run_fun with (ex := [xv]); [reflexivity | reflexivity | reflexivity | exact C | reflexivity | repeat constructor; assumption |].
  body h' Fr. do 10 (rewrite <- ?app_assoc; cbn [app]).
  assert (F0 : free (["KL_DEFER_INTERNAL2"; "KL_DEFER_INTERNAL1"; "__COUNTER__"] ++ F_concat)%list []) by reflexivity.
  assert (F' : free (["KL_DEFER_INTERNAL2"; "KL_DEFER_INTERNAL1"; "__COUNTER__"] ++ F_concat)%list h') by fr.
  assert (FG : free [] h') by reflexivity.
  assert (Tv : sim E [] (hsadd h' xv) (listed actions)) by (apply sim_hsadd; assumption).
  generalize dependent (hsadd h' xv). intros yv Tv.
  destruct (collect_listed E [] _ yv h' [] NE Cl Tv) as (ws & Cw & Fw & _).
  destruct (val_counter E k h' A ltac:(fr)) as (xk & Xk & Uk). destruct (sim_list_quiet _ _ _ Fw Qu) as (x2 & X2 & U2).
  eapply run_fun with (ex := [xk; x2]) (args := [(Id "__COUNTER__", h')] :: ws);
    [fr | reflexivity | reflexivity | cbn [collect rev app]; rewrite Cw; reflexivity | reflexivity | repeat constructor; assumption |].
  body h2 Fr2. do 10 (rewrite <- ?app_assoc; cbn [app]).
  assert (F2 : free (["KL_DEFER_INTERNAL1"] ++ F_concat)%list h2) by fr. assert (FG2 : free [] h2) by reflexivity.
  assert (Ck : shut [Num k]) by reflexivity.
  seg xk yk Tk Lk.
  assert (T2 : sim E [] (hsadd h2 x2) (listed actions)) by (apply sim_hsadd; assumption).
  generalize dependent (hsadd h2 x2). intros y2 T2.
  destruct (collect_listed E [] _ y2 h2 [] NE Cl T2) as (vs & Cv & Fv & _).
  assert (W1 : lookup E "kl_defer_func" = None) by (eapply word; [exact O | vm_compute; reflexivity]).
  assert (W2 : lookup E "kl_defer_instance" = None) by (eapply word; [exact O | vm_compute; reflexivity]).
  destruct (val_concat E "kl_defer_func" yk h2 k O W1 Lf ltac:(fr) Tk) as (z1 & Z1 & V1).
  destruct (val_concat E "kl_defer_instance" yk h2 k O W2 Li ltac:(fr) Tk) as (z2 & Z2 & V2).
  destruct (sim_list_quiet _ _ _ Fv Qu) as (z3 & Z3 & V3).
  eapply run_fun with (ex := [z1; z2; z3])
    (args := ((Id "KL_CONCAT", h2) :: (LP, h2) :: (Id "kl_defer_func", h2) :: (Comma, h2) :: yk ++ [(RP, h2)])%list
             :: ((Id "KL_CONCAT", h2) :: (LP, h2) :: (Id "kl_defer_instance", h2) :: (Comma, h2) :: yk ++ [(RP, h2)])%list :: vs);
    [fr | reflexivity | reflexivity | | reflexivity | |].
  { cbn [collect]. rewrite collect_seg by exact Lk. cbn [collect]. rewrite collect_seg by exact Lk. cbn [collect]. rewrite Cv.
    cbn [rev app]. rewrite ?rev_app_distr. cbn [rev app]. rewrite ?rev_involutive. rewrite <- ?app_assoc. cbn [app]. reflexivity. }
  { repeat constructor; assumption. }
  body h3 Fr3. do 10 (rewrite <- ?app_assoc; cbn [app]).
  assert (FG3 : free [] h3) by reflexivity.
  assert (Q1 : quiet E [Id ("kl_defer_func" ++ decimal k)]) by (apply quiet_cons; split; [exact Lf | apply quiet_nil]).
  assert (Q2 : quiet E [Id ("kl_defer_instance" ++ decimal k)]) by (apply quiet_cons; split; [exact Li | apply quiet_nil]).
  assert (T4 : sim E [] (hsadd h3 z1) [Id ("kl_defer_func" ++ decimal k)]) by (apply sim_hsadd; assumption).
  assert (T5 : sim E [] (hsadd h3 z2) [Id ("kl_defer_instance" ++ decimal k)]) by (apply sim_hsadd; assumption).
  assert (T6 : sim E [] (hsadd h3 z3) (listed actions)) by (apply sim_hsadd; assumption).
  generalize dependent (hsadd h3 z1). intros y4 T4. generalize dependent (hsadd h3 z2). intros y5 T5.
  generalize dependent (hsadd h3 z3). intros y6 T6.
  pose proof (quiet_strip _ _ _ _ T4 Q1) as K4. pose proof (quiet_strip _ _ _ _ T5 Q2) as K5. pose proof (quiet_strip _ _ _ _ T6 Ql) as K6.
  keeps. apply run_quiet; [exact K4|]. keeps. apply run_quiet; [exact K6|]. keeps. apply run_quiet; [exact K4|]. keeps.
  apply run_quiet; [exact K5|]. keeps. apply run_quiet; [exact K4|]. keeps. apply run_nil. strips. unfold defer_code. lexed.
Qed.
