(** The macros of reflect_struct.hpp that a program calls *)
From Coq Require Import String List Arith Bool Lia.
From Verif Require Import PpModel PpSpec PpProofs PpMacroProofs PpLoopProofs PpLoop2Proofs PpEnumProofs PpStructProofs.
Import ListNotations.
Local Open Scope list_scope.
Local Open Scope string_scope.

Lemma val_namespace : forall E h, ordinary E -> mem "KL_REFLECT_STRUCT_NAMESPACE_DECL" h = false ->
  Val E [] [(Id "KL_REFLECT_STRUCT_NAMESPACE_DECL", h)] at_namespace.
Proof.
  intros E h O M. eapply run_obj0; [exact M | reflexivity | reflexivity |]. cbn [rev app hsadd map fst snd].
  keeps. apply run_nil. split; [reflexivity|]. intros n k _ _. reflexivity.
Qed.

Lemma val_friend : forall E h, ordinary E -> mem "KL_REFLECT_STRUCT_FRIEND_DECL" h = false ->
  Val E [] [(Id "KL_REFLECT_STRUCT_FRIEND_DECL", h)] as_friend.
Proof.
  intros E h O M. eapply run_obj0; [exact M | reflexivity | reflexivity |]. cbn [rev app hsadd map fst snd].
  keeps. apply run_nil. split; [reflexivity|]. intros n k _ _. reflexivity.
Qed.

Lemma quiet_namespace : forall E, ordinary E -> quiet E at_namespace.
Proof.
  intros E O n H. vm_compute in H. repeat (destruct H as [H | H]; [try discriminate; injection H as <- | ]); [|contradiction].
  eapply word; [exact O | vm_compute; reflexivity].
Qed.

Lemma quiet_friend : forall E, ordinary E -> quiet E as_friend.
Proof.
  intros E O n H. vm_compute in H. repeat (destruct H as [H | H]; [try discriminate; injection H as <- | ]); [|contradiction].
  eapply word; [exact O | vm_compute; reflexivity].
Qed.

(** A call with a list of arguments inside another call. *)
Lemma collect_inner : forall m (y : list (tok * list string)) h' (rest cur : list (tok * list string)),
  closed 0 (strip ((LP, h') :: y ++ [(RP, h')])) = true ->
  collect 0 cur ((Id m, h') :: (LP, h') :: y ++ (RP, h') :: rest)
  = collect 0 (rev ((Id m, h') :: (LP, h') :: y ++ [(RP, h')]) ++ cur)%list rest.
Proof.
  intros m y h' rest cur L.
  replace ((LP, h') :: y ++ (RP, h') :: rest)%list with (((LP, h') :: y ++ [(RP, h')]) ++ rest)%list
    by (cbn [app]; rewrite <- app_assoc; reflexivity).
  change ((Id m, h') :: (LP, h') :: y ++ [(RP, h')])%list with ([(Id m, h')] ++ ((LP, h') :: y ++ [(RP, h')]))%list.
  remember ((LP, h') :: y ++ [(RP, h')])%list as z. cbn [collect]. rewrite collect_seg by exact L. rewrite rev_app_distr, <- app_assoc. reflexivity.
Qed.

Lemma collect_comma : forall h ts (cur : list (tok * list string)),
  collect 0 cur ((Comma, h) :: ts)
  = match collect 0 [] ts with Some (args, h1, rest) => Some (rev cur :: args, h1, rest) | None => None end.
Proof. reflexivity. Qed.

Lemma collect_end : forall h ts (cur : list (tok * list string)), collect 0 cur ((RP, h) :: ts) = Some ([rev cur], h, ts).
Proof. reflexivity. Qed.

Lemma closed_call : forall (y : list (tok * list string)) h', closed 0 (strip y) = true -> closed 0 (strip ((LP, h') :: y ++ [(RP, h')])) = true.
Proof.
  intros y h' L. cbn [strip map fst]. rewrite map_app. change (map fst y) with (strip y).
  apply (closed_paren [strip y]). repeat constructor. exact L.
Qed.

Lemma run_struct_tuple : forall E type  fs srcs h hl rest1 at_  af h1 rest2 P, ordinary E ->
  shut type -> quiet E type ->
  Forall (field_ok E) fs -> Forall2 field_source fs srcs -> fs <> [] -> length fs <= p_tuple E ->
  mem "KL_REFLECT_STRUCT_TUPLE" h = false -> collect 0 [] rest1 = Some ([at_;  af], h1, rest2) ->
  free ("KL_REFLECT_STRUCT_NAMESPACE_DECL" :: "KL_REFLECT_STRUCT_TUPLE_IMPL" :: F_plain) h1 -> Val E [] at_ type -> Val E [] af (paren srcs) ->
  (forall o, strip o = plain_struct_code at_namespace type  fs -> Run E rest2 (fun r => P (o ++ r)%list)) ->
  Run E ((Id "KL_REFLECT_STRUCT_TUPLE", h) :: (LP, hl) :: rest1) P.
Proof.
  intros E type  fs srcs h hl rest1 at_  af h1 rest2 P O Ct Qt  Ok Fs NE Le M C F (xt & Xt & St)  (xf & Xf & Sf) Kn.
  destruct (sources E fs srcs Ok Fs) as (Cv & Qv). pose proof (shut_paren _ Cv) as Cp. pose proof (quiet_paren _ _ Qv) as Qp.
  
  eapply run_fun with (ex := [xt;  xf]); [exact M | reflexivity | reflexivity | exact C | reflexivity | repeat constructor; assumption |].
  body h' Fr. do 8 (rewrite <- ?app_assoc; cbn [app]).
  assert (F' : free ("KL_REFLECT_STRUCT_NAMESPACE_DECL" :: "KL_REFLECT_STRUCT_TUPLE_IMPL" :: F_plain) h') by fr. assert (FG : free [] h') by reflexivity.
  seg xt yt Tt Lt1.  seg xf yf Tf Lf1.
  eapply run_plain with (decl := at_namespace) (type := type) (fs := fs) (srcs := srcs) ;
    [exact O | reflexivity | apply quiet_namespace, O | exact Ct | exact Qt |  exact Ok | exact Fs | exact NE | exact Le | fr | coll | fr
    | apply val_namespace; [exact O | fr] | apply qval; assumption |  apply qval; assumption | exact Kn].
Qed.

Lemma struct_expands : forall E type   fs srcs, ordinary E -> phrase E type ->
  Forall (field_ok E) fs -> Forall2 field_source fs srcs -> fs <> [] -> length fs <= p_tuple E ->
  expands_to E (call "KL_REFLECT_STRUCT" (type ::  srcs)) (plain_struct_code at_namespace type  fs).
Proof.
  intros E type   fs srcs O ((_ & Ct & Qt) & _)  Ok Fs NE Le. apply run_expands. change (shut type) in Ct.
  destruct (sources E fs srcs Ok Fs) as (Cv & Qv). 
  assert (NS : srcs <> []) by (inversion Fs; subst; [contradiction | discriminate]).
  apply call_args; [discriminate | repeat constructor; assumption |]. intros as_ Fa rest1 C.
  inversion Fa as [|an ? av0 ? Sn Fv0]; subst. rename av0 into av. rename Fv0 into Fv.
  destruct (qval _ _ _ _ Sn Qt) as (xn & Xn & Un). destruct (sim_list_quiet _ _ _ Fv Qv) as (xv & Xv & Uv).
  eapply run_fun with (ex := [xn;  xv]); [reflexivity | reflexivity | reflexivity | exact C | reflexivity | repeat constructor; assumption |].
  body h' Fr. do 10 (rewrite <- ?app_assoc; cbn [app]).
  assert (F0 : free ("KL_REFLECT_STRUCT_TUPLE" :: "KL_REFLECT_STRUCT_NAMESPACE_DECL" :: "KL_REFLECT_STRUCT_TUPLE_IMPL" :: F_to_tuple ++ F_to_tuple_va ++ F_plain)%list []) by reflexivity.
  assert (F' : free ("KL_REFLECT_STRUCT_TUPLE" :: "KL_REFLECT_STRUCT_NAMESPACE_DECL" :: "KL_REFLECT_STRUCT_TUPLE_IMPL" :: F_to_tuple ++ F_to_tuple_va ++ F_plain)%list h') by fr.
  assert (FG : free [] h') by reflexivity.
  seg xn yn Tn Lc. 
  assert (Tv : sim E [] (hsadd h' xv) (listed srcs)) by (apply sim_hsadd; assumption).
  generalize dependent (hsadd h' xv). intros yv Tv.
  destruct (collect_listed E [] _ yv h' [] NS Cv Tv) as (ws & Cw & Fw & _).
  assert (Lp : closed 0 (strip ((LP, h') :: yv ++ [(RP, h')])) = true).
  { cbn [strip map fst]. rewrite map_app. change (map fst yv) with (strip yv). rewrite (proj1 Tv). apply (shut_paren _ Cv). }
  assert (Ls : length srcs <= p_tuple E) by (rewrite <- (f2_length Fs); exact Le).
  eapply run_struct_tuple with (type := type) (fs := fs) (srcs := srcs) ;
    [exact O | exact Ct | exact Qt |  exact Ok | exact Fs | exact NE | exact Le | fr
    | rewrite collect_seg by exact Lc; rewrite collect_comma, collect_inner by exact Lp; rewrite collect_end, !app_nil_r, !rev_involutive; reflexivity | fr | apply qval; [exact Tn | exact Qt] |  | apply done_all].
  eapply (val_to_tuple E []); [fr | exact Cw | fr | fr | reflexivity | apply sim_list_quiet; assumption | exact NS | exact Cv | exact Qv | exact Ls].
Qed.

Lemma run_friend_tuple : forall E type  fs srcs h hl rest1 at_  af h1 rest2 P, ordinary E ->
  shut type -> quiet E type ->
  Forall (field_ok E) fs -> Forall2 field_source fs srcs -> fs <> [] -> length fs <= p_tuple E ->
  mem "KL_REFLECT_STRUCT_FRIEND_TUPLE" h = false -> collect 0 [] rest1 = Some ([at_;  af], h1, rest2) ->
  free ("KL_REFLECT_STRUCT_FRIEND_DECL" :: "KL_REFLECT_STRUCT_TUPLE_IMPL" :: F_plain) h1 -> Val E [] at_ type -> Val E [] af (paren srcs) ->
  (forall o, strip o = plain_struct_code as_friend type  fs -> Run E rest2 (fun r => P (o ++ r)%list)) ->
  Run E ((Id "KL_REFLECT_STRUCT_FRIEND_TUPLE", h) :: (LP, hl) :: rest1) P.
Proof.
  intros E type  fs srcs h hl rest1 at_  af h1 rest2 P O Ct Qt  Ok Fs NE Le M C F (xt & Xt & St)  (xf & Xf & Sf) Kn.
  destruct (sources E fs srcs Ok Fs) as (Cv & Qv). pose proof (shut_paren _ Cv) as Cp. pose proof (quiet_paren _ _ Qv) as Qp.
  
  eapply run_fun with (ex := [xt;  xf]); [exact M | reflexivity | reflexivity | exact C | reflexivity | repeat constructor; assumption |].
  body h' Fr. do 8 (rewrite <- ?app_assoc; cbn [app]).
  assert (F' : free ("KL_REFLECT_STRUCT_FRIEND_DECL" :: "KL_REFLECT_STRUCT_TUPLE_IMPL" :: F_plain) h') by fr. assert (FG : free [] h') by reflexivity.
  seg xt yt Tt Lt1.  seg xf yf Tf Lf1.
  eapply run_plain with (decl := as_friend) (type := type) (fs := fs) (srcs := srcs) ;
    [exact O | reflexivity | apply quiet_friend, O | exact Ct | exact Qt |  exact Ok | exact Fs | exact NE | exact Le | fr | coll | fr
    | apply val_friend; [exact O | fr] | apply qval; assumption |  apply qval; assumption | exact Kn].
Qed.

Lemma friend_expands : forall E type   fs srcs, ordinary E -> phrase E type ->
  Forall (field_ok E) fs -> Forall2 field_source fs srcs -> fs <> [] -> length fs <= p_tuple E ->
  expands_to E (call "KL_REFLECT_STRUCT_FRIEND" (type ::  srcs)) (plain_struct_code as_friend type  fs).
Proof.
  intros E type   fs srcs O ((_ & Ct & Qt) & _)  Ok Fs NE Le. apply run_expands. change (shut type) in Ct.
  destruct (sources E fs srcs Ok Fs) as (Cv & Qv). 
  assert (NS : srcs <> []) by (inversion Fs; subst; [contradiction | discriminate]).
  apply call_args; [discriminate | repeat constructor; assumption |]. intros as_ Fa rest1 C.
  inversion Fa as [|an ? av0 ? Sn Fv0]; subst. rename av0 into av. rename Fv0 into Fv.
  destruct (qval _ _ _ _ Sn Qt) as (xn & Xn & Un). destruct (sim_list_quiet _ _ _ Fv Qv) as (xv & Xv & Uv).
  eapply run_fun with (ex := [xn;  xv]); [reflexivity | reflexivity | reflexivity | exact C | reflexivity | repeat constructor; assumption |].
  body h' Fr. do 10 (rewrite <- ?app_assoc; cbn [app]).
  assert (F0 : free ("KL_REFLECT_STRUCT_FRIEND_TUPLE" :: "KL_REFLECT_STRUCT_FRIEND_DECL" :: "KL_REFLECT_STRUCT_TUPLE_IMPL" :: F_to_tuple ++ F_to_tuple_va ++ F_plain)%list []) by reflexivity.
  assert (F' : free ("KL_REFLECT_STRUCT_FRIEND_TUPLE" :: "KL_REFLECT_STRUCT_FRIEND_DECL" :: "KL_REFLECT_STRUCT_TUPLE_IMPL" :: F_to_tuple ++ F_to_tuple_va ++ F_plain)%list h') by fr.
  assert (FG : free [] h') by reflexivity.
  seg xn yn Tn Lc. 
  assert (Tv : sim E [] (hsadd h' xv) (listed srcs)) by (apply sim_hsadd; assumption).
  generalize dependent (hsadd h' xv). intros yv Tv.
  destruct (collect_listed E [] _ yv h' [] NS Cv Tv) as (ws & Cw & Fw & _).
  assert (Lp : closed 0 (strip ((LP, h') :: yv ++ [(RP, h')])) = true).
  { cbn [strip map fst]. rewrite map_app. change (map fst yv) with (strip yv). rewrite (proj1 Tv). apply (shut_paren _ Cv). }
  assert (Ls : length srcs <= p_tuple E) by (rewrite <- (f2_length Fs); exact Le).
  eapply run_friend_tuple with (type := type) (fs := fs) (srcs := srcs) ;
    [exact O | exact Ct | exact Qt |  exact Ok | exact Fs | exact NE | exact Le | fr
    | rewrite collect_seg by exact Lc; rewrite collect_comma, collect_inner by exact Lp; rewrite collect_end, !app_nil_r, !rev_involutive; reflexivity | fr | apply qval; [exact Tn | exact Qt] |  | apply done_all].
  eapply (val_to_tuple E []); [fr | exact Cw | fr | fr | reflexivity | apply sim_list_quiet; assumption | exact NS | exact Cv | exact Qv | exact Ls].
Qed.

Lemma bases_parts : forall E bs srcb, bases_source E bs srcb ->
  Forall shut bs /\ Forall (quiet E) bs /\ bs <> [] /\ shut srcb /\ quiet E srcb /\ (srcb = paren bs \/ bs = [srcb] /\ hd Comma srcb <> LP).
Proof.
  intros E bs srcb B. destruct B as [b ((_ & C & Q) & Hd) | bs NE F].
  - repeat split; auto. discriminate.
  - assert (C : Forall shut bs) by (revert F; apply Forall_impl; intros b (_ & C & _); exact C).
    assert (Q : Forall (quiet E) bs) by (revert F; apply Forall_impl; intros b (_ & _ & Q); exact Q).
    repeat split; auto; [apply shut_paren, C | apply quiet_paren, Q].
Qed.

Lemma run_derived_tuple : forall E type bs fs srcs h hl rest1 at_ ab af h1 rest2 P, ordinary E ->
  shut type -> quiet E type ->
  Forall shut bs -> Forall (quiet E) bs -> bs <> [] -> length bs <= p_tuple E ->
  Forall (field_ok E) fs -> Forall2 field_source fs srcs -> fs <> [] -> length fs <= p_tuple E ->
  mem "KL_REFLECT_STRUCT_DERIVED_TUPLE" h = false -> collect 0 [] rest1 = Some ([at_; ab; af], h1, rest2) ->
  free ("KL_REFLECT_STRUCT_NAMESPACE_DECL" :: "KL_REFLECT_STRUCT_DERIVED_TUPLE_IMPL" :: F_derived) h1 -> Val E [] at_ type -> Val E [] ab (paren bs) -> Val E [] af (paren srcs) ->
  (forall o, strip o = derived_struct_code at_namespace type bs fs -> Run E rest2 (fun r => P (o ++ r)%list)) ->
  Run E ((Id "KL_REFLECT_STRUCT_DERIVED_TUPLE", h) :: (LP, hl) :: rest1) P.
Proof.
  intros E type bs fs srcs h hl rest1 at_ ab af h1 rest2 P O Ct Qt Cb Qb NB LeB Ok Fs NE Le M C F (xt & Xt & St) (xb & Xb & Sb) (xf & Xf & Sf) Kn.
  destruct (sources E fs srcs Ok Fs) as (Cv & Qv). pose proof (shut_paren _ Cv) as Cp. pose proof (quiet_paren _ _ Qv) as Qp.
  pose proof (shut_paren _ Cb) as Cpb. pose proof (quiet_paren _ _ Qb) as Qpb.
  eapply run_fun with (ex := [xt; xb; xf]); [exact M | reflexivity | reflexivity | exact C | reflexivity | repeat constructor; assumption |].
  body h' Fr. do 8 (rewrite <- ?app_assoc; cbn [app]).
  assert (F' : free ("KL_REFLECT_STRUCT_NAMESPACE_DECL" :: "KL_REFLECT_STRUCT_DERIVED_TUPLE_IMPL" :: F_derived) h') by fr. assert (FG : free [] h') by reflexivity.
  seg xt yt Tt Lt1. seg xb yb Tb Lb1. seg xf yf Tf Lf1.
  eapply run_derived with (decl := at_namespace) (type := type) (fs := fs) (srcs := srcs) (bs := bs);
    [exact O | reflexivity | apply quiet_namespace, O | exact Ct | exact Qt | exact Cb | exact Qb | exact NB | exact LeB | exact Ok | exact Fs | exact NE | exact Le | fr | coll | fr
    | apply val_namespace; [exact O | fr] | apply qval; assumption | apply qval; [exact Tb | exact Qpb] | apply qval; assumption | exact Kn].
Qed.

Lemma derived_expands : forall E type bs srcb fs srcs, ordinary E -> phrase E type ->
  bases_source E bs srcb -> length bs <= p_tuple E ->
  Forall (field_ok E) fs -> Forall2 field_source fs srcs -> fs <> [] -> length fs <= p_tuple E ->
  expands_to E (call "KL_REFLECT_STRUCT_DERIVED" (type :: srcb :: srcs)) (derived_struct_code at_namespace type bs fs).
Proof.
  intros E type bs srcb fs srcs O ((_ & Ct & Qt) & _) Bs LeB Ok Fs NE Le. apply run_expands. change (shut type) in Ct.
  destruct (sources E fs srcs Ok Fs) as (Cv & Qv). destruct (bases_parts E bs srcb Bs) as (Cb & Qb & NB & Cbs & Qbs & Sh).
  assert (NS : srcs <> []) by (inversion Fs; subst; [contradiction | discriminate]).
  apply call_args; [discriminate | repeat constructor; assumption |]. intros as_ Fa rest1 C.
  inversion Fa as [|an ? av0 ? Sn Fv0]; subst. inversion Fv0 as [|ab ? av ? Sb0 Fv]; subst. destruct (qval _ _ _ _ Sb0 Qbs) as (xb & Xb & Sb).
  destruct (qval _ _ _ _ Sn Qt) as (xn & Xn & Un). destruct (sim_list_quiet _ _ _ Fv Qv) as (xv & Xv & Uv).
  eapply run_fun with (ex := [xn; xb; xv]); [reflexivity | reflexivity | reflexivity | exact C | reflexivity | repeat constructor; assumption |].
  body h' Fr. do 10 (rewrite <- ?app_assoc; cbn [app]).
  assert (F0 : free ("KL_REFLECT_STRUCT_DERIVED_TUPLE" :: "KL_REFLECT_STRUCT_NAMESPACE_DECL" :: "KL_REFLECT_STRUCT_DERIVED_TUPLE_IMPL" :: F_to_tuple ++ F_to_tuple_va ++ F_derived)%list []) by reflexivity.
  assert (F' : free ("KL_REFLECT_STRUCT_DERIVED_TUPLE" :: "KL_REFLECT_STRUCT_NAMESPACE_DECL" :: "KL_REFLECT_STRUCT_DERIVED_TUPLE_IMPL" :: F_to_tuple ++ F_to_tuple_va ++ F_derived)%list h') by fr.
  assert (FG : free [] h') by reflexivity.
  seg xn yn Tn Lc. seg xb yb Tb Lb1.
  assert (Tv : sim E [] (hsadd h' xv) (listed srcs)) by (apply sim_hsadd; assumption).
  generalize dependent (hsadd h' xv). intros yv Tv.
  destruct (collect_listed E [] _ yv h' [] NS Cv Tv) as (ws & Cw & Fw & _).
  assert (Lp : closed 0 (strip ((LP, h') :: yv ++ [(RP, h')])) = true).
  { cbn [strip map fst]. rewrite map_app. change (map fst yv) with (strip yv). rewrite (proj1 Tv). apply (shut_paren _ Cv). }
  assert (Ls : length srcs <= p_tuple E) by (rewrite <- (f2_length Fs); exact Le).
  eapply run_derived_tuple with (type := type) (fs := fs) (srcs := srcs) (bs := bs);
    [exact O | exact Ct | exact Qt | exact Cb | exact Qb | exact NB | exact LeB | exact Ok | exact Fs | exact NE | exact Le | fr
    | rewrite collect_seg by exact Lc; rewrite collect_comma, collect_inner by (apply closed_call; exact Lb1);
      rewrite collect_comma, collect_inner by exact Lp; rewrite collect_end, !app_nil_r, !rev_involutive; reflexivity | fr | apply qval; [exact Tn | exact Qt] | eapply (val_arg_to_tuple E []) with (v := srcb); [fr | coll | fr | fr | reflexivity | apply qval; [exact Tb | exact Qbs] | exact Sh | exact NB | exact Cb | exact Qb] |  | apply done_all].
  eapply (val_to_tuple E []); [fr | exact Cw | fr | fr | reflexivity | apply sim_list_quiet; assumption | exact NS | exact Cv | exact Qv | exact Ls].
Qed.

Lemma run_derived_friend_tuple : forall E type bs fs srcs h hl rest1 at_ ab af h1 rest2 P, ordinary E ->
  shut type -> quiet E type ->
  Forall shut bs -> Forall (quiet E) bs -> bs <> [] -> length bs <= p_tuple E ->
  Forall (field_ok E) fs -> Forall2 field_source fs srcs -> fs <> [] -> length fs <= p_tuple E ->
  mem "KL_REFLECT_STRUCT_DERIVED_FRIEND_TUPLE" h = false -> collect 0 [] rest1 = Some ([at_; ab; af], h1, rest2) ->
  free ("KL_REFLECT_STRUCT_FRIEND_DECL" :: "KL_REFLECT_STRUCT_DERIVED_TUPLE_IMPL" :: F_derived) h1 -> Val E [] at_ type -> Val E [] ab (paren bs) -> Val E [] af (paren srcs) ->
  (forall o, strip o = derived_struct_code as_friend type bs fs -> Run E rest2 (fun r => P (o ++ r)%list)) ->
  Run E ((Id "KL_REFLECT_STRUCT_DERIVED_FRIEND_TUPLE", h) :: (LP, hl) :: rest1) P.
Proof.
  intros E type bs fs srcs h hl rest1 at_ ab af h1 rest2 P O Ct Qt Cb Qb NB LeB Ok Fs NE Le M C F (xt & Xt & St) (xb & Xb & Sb) (xf & Xf & Sf) Kn.
  destruct (sources E fs srcs Ok Fs) as (Cv & Qv). pose proof (shut_paren _ Cv) as Cp. pose proof (quiet_paren _ _ Qv) as Qp.
  pose proof (shut_paren _ Cb) as Cpb. pose proof (quiet_paren _ _ Qb) as Qpb.
  eapply run_fun with (ex := [xt; xb; xf]); [exact M | reflexivity | reflexivity | exact C | reflexivity | repeat constructor; assumption |].
  body h' Fr. do 8 (rewrite <- ?app_assoc; cbn [app]).
  assert (F' : free ("KL_REFLECT_STRUCT_FRIEND_DECL" :: "KL_REFLECT_STRUCT_DERIVED_TUPLE_IMPL" :: F_derived) h') by fr. assert (FG : free [] h') by reflexivity.
  seg xt yt Tt Lt1. seg xb yb Tb Lb1. seg xf yf Tf Lf1.
  eapply run_derived with (decl := as_friend) (type := type) (fs := fs) (srcs := srcs) (bs := bs);
    [exact O | reflexivity | apply quiet_friend, O | exact Ct | exact Qt | exact Cb | exact Qb | exact NB | exact LeB | exact Ok | exact Fs | exact NE | exact Le | fr | coll | fr
    | apply val_friend; [exact O | fr] | apply qval; assumption | apply qval; [exact Tb | exact Qpb] | apply qval; assumption | exact Kn].
Qed.

Lemma derived_friend_expands : forall E type bs srcb fs srcs, ordinary E -> phrase E type ->
  bases_source E bs srcb -> length bs <= p_tuple E ->
  Forall (field_ok E) fs -> Forall2 field_source fs srcs -> fs <> [] -> length fs <= p_tuple E ->
  expands_to E (call "KL_REFLECT_STRUCT_DERIVED_FRIEND" (type :: srcb :: srcs)) (derived_struct_code as_friend type bs fs).
Proof.
  intros E type bs srcb fs srcs O ((_ & Ct & Qt) & _) Bs LeB Ok Fs NE Le. apply run_expands. change (shut type) in Ct.
  destruct (sources E fs srcs Ok Fs) as (Cv & Qv). destruct (bases_parts E bs srcb Bs) as (Cb & Qb & NB & Cbs & Qbs & Sh).
  assert (NS : srcs <> []) by (inversion Fs; subst; [contradiction | discriminate]).
  apply call_args; [discriminate | repeat constructor; assumption |]. intros as_ Fa rest1 C.
  inversion Fa as [|an ? av0 ? Sn Fv0]; subst. inversion Fv0 as [|ab ? av ? Sb0 Fv]; subst. destruct (qval _ _ _ _ Sb0 Qbs) as (xb & Xb & Sb).
  destruct (qval _ _ _ _ Sn Qt) as (xn & Xn & Un). destruct (sim_list_quiet _ _ _ Fv Qv) as (xv & Xv & Uv).
  eapply run_fun with (ex := [xn; xb; xv]); [reflexivity | reflexivity | reflexivity | exact C | reflexivity | repeat constructor; assumption |].
  body h' Fr. do 10 (rewrite <- ?app_assoc; cbn [app]).
  assert (F0 : free ("KL_REFLECT_STRUCT_DERIVED_FRIEND_TUPLE" :: "KL_REFLECT_STRUCT_FRIEND_DECL" :: "KL_REFLECT_STRUCT_DERIVED_TUPLE_IMPL" :: F_to_tuple ++ F_to_tuple_va ++ F_derived)%list []) by reflexivity.
  assert (F' : free ("KL_REFLECT_STRUCT_DERIVED_FRIEND_TUPLE" :: "KL_REFLECT_STRUCT_FRIEND_DECL" :: "KL_REFLECT_STRUCT_DERIVED_TUPLE_IMPL" :: F_to_tuple ++ F_to_tuple_va ++ F_derived)%list h') by fr.
  assert (FG : free [] h') by reflexivity.
  seg xn yn Tn Lc. seg xb yb Tb Lb1.
  assert (Tv : sim E [] (hsadd h' xv) (listed srcs)) by (apply sim_hsadd; assumption).
  generalize dependent (hsadd h' xv). intros yv Tv.
  destruct (collect_listed E [] _ yv h' [] NS Cv Tv) as (ws & Cw & Fw & _).
  assert (Lp : closed 0 (strip ((LP, h') :: yv ++ [(RP, h')])) = true).
  { cbn [strip map fst]. rewrite map_app. change (map fst yv) with (strip yv). rewrite (proj1 Tv). apply (shut_paren _ Cv). }
  assert (Ls : length srcs <= p_tuple E) by (rewrite <- (f2_length Fs); exact Le).
  eapply run_derived_friend_tuple with (type := type) (fs := fs) (srcs := srcs) (bs := bs);
    [exact O | exact Ct | exact Qt | exact Cb | exact Qb | exact NB | exact LeB | exact Ok | exact Fs | exact NE | exact Le | fr
    | rewrite collect_seg by exact Lc; rewrite collect_comma, collect_inner by (apply closed_call; exact Lb1);
      rewrite collect_comma, collect_inner by exact Lp; rewrite collect_end, !app_nil_r, !rev_involutive; reflexivity | fr | apply qval; [exact Tn | exact Qt] | eapply (val_arg_to_tuple E []) with (v := srcb); [fr | coll | fr | fr | reflexivity | apply qval; [exact Tb | exact Qbs] | exact Sh | exact NB | exact Cb | exact Qb] |  | apply done_all].
  eapply (val_to_tuple E []); [fr | exact Cw | fr | fr | reflexivity | apply sim_list_quiet; assumption | exact NS | exact Cv | exact Qv | exact Ls].
Qed.
