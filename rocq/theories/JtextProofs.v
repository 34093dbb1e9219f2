(** Dumping a value, parsing the text and reading the value back. *)
From Coq Require Import String List NArith ZArith Arith Bool Lia.
From Verif Require Import Base ScalarModel ScalarSpec ScalarProofs EnumModel EnumSpec SerialModel SerialSpec SerialBaseProofs SerialTypeProofs SerialKeyProofs SerialDumpProofs SerialRoundProofs SerialTextProofs
  JtextModel JtextSpec JtextNumProofs JtextStringProofs JtextReadProofs JtextWriteProofs JtextUtf8Proofs.
Import ListNotations.
Local Open Scope list_scope.
Local Open Scope N_scope.

Local Notation str := (list N) (only parsing).

(* ------------------------------------------------------------------ integers *)

Definition ints_held : json -> Prop := throughout held (fun _ => True) (fun _ => True).
Lemma held_arr js : ints_held (JArr js) <-> all1 ints_held js.
Proof. unfold ints_held. cbn [throughout]. induction js as [|x js IH]; cbn; [tauto|]. rewrite IH. tauto. Qed.
Lemma held_obj ms : ints_held (JObj ms) <-> all1 (fun m => ints_held (snd m)) ms.
Proof. unfold ints_held. cbn [throughout]. induction ms as [|x js IH]; cbn; [tauto|]. rewrite IH. tauto. Qed.

Lemma of_type_held it z : int_type it -> of_type it z -> held z.
Proof.
  unfold int_type, of_type, held, ity_min, ity_max. intros H. cbn in H. destruct it as [sg b]. cbn [ibits isigned] in *.
  repeat destruct H as [<-|H]; [..|contradiction]; destruct sg; cbn; lia.
Qed.

Lemma ser_held fp skip t : wf t -> forall flat v j, typed t v -> ser (Json fp) skip t flat v = Ok j -> ints_held j.
Proof.
  induction t as [ |it| | | |t IH|t IH|n t IH|t IH|ts IH|e|e|fs IH] using ty_ind1; intros Hw flat v j Hv H;
    destruct v as [b|z|b|b|s| |v|vs|m|vs]; cbn [typed] in Hv; try contradiction; cbn [ser] in H;
    try (injection H as <-; exact I).
  - injection H as <-. cbn. eapply of_type_held; eauto.
  - exact (IH Hw None v j Hv H).
  - apply omap_ok in H. destruct H as (js & H & ->). apply mapm_ok in H. apply held_arr. rewrite all1_Forall in *.
    induction H; [constructor|]. inversion Hv; subst. constructor; [|auto]. eapply (IH Hw None); eassumption.
  - apply omap_ok in H. destruct H as (js & H & ->). apply mapm_ok in H. destruct Hv as [_ Hv]. apply held_arr. rewrite all1_Forall in *.
    induction H; [constructor|]. inversion Hv; subst. constructor; [|auto]. eapply (IH Hw None); eassumption.
  - apply omap_ok in H. destruct H as (ms & H & ->). apply map_members_keys in H. destruct H as [H1 H2].
    apply held_obj. apply all1_in. intros [k j] Hin. destruct (H1 _ _ Hin) as (w & Hw' & E).
    cbn [snd]. apply (IH Hw None w j); [|exact E]. exact (proj1 (all1_in _ _) (proj2 Hv) _ Hw').
  - apply omap_ok in H. destruct H as (js & H & ->). apply held_arr. cbn [wf] in Hw. revert vs js Hv H.
    induction ts as [|t ts IHts]; intros [|v vs] js Hv H; cbn in Hv; try contradiction.
    + injection H as <-. exact I.
    + apply ser_tuple_cons in H. destruct H as (j & js' & Hj & Hjs & ->). inversion IH; subst. cbn [all1]. split.
      * apply (H1 (proj1 Hw) None v j); tauto.
      * eapply IHts; [assumption|apply Hw|apply Hv|exact Hjs].
  - apply omap_ok in H. destruct H as (s & _ & ->). exact I.
  - apply omap_ok in H. destruct H as (js & H & ->). apply mapm_ok in H. apply held_arr. apply all1_Forall.
    induction H; constructor; [|assumption]. apply omap_ok in H. destruct H as (s & _ & ->). exact I.
  - destruct Hw as (Hw & Ho & Hser & _).
    assert (Hnm : exists names, match flat with Some ns => names = ns | None => reserved_field_names fs = Ok names end).
    { apply obind_ok in H. destruct H as (ns & Hns & _). exists ns. destruct flat; congruence. }
    destruct Hnm as (names & Hnm). destruct (ser_rec (Json fp) skip names fs vs flat j H Hnm) as (ms & -> & Hms).
    apply held_obj. clear H Hnm Hser. revert vs ms Hv Hms. induction fs as [|[a t] fs IHfs]; intros vs ms Hv Hms.
    + apply ser_fields_nil in Hms. destruct Hms as [-> ->]. exact I.
    + destruct vs as [|v vs]; [destruct Hv|]. apply ser_fields_cons in Hms. destruct Hms as (ms1 & ms2 & H1 & H2 & ->).
      inversion IH as [|? ? IHt IHr]; subst. destruct Hw as [Hwt Hwr]. destruct Ho as [Hot Hor]. destruct Hv as [Hvt Hvr].
      cbn [snd] in *. apply all1_app. split; [|eapply IHfs; eassumption].
      unfold field_members in H1. destruct (omitted skip a v); [injection H1 as <-; exact I|].
      destruct (a_extra a).
      * destruct t as [ |it| | | |t|t|n t|te|ts|e|e|gs]; try discriminate.
        destruct v as [b|z|b|b|s| |v|us|m|us]; try discriminate.
        apply extra_members_map in H1. destruct H1 as [_ H1]. apply map_members_keys in H1. destruct H1 as [H1 _].
        apply all1_in. intros [k j] Hin. destruct (H1 _ _ Hin) as (w & Hw' & E). cbn [snd].
        apply (proj2 IHt te eq_refl Hwt None w j); [|exact E]. exact (proj1 (all1_in _ _) (proj2 Hvt) _ Hw').
      * destruct (a_flatten a).
        -- destruct t as [ |it| | | |t|t|n t|te|ts|e|e|gs]; try discriminate.
           apply obind_ok in H1. destruct H1 as (j & Hj & Hm). destruct j; try discriminate. injection Hm as <-.
           apply held_obj. exact (proj1 IHt Hwt (Some names) v _ Hvt Hj).
        -- apply obind_ok in H1. destruct H1 as (j & Hj & [= <-]). cbn [all1 snd]. split; [|exact I].
           exact (proj1 IHt Hwt None v _ Hvt Hj).
Qed.
Lemma serialized_held fp skip t v j : wf t -> typed t v -> serialize (Json fp) skip t v = Ok j ->
  throughout held (fun _ => True) (fun _ => True) j.
Proof. intros. eapply ser_held; eauto. Qed.

Lemma throughout_and i i' d d' q q' j : throughout i d q j -> throughout i' d' q' j ->
  throughout (fun z => i z /\ i' z) (fun z => d z /\ d' z) (fun z => q z /\ q' z) j.
Proof.
  induction j as [|b|z|b|s|js IH|ms IH] using json_ind0; cbn [throughout]; auto.
  - induction IH as [|x l Hx Hl IHl]; cbn; tauto.
  - induction IH as [|x l Hx Hl IHl]; cbn; tauto.
Qed.
Lemma throughout_mono (i i' : Z -> Prop) (d d' : N -> Prop) (q q' : str -> Prop) j : (forall z, i z -> i' z) -> (forall z, d z -> d' z) -> (forall z, q z -> q' z) ->
  throughout i d q j -> throughout i' d' q' j.
Proof.
  intros Hi Hd Hq. induction j as [|b|z|b|s|js IH|ms IH] using json_ind0; cbn [throughout]; auto.
  - induction IH as [|x l Hx Hl IHl]; cbn; intuition.
  - induction IH as [|x l Hx Hl IHl]; cbn; intuition.
Qed.

(* ------------------------------------------------------------------ layout *)

Lemma escapes_not c e : In (c, e) escapes -> In c [34; 92; 8; 12; 10; 13; 9].
Proof. cbn. intros H. repeat destruct H as [[= <- <-]|H]; tauto. Qed.
Lemma escaped_written c : written_char c (escaped c).
Proof.
  unfold written_char, escaped.
  destruct (N.eqb_spec c 34) as [->|?]; [left; exists 34; cbn; auto|].
  destruct (N.eqb_spec c 92) as [->|?]; [left; exists 92; cbn; tauto|].
  destruct (N.eqb_spec c 8) as [->|?]; [left; exists 98; cbn; tauto|].
  destruct (N.eqb_spec c 9) as [->|?]; [left; exists 116; cbn; tauto|].
  destruct (N.eqb_spec c 10) as [->|?]; [left; exists 110; cbn; tauto|].
  destruct (N.eqb_spec c 12) as [->|?]; [left; exists 102; cbn; tauto|].
  destruct (N.eqb_spec c 13) as [->|?]; [left; exists 114; cbn; tauto|].
  assert (forall e, ~ In (c, e) escapes) as Hn by (intros e He; apply escapes_not in He; cbn in He; lia).
  destruct (N.ltb_spec c 32); [|right; right; auto]. right; left. split; [auto|]. split; [auto|].
  exists [48; 48; hex_digit (c / 16); hex_digit (c mod 16)]. split; [reflexivity|].
  assert (c / 16 < 16) by (apply N.div_lt_upper_bound; lia). assert (c mod 16 < 16) by (apply N.mod_lt; lia).
  assert (forall x, x < 16 -> hex_digit x < 97) as Hd by (intros x Hx; unfold hex_digit; destruct (N.ltb_spec x 10); lia).
  split; [|repeat (apply Forall_cons; [auto; lia|]); apply Forall_nil].
  split; [reflexivity|]. split; [discriminate|]. exists [0; 0; c / 16; c mod 16].
  split; [repeat (apply Forall2_cons; [try (left; lia); apply hex_digit_spells; lia|]); apply Forall2_nil|].
  split; [repeat (apply Forall_cons; [lia|]); apply Forall_nil|]. cbn [weighs length N.of_nat]. pose proof (N.div_mod c 16). cbn. lia.
Qed.

Section L.
Variable dc : dconv.
Variable p : bool.
Notation lay := (layout (dtoa dc) p).

Lemma nl_is d : nl p d = (if p then 10 :: repeat 32 (4 * d) else []).
Proof. reflexivity. Qed.

Lemma quoted_lay d s : lay d (JStr s) (quoted s).
Proof.
  unfold layout, quoted. rewrite flat_map_concat_map. constructor. induction s as [|c s IH]; cbn [map]; constructor; auto. apply escaped_written.
Qed.
Lemma arr_join d f js : js <> [] -> forall n, go_arr p d f n js = (if Nat.eqb n 0 then [] else [44]) ++ nl p d ++ join (44 :: nl p d) (map f js).
Proof.
  induction js as [|y js IH]; intros Hne n; [contradiction|]. cbn [go_arr]. rewrite arr_sep, <- !app_assoc. do 2 f_equal.
  destruct js as [|y' js]; [cbn; now rewrite app_nil_r|]. rewrite IH by discriminate. reflexivity.
Qed.
Lemma obj_join d f (ms : list (str * json)) : ms <> [] -> forall n, Nat.even n = true -> go_obj p d f n ms =
  (if Nat.eqb n 0 then [] else [44]) ++ nl p d ++ join (44 :: nl p d) (map (fun m => quoted (fst m) ++ 58 :: (if p then [32] else []) ++ f (snd m)) ms).
Proof.
  induction ms as [|y ms IH]; intros Hne n Hn; [contradiction|]. cbn [go_obj]. rewrite obj_sep_even, obj_sep_odd by auto using even_S. rewrite <- !app_assoc. do 2 f_equal.
  destruct ms as [|y' ms]; [cbn [go_obj map join]; now rewrite app_nil_r|]. rewrite IH by (discriminate || (now rewrite Nat.even_succ_succ)).
  cbn [map join Nat.eqb]. repeat (rewrite <- ?app_assoc; cbn [app]). reflexivity.
Qed.

Lemma render_lay j : forall d, lay d j (render dc p d j).
Proof.
  induction j as [|b|z|b|s|js IH|ms IH] using json_ind0; intros d; cbn [render].
  - constructor.
  - destruct b; constructor.
  - constructor. now apply int_text_decimal.
  - constructor.
  - apply quoted_lay.
  - destruct js as [|y js]; [constructor|]. rewrite arr_join by discriminate. cbn [Nat.eqb app]. rewrite <- !app_assoc.
    refine (L_arr _ _ _ d (y :: js) (map (render dc p (S d)) (y :: js)) _ _); [discriminate|].
    clear -IH. induction IH as [|x l Hx Hl IHl]; cbn [map]; constructor; auto. apply Hx.
  - destruct ms as [|y ms]; [constructor|]. rewrite obj_join by (discriminate || reflexivity). cbn [Nat.eqb app]. rewrite <- !app_assoc.
    refine (L_obj _ _ _ d (y :: ms) (map (fun m => quoted (fst m) ++ 58 :: (if p then [32] else []) ++ render dc p (S d) (snd m)) (y :: ms)) _ _); [discriminate|].
    clear -IH. induction IH as [|x l Hx Hl IHl]; cbn [map]; constructor; auto. exists (quoted (fst x)), (render dc p (S d) (snd x)).
    split; [apply quoted_lay|]. split; [apply Hx|reflexivity].
Qed.

(* ------------------------------------------------------------------ dump *)

Variable fp : fpconv.

Lemma dump_renders t v j : serialize (Json fp) true t v = Ok j -> storable dc j -> dump_text dc fp p t v = Ok (render dc p 0 j).
Proof.
  intros E Hs. pose proof (dump_lemma (Json fp) true t v) as D. rewrite E in D. unfold dump_text. rewrite D.
  destruct (writer_text dc p j Hs) as (w & -> & _ & Ec). cbn [obind]. now rewrite Ec.
Qed.

Lemma dump_means t v j : wf t -> typed t v -> serialize (Json fp) true t v = Ok j ->
  throughout (fun _ => True) (kept_by dc) short j ->
  exists s, dump_text dc fp p t v = Ok s /\ denotes (strtod dc) j s /\ lay 0%nat j s.
Proof.
  intros Hw Ht E Hj. assert (storable dc j) as Hs.
  { pose proof (throughout_and _ _ _ _ _ _ _ Hj (serialized_held _ _ _ _ _ Hw Ht E)) as H. unfold storable. eapply throughout_mono; [| | |exact H]; cbn; tauto. }
  exists (render dc p 0 j). split; [now apply dump_renders|]. split; [now apply render_means|apply render_lay].
Qed.

Lemma dump_utf8 t v j s : wf t -> typed t v -> serialize (Json fp) true t v = Ok j ->
  throughout (fun _ => True) (kept_by dc) (fun x => short x /\ utf8 x) j -> dump_text dc fp p t v = Ok s -> utf8 s.
Proof.
  intros Hw Ht E Hj Ed. assert (storable dc j) as Hs.
  { pose proof (throughout_and _ _ _ _ _ _ _ Hj (serialized_held _ _ _ _ _ Hw Ht E)) as H. unfold storable. eapply throughout_mono; [| | |exact H]; cbn; tauto. }
  rewrite (dump_renders _ _ _ E Hs) in Ed. injection Ed as <-. apply render_utf8; auto. unfold all_utf8. eapply throughout_mono; [| | |exact Hj]; cbn; tauto.
Qed.

Lemma text_round t v w j s : wf t -> typed t v -> rt (Json fp) true t v w -> serialize (Json fp) true t v = Ok j ->
  throughout (fun _ => True) (kept_by dc) short j -> dump_text dc fp p t v = Ok s ->
  exists j', parse dc s = Ok j' /\ deser (Json fp) t j' w = (v, None).
Proof.
  intros Hw Ht Hr E Hj Ed. destruct (dump_means _ _ _ Hw Ht E Hj) as (s' & E' & Hd & _). rewrite E' in Ed. injection Ed as ->.
  exists j. split; [|eapply round_trip_lemma; eauto]. apply document_parses. now apply denotes_document.
Qed.
End L.

(** Plain texts. *)
Lemma parse_plain dc t j : ~ In 0 t -> peek t <> 239 -> peek t <> 187 -> peek t <> 191 -> parse dc t = Ok j <-> document (strtod dc) j t.
Proof.
  intros H0 H1 H2 H3. split; [|apply document_parses]. rewrite parse_iff. intros (b & s & r & -> & Hb & Hs & Hr).
  assert (r = []) as -> by (destruct Hr as [|[r' ->]]; [auto|]; exfalso; apply H0; rewrite !in_app_iff; right; right; now left).
  assert (b = []) as ->; [|now rewrite app_nil_r].
  destruct Hb as (x & y & z & -> & [-> | ->] & [-> | ->] & [-> | ->]); cbn in *; congruence.
Qed.
