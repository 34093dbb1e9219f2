(** The writer writes a text that means the document, compact or indented. *)
From Coq Require Import String List NArith ZArith Arith Bool Lia.
From Verif Require Import Base ScalarModel ScalarSpec ScalarProofs SerialModel SerialTextProofs JtextModel JtextSpec JtextNumProofs JtextStringProofs JtextReadProofs.
Import ListNotations.
Local Open Scope list_scope.
Local Open Scope N_scope.

Local Notation str := (list N) (only parsing).

(* ------------------------------------------------------------------ leaves *)

Lemma hex_digit_spells n : n < 16 -> spells (hex_digit n) n.
Proof. intros H. unfold hex_digit, spells. destruct (N.ltb_spec n 10); [left|right]; lia. Qed.

Lemma escaped_reads c m t : characters m t -> characters (c :: m) (escaped c ++ t).
Proof.
  intros H. unfold escaped.
  destruct (N.eqb_spec c 34) as [->|H34]; [apply (C_escape 34 34); cbn; auto|].
  destruct (N.eqb_spec c 92) as [->|H92]; [apply (C_escape 92 92); cbn; auto|].
  destruct (N.eqb_spec c 8) as [->|]; [apply (C_escape 8 98); cbn; tauto|].
  destruct (N.eqb_spec c 9) as [->|]; [apply (C_escape 9 116); cbn; tauto|].
  destruct (N.eqb_spec c 10) as [->|]; [apply (C_escape 10 110); cbn; tauto|].
  destruct (N.eqb_spec c 12) as [->|]; [apply (C_escape 12 102); cbn; tauto|].
  destruct (N.eqb_spec c 13) as [->|]; [apply (C_escape 13 114); cbn; tauto|].
  destruct (N.ltb_spec c 32); [|now apply C_plain].
  apply (C_code c [48; 48; hex_digit (c / 16); hex_digit (c mod 16)] [c]); auto; [|unfold surrogate; lia|left; split; [lia|reflexivity]].
  split; [reflexivity|]. split; [discriminate|]. exists [0; 0; c / 16; c mod 16].
  assert (c / 16 < 16) by (apply N.div_lt_upper_bound; lia). assert (c mod 16 < 16) by (apply N.mod_lt; lia).
  split; [repeat (apply Forall2_cons; [try (left; lia); apply hex_digit_spells; lia|]); apply Forall2_nil|].
  split; [repeat (apply Forall_cons; [lia|]); apply Forall_nil|]. cbn [weighs length N.of_nat]. pose proof (N.div_mod c 16). cbn. lia.
Qed.
Lemma flat_reads s : characters s (flat_map escaped s).
Proof. induction s as [|c s IH]; [constructor|]. cbn [flat_map]. now apply escaped_reads. Qed.
Lemma quoted_reads s : string_of s (quoted s).
Proof. exists (flat_map escaped s). split; [reflexivity|apply flat_reads]. Qed.

Lemma int_text_whole z : whole (int_text z) z.
Proof.
  destruct (proj2 (int_text_decimal z (int_text z)) eq_refl) as (body & E & Hn & Hl). exists body, (Z.abs_N z). split; [auto|]. split; [auto|].
  rewrite E. destruct (Z.ltb_spec z 0); [right|left]; split; auto; lia.
Qed.

Lemma nan_or_inf_finite b : nan_or_inf b = false <-> finite b.
Proof.
  unfold nan_or_inf, finite. rewrite N.shiftr_div_pow2. change 2047 with (N.ones 11) at 1. rewrite N.land_ones. apply N.eqb_neq.
Qed.

Lemma short_calls p s w : short s -> string_call p s w = obind (prefix p true w) (fun w => Ok (put w (quoted s))).
Proof.
  unfold short, string_call, size_type. intros H. rewrite N.mod_small by lia. destruct (N.leb_spec 4294967296 (2 + N.of_nat (length s) * 6)); [lia|].
  rewrite Nat2N.id, firstn_all. reflexivity.
Qed.

(* ------------------------------------------------------------------ the text *)

Section W.
Variable dc : dconv.
Variable p : bool.
Notation R := (strtod dc).

Definition nl (d : nat) : str := if p then 10 :: indent d else [].

Definition go_arr (d : nat) (f : json -> str) :=
  fix go (n : nat) (js : list json) : str :=
    match js with [] => [] | y :: js' => separator p (mklevel true n) d ++ f y ++ go (S n) js' end.
Definition go_obj (d : nat) (f : json -> str) :=
  fix go (n : nat) (ms : list (str * json)) : str :=
    match ms with
    | [] => []
    | m :: ms' => separator p (mklevel false n) d ++ quoted (fst m) ++ separator p (mklevel false (S n)) d ++ f (snd m) ++ go (S (S n)) ms'
    end.
Fixpoint render (d : nat) (j : json) : str :=
  match j with
  | JNull => [110; 117; 108; 108]
  | JBool true => [116; 114; 117; 101]
  | JBool false => [102; 97; 108; 115; 101]
  | JInt z => int_text z
  | JDbl b => dtoa dc b
  | JStr s => quoted s
  | JArr js => 91 :: go_arr (S d) (render (S d)) 0 js ++ (match js with [] => [] | _ => nl d end) ++ [93]
  | JObj ms => 123 :: go_obj (S d) (render (S d)) 0 ms ++ (match ms with [] => [] | _ => nl d end) ++ [125]
  end.

Lemma prefix_string w w0 : prefix p false w = Ok w0 -> prefix p true w = Ok w0.
Proof.
  unfold prefix. destruct (w_levels w) as [|l ls]; [auto|]. destruct (negb (in_array l) && Nat.even (values_in l)); cbn; [discriminate|auto].
Qed.
Lemma prefix_levels b w w0 : prefix p b w = Ok w0 -> length (w_levels w0) = length (w_levels w).
Proof.
  unfold prefix. destruct (w_levels w) as [|l ls] eqn:E; [destruct (w_root w); [discriminate|intros [= <-]; reflexivity]|].
  destruct (negb (in_array l) && Nat.even (values_in l) && negb b); [discriminate|]. intros [= <-]. reflexivity.
Qed.

Lemma calls_app w es es' : calls dc p w (es ++ es') = obind (calls dc p w es) (fun w => calls dc p w es').
Proof. revert w. induction es as [|e es IH]; intros w; [reflexivity|]. cbn [app calls]. destruct (call dc p w e); cbn; auto. Qed.

Definition writes (j : json) : Prop := forall w w0, prefix p false w = Ok w0 -> calls dc p w (accept j) = Ok (put w0 (render (length (w_levels w)) j)).

Lemma arr_loop d js : Forall writes js -> forall out n ls root, length ls = d ->
  calls dc p (mkwriter out (mklevel true n :: ls) root) (flat_map accept js) =
  Ok (mkwriter (out ++ go_arr (S d) (render (S d)) n js) (mklevel true (n + length js) :: ls) root).
Proof.
  induction 1 as [|y js Hy Hjs IH]; intros out n ls root Hd.
  - cbn. now rewrite app_nil_r, Nat.add_0_r.
  - cbn [flat_map]. rewrite calls_app. erewrite Hy by reflexivity. cbn [obind w_out w_levels w_root length]. unfold put. cbn [w_out w_levels w_root].
    rewrite Hd. cbn [in_array values_in]. rewrite IH by auto. cbn [go_arr length]. rewrite <- !app_assoc, Nat.add_succ_r. reflexivity.
Qed.

Lemma even_S n : Nat.even n = true -> Nat.even (S n) = false.
Proof. intros H. now rewrite Nat.even_succ, <- Nat.negb_even, H. Qed.

Lemma obj_loop d ms : Forall (fun m => writes (snd m)) ms -> Forall (fun m => short (fst m)) ms -> forall out n ls root, length ls = d -> Nat.even n = true ->
  calls dc p (mkwriter out (mklevel false n :: ls) root) (flat_map (fun m => EvKey (fst m) :: accept (snd m)) ms) =
  Ok (mkwriter (out ++ go_obj (S d) (render (S d)) n ms) (mklevel false (n + 2 * length ms) :: ls) root).
Proof.
  induction 1 as [|[k y] ms Hy Hms IH]; intros Hk out n ls root Hd He.
  - cbn. now rewrite app_nil_r, Nat.add_0_r.
  - inversion Hk as [|? ? K1 K2]; subst. cbn [flat_map fst snd app]. cbn [fst snd] in *. cbn [calls call]. rewrite short_calls by auto.
    unfold prefix at 1. cbn [w_levels in_array values_in negb andb w_out w_root]. rewrite He. cbn [andb negb obind]. rewrite calls_app. pose proof (even_S _ He) as Ho.
    erewrite Hy; [|unfold prefix, put; cbn [w_levels in_array values_in negb andb w_out w_root]; rewrite Ho; cbn [andb]; reflexivity].
    unfold put. cbn [obind w_out w_levels w_root length in_array values_in]. rewrite IH by auto.
    cbn [go_obj length fst snd]. rewrite <- !app_assoc.
    replace (n + 2 * S (length ms))%nat with (S (S n) + 2 * length ms)%nat by lia. reflexivity.
Qed.

Lemma write_all j : storable dc j -> writes j.
Proof.
  induction j as [|b|z|b|s|js IH|ms IH] using json_ind0; intros Hs w w0 Hp; cbn [accept calls call render].
  - now rewrite Hp.
  - destruct b; now rewrite Hp.
  - now rewrite Hp.
  - cbn in Hs. destruct Hs as [Hf _]. apply nan_or_inf_finite in Hf. rewrite Hp. cbn [obind]. now rewrite Hf.
  - rewrite short_calls by exact Hs. now rewrite (prefix_string _ _ Hp).
  - rewrite Hp. cbn [obind]. rewrite calls_app. assert (Forall writes js) as Hall.
    { clear Hp. unfold storable in *. cbn [throughout] in Hs. induction IH as [|x l Hx Hl IHl]; [constructor|]. cbn in Hs. destruct Hs as [H1 H2]. constructor; auto. }
    rewrite (arr_loop (length (w_levels w0))) by auto. cbn [obind calls call w_levels in_array values_in negb andb w_out w_root plus]. unfold put.
    rewrite (prefix_levels _ _ _ Hp). cbn [obind]. do 2 f_equal. unfold nl. destruct js, p; cbn [Nat.eqb negb length app go_arr]; rewrite <- ?app_assoc; reflexivity.
  - rewrite Hp. cbn [obind]. rewrite calls_app. assert (Forall (fun m => writes (snd m)) ms /\ Forall (fun m => short (fst m)) ms) as [H1 H2].
    { clear Hp. unfold storable in *. cbn [throughout] in Hs. induction IH as [|x l Hx Hl IHl]; [auto|]. cbn in Hs. destruct Hs as (G1 & G2 & G3). destruct (IHl G3). split; constructor; auto. }
    rewrite (obj_loop (length (w_levels w0))) by auto. cbn [obind calls call w_levels in_array values_in negb andb w_out w_root plus orb]. unfold put.
    assert (Nat.odd (2 * length ms) = false) as -> by (rewrite <- Nat.negb_even, Nat.even_mul; reflexivity). cbn [orb].
    rewrite (prefix_levels _ _ _ Hp). cbn [obind]. do 2 f_equal. unfold nl. destruct ms, p; cbn [Nat.eqb negb length app Nat.mul Nat.add]; rewrite <- ?app_assoc; reflexivity.
Qed.

(* ------------------------------------------------------------------ what it means *)

Lemma indent_blanks n : blanks (indent n).
Proof. apply Forall_forall. intros c H. apply repeat_spec in H. subst. left. reflexivity. Qed.
Lemma nl_blanks d : blanks (nl d).
Proof. unfold nl. destruct p; [|constructor]. constructor; [unfold blank; auto|apply indent_blanks]. Qed.

Lemma arr_sep n d : separator p (mklevel true n) d = (if Nat.eqb n 0 then [] else [44]) ++ nl d.
Proof. reflexivity. Qed.
Lemma obj_sep_even n d : Nat.even n = true -> separator p (mklevel false n) d = (if Nat.eqb n 0 then [] else [44]) ++ nl d.
Proof.
  intros H. unfold separator, nl. cbn [in_array values_in]. rewrite H. destruct (Nat.eqb n 0), p; cbn [andb app]; rewrite ?app_nil_r; reflexivity.
Qed.
Lemma obj_sep_odd n d : Nat.even n = false -> separator p (mklevel false n) d = 58 :: (if p then [32] else []).
Proof.
  intros H. unfold separator. cbn [in_array values_in]. rewrite H. destruct n; [discriminate|]. rewrite andb_false_r. cbn. now rewrite app_nil_r.
Qed.

Lemma arr_means d f js : Forall (fun y => denotes R y (f y)) js -> js <> [] -> forall n w, blanks w ->
  exists s, go_arr d f n js ++ w = (if Nat.eqb n 0 then [] else [44]) ++ s /\ array_text R js s.
Proof.
  induction 1 as [|y js Hy Hjs IH]; intros Hne n w Hw; [contradiction|]. cbn [go_arr]. rewrite arr_sep.
  destruct js as [|y' js].
  - exists (nl d ++ f y ++ w). split; [cbn [go_arr]; now rewrite app_nil_r, <- !app_assoc|]. constructor; auto using nl_blanks.
  - destruct (IH ltac:(discriminate) (S n) w Hw) as (s & E & He). exists (nl d ++ f y ++ [] ++ 44 :: s). split.
    + rewrite <- !app_assoc. do 3 f_equal. exact E.
    + constructor; auto using nl_blanks. constructor.
Qed.
Lemma obj_means d f ms : Forall (fun m => denotes R (snd m) (f (snd m))) ms -> ms <> [] -> forall n w, Nat.even n = true -> blanks w ->
  exists s, go_obj d f n ms ++ w = (if Nat.eqb n 0 then [] else [44]) ++ s /\ object_text R ms s.
Proof.
  induction 1 as [|[k y] ms Hy Hms IH]; intros Hne n w Hn Hw; [contradiction|]. cbn [go_obj]. rewrite obj_sep_even, obj_sep_odd by auto using even_S. cbn [fst snd] in *.
  assert (blanks (if p then [32] else [])) as Hb by (destruct p; repeat constructor).
  destruct ms as [|m' ms].
  - exists (nl d ++ quoted k ++ [] ++ 58 :: (if p then [32] else []) ++ f y ++ w). split.
    + cbn [go_obj app]. rewrite app_nil_r, <- !app_assoc. cbn [app]. now rewrite <- !app_assoc.
    + constructor; auto using nl_blanks, quoted_reads. constructor.
  - destruct (IH ltac:(discriminate) (S (S n)) w) as (s & E & He); [now rewrite Nat.even_succ_succ|auto|].
    exists (nl d ++ quoted k ++ [] ++ 58 :: (if p then [32] else []) ++ f y ++ [] ++ 44 :: s). split.
    + cbn [app]. repeat (rewrite <- !app_assoc; cbn [app]). do 6 f_equal. exact E.
    + constructor; auto using nl_blanks, quoted_reads; constructor.
Qed.

Lemma render_means j : storable dc j -> forall d, denotes R j (render d j).
Proof.
  induction j as [|b|z|b|s|js IH|ms IH] using json_ind0; intros Hs d; cbn [render].
  - constructor.
  - destruct b; constructor.
  - constructor; [apply int_text_whole|exact Hs].
  - destruct Hs as (_ & H1 & H2). now constructor.
  - constructor. apply quoted_reads.
  - assert (Forall (fun y => denotes R y (render (S d) y)) js) as Hall.
    { unfold storable in *. cbn [throughout] in Hs. induction IH as [|x l Hx Hl IHl]; [constructor|]. cbn in Hs. destruct Hs as [H1 H2]. constructor; auto. }
    destruct js as [|y js]; [apply (D_arr_empty R []); constructor|].
    destruct (arr_means (S d) (render (S d)) (y :: js) Hall ltac:(discriminate) 0%nat (nl d) (nl_blanks d)) as (s & E & He).
    rewrite app_assoc, E. now constructor.
  - assert (Forall (fun m => denotes R (snd m) (render (S d) (snd m))) ms) as Hall.
    { unfold storable in *. cbn [throughout] in Hs. induction IH as [|x l Hx Hl IHl]; [constructor|]. cbn in Hs. destruct Hs as (H1 & H2 & H3). constructor; auto. }
    destruct ms as [|y ms]; [apply (D_obj_empty R []); constructor|].
    destruct (obj_means (S d) (render (S d)) (y :: ms) Hall ltac:(discriminate) 0%nat (nl d) eq_refl (nl_blanks d)) as (s & E & He).
    rewrite app_assoc, E. now constructor.
Qed.

Lemma c_str_id s : ~ In 0 s -> c_str s = s.
Proof.
  induction s as [|c s IH]; [reflexivity|]. intros H. cbn. destruct (N.eqb_spec c 0) as [->|]; [exfalso; apply H; now left|]. rewrite IH; auto. intros Hi. apply H. now right.
Qed.

Lemma denotes_document j s : denotes R j s -> document R j s.
Proof. intros H. exists [], s, []. rewrite app_nil_r. repeat split; auto; constructor. Qed.

Lemma writer_text j : storable dc j -> exists w, calls dc p new_writer (accept j) = Ok w /\ w_out w = render 0 j /\ c_str (w_out w) = render 0 j.
Proof.
  intros H. rewrite (write_all j H new_writer (mkwriter [] [] true) eq_refl). eexists. split; [reflexivity|]. cbn [put w_out app w_levels length new_writer]. split; [reflexivity|].
  apply c_str_id. eapply document_nonzero. apply denotes_document, (render_means j H).
Qed.
End W.
