(** Proofs for the description of exceptions. *)
From Coq Require Import String List NArith ZArith Bool Lia.
From Verif Require Import Base PathModel ScalarModel ScalarSpec ScalarProofs SerialMsgModel SerialMsgProofs SerialMsgTextProofs.
From Verif Require Import XinfoModel XinfoSpec XinfoProofs DiagModel DiagSpec.
Import ListNotations.
Local Open Scope list_scope.

(* ---------- streams ---------- *)

Lemma write_good s t : write s (mkstream t true) = mkstream (t ++ s) true.
Proof. reflexivity. Qed.

Lemma below16 n : (n < 16)%N -> In n (map N.of_nat (seq 0 16)).
Proof. intros H. apply in_map_iff. exists (N.to_nat n). split; [lia|]. apply in_seq. lia. Qed.

Lemma hex_is_digit n : (n < 16)%N -> hex_digit n (hex n).
Proof.
  intros H. apply below16 in H. cbn in H. unfold hex_digit.
  repeat (destruct H as [<-|H]; [solve [left; vm_compute; auto | right; vm_compute; repeat split; congruence]|]). contradiction.
Qed.

Lemma byte_parts b : (b < 256)%N -> (N.shiftr (N.land b 240) 4 < 16 /\ N.land b 15 < 16 /\
  b = 16 * N.shiftr (N.land b 240) 4 + N.land b 15)%N.
Proof.
  intros H. assert (E : N.land b 15 = (b mod 16)%N) by (change 15%N with (N.ones 4); apply N.land_ones).
  assert (F : N.shiftr (N.land b 240) 4 = (b / 16)%N).
  { rewrite N.shiftr_land. change (N.shiftr 240 4) with (N.ones 4). rewrite N.land_ones, N.shiftr_div_pow2.
    change (2 ^ 4)%N with 16%N. apply N.mod_small. apply N.div_lt_upper_bound; lia. }
  rewrite E, F. pose proof (N.div_mod b 16 ltac:(lia)). pose proof (N.mod_lt b 16 ltac:(lia)).
  split; [|split]; [apply N.div_lt_upper_bound; lia | lia | lia].
Qed.

Definition hex_word (b : N) : str := [hex (N.shiftr (N.land b 240) 4); hex (N.land b 15)].

Lemma hex_words bs : Forall (fun b => b < 256)%N bs -> Forall2 in_hex bs (map hex_word bs).
Proof.
  induction 1 as [|b bs Hb _ IH]; constructor; [|exact IH].
  destruct (byte_parts b Hb) as (H1 & H2 & E). do 4 eexists. split; [exact E|].
  split; [apply hex_is_digit; exact H1|]. split; [apply hex_is_digit; exact H2|reflexivity].
Qed.

Lemma dump_later bs : forall i t, dump_bytes (S i) bs (mkstream t true) =
  mkstream (t ++ concat (map (fun b => 32%N :: hex_word b) bs)) true.
Proof.
  induction bs as [|b bs IH]; intros i t; cbn [dump_bytes map concat]; [now rewrite app_nil_r|].
  rewrite !write_good, IH. f_equal. rewrite <- !app_assoc. reflexivity.
Qed.

Lemma spaced_cons w ws : spaced (w :: ws) = w ++ concat (map (fun x => 32%N :: x) ws).
Proof.
  revert w. induction ws as [|x ws IH]; intros w; [cbn; now rewrite app_nil_r|].
  change (spaced (w :: x :: ws)) with (w ++ [32%N] ++ spaced (x :: ws)). rewrite IH. reflexivity.
Qed.

Lemma dump_text bs t : dump_bytes 0 bs (mkstream t true) = mkstream (t ++ spaced (map hex_word bs)) true.
Proof.
  destruct bs as [|b bs]; [cbn; now rewrite app_nil_r|]. cbn [dump_bytes map]. rewrite write_good, dump_later, spaced_cons, map_map.
  f_equal. rewrite <- app_assoc. reflexivity.
Qed.

Definition line_of (name : str) (v : value) : str :=
  match v with
  | Streamed s _ => name ++ bytes " = " ++ s
  | Opaque bs => name ++ bytes " = [" ++ spaced (map hex_word bs) ++ bytes "]"
  end.

Lemma line_of_about name v : plain v -> line_about name v (line_of name v).
Proof.
  destruct v as [s f|bs]; cbn [plain line_of]; intros H; rewrite !bytes_codes.
  - subst f. constructor.
  - constructor. now apply hex_words.
Qed.

Lemma describe_text name v t : plain v -> describe name v (mkstream t true) = Ok (mkstream (t ++ ended (line_of name v)) true).
Proof.
  destruct v as [s f|bs]; cbn [plain line_of describe]; intros H; unfold ended.
  - subst f. cbn [write_value]. rewrite !write_good. cbn [obind]. rewrite write_good. do 2 f_equal. now rewrite <- !app_assoc.
  - rewrite !write_good, dump_text, write_good. do 2 f_equal. now rewrite <- !app_assoc.
Qed.

Lemma describe_all_text names l : forall t, Forall (fun p => plain (snd p)) l ->
  describe_all names l (mkstream t true) =
  Ok (mkstream (t ++ concat (map (fun p => ended (line_of (names (fst p)) (snd p))) l)) true).
Proof.
  induction l as [|[tag v] l IH]; intros t H; [cbn; now rewrite app_nil_r|]. inversion H as [|? ? Hv Hl]; subst.
  cbn [describe_all]. rewrite describe_text by exact Hv. cbn [obind]. rewrite IH by exact Hl.
  cbn [map concat fst snd]. now rewrite app_assoc.
Qed.

Definition first_line (pl : place) : str :=
  match p_file pl with Some f => f ++ bytes "(" ++ int_text (p_line pl) ++ bytes ")" | None => bytes "<unknown-file>" end ++
  bytes ": throw_with_info in function " ++ match p_function pl with Some f => f | None => bytes "<unknown-function>" end.

Lemma first_line_ok pl : place_line pl (first_line pl).
Proof.
  unfold place_line, first_line. do 2 eexists. rewrite !bytes_codes. split; [reflexivity|]. split.
  - destruct (p_file pl); [|reflexivity]. eexists. split; [now apply int_text_decimal|reflexivity].
  - destruct (p_function pl); reflexivity.
Qed.

Lemma diagnostic_text names w pl o l : listing w o = Ok l -> Forall (fun p => plain (snd p)) l ->
  diagnostic_info names w pl o =
  Ok (concat (map ended (first_line pl :: map (fun p => line_of (names (fst p)) (snd p)) l))).
Proof.
  intros El Hl. unfold diagnostic_info, new_stream, first_line. rewrite El.
  destruct (p_file pl) as [f|]; rewrite !write_good; cbn [obind]; rewrite describe_all_text by exact Hl; cbn [obind s_text]; f_equal;
    cbn [map concat]; rewrite map_map; unfold ended; rewrite <- !app_assoc; reflexivity.
Qed.

(* ---------- histories ---------- *)

Lemma sim_listing {V} (w : world V) ss o : sim V w ss -> o < length ss ->
  exists l, listing w o = Ok l /\ forall tag, map snd (filter (fun p => Nat.eqb tag (fst p)) l) = nth o ss nothing tag.
Proof.
  intros [HL HS] Ho. destruct (nth_error (heads w) o) as [c|] eqn:Ec; [|apply nth_error_None in Ec; lia].
  destruct (nth_error ss o) as [s|] eqn:Es; [|apply nth_error_None in Es; lia].
  destruct (HS o c s Ec Es) as (l & C & Hst). exists (map snd l). split.
  - unfold listing. rewrite (rd_ok _ _ _ Ec). cbn [obind]. apply (listing_loop_spec _ _ _ _ C). pose proof (chain_len _ _ _ _ C). lia.
  - intros tag. rewrite (nth_error_nth ss o nothing Es), <- Hst. unfold stack_of. clear. induction l as [|e l IH]; [reflexivity|].
    cbn [map filter]. rewrite Nat.eqb_sym. destruct (fst (snd e) =? tag); cbn [map]; [f_equal|]; exact IH.
Qed.

Lemma history_plain ops : forall ss : list (stacks value), Forall (fun s => forall tag, Forall plain (s tag)) ss ->
  Forall (fun a => match a with Set_ _ _ v | Poke _ _ v => plain v | _ => True end) ops ->
  Forall (fun s => forall tag, Forall plain (s tag)) (fold_left ideal_step ops ss).
Proof.
  assert (Hput : forall ss o f, Forall (fun s : stacks value => forall tag, Forall plain (s tag)) ss ->
    (forall s, (forall tag, Forall plain (s tag)) -> forall tag, Forall plain (f s tag)) ->
    Forall (fun s => forall tag, Forall plain (s tag)) (XinfoSpec.put ss o f)).
  { intros ss o f H Hf. apply Forall_forall. intros s Hs. apply In_nth_error in Hs as (i & Hi). pose proof (nth_put value ss o f i) as Q. pose proof (eq_trans (eq_sym Q) Hi) as Hi2. clear Hi Q. rename Hi2 into Hi.
    destruct (nth_error ss i) as [s0|] eqn:E; [|discriminate]. cbn in Hi. injection Hi as <-. rewrite Forall_forall in H.
    apply nth_error_In in E. destruct (i =? o); [apply Hf|]; auto. }
  assert (Hnth : forall ss o, Forall (fun s : stacks value => forall tag, Forall plain (s tag)) ss ->
    forall tag, Forall plain (nth o ss nothing tag)).
  { intros ss o H tag. destruct (nth_in_or_default o ss nothing) as [Hi|E]; [|rewrite E; constructor]. rewrite Forall_forall in H. now apply H. }
  induction ops as [|a ops IH]; intros ss H Ho; [exact H|]. inversion Ho as [|? ? Ha Hr]; subst. cbn [fold_left]. apply IH; [|exact Hr].
  destruct a as [o tag v|o tag|o tag v| |o|d r]; cbn [ideal_step].
  - apply Hput; [exact H|]. intros s Hs t. unfold push. destruct (t =? tag); [constructor|]; auto.
  - apply Hput; [exact H|]. intros s Hs t. unfold pop. destruct (t =? tag); [|auto]. specialize (Hs t). destruct (s t); [constructor|]. now inversion Hs.
  - apply Hput; [exact H|]. intros s Hs t. unfold replace_top. destruct (t =? tag); [|auto]. specialize (Hs t). destruct (s t); [constructor|].
    inversion Hs; subst. constructor; auto.
  - apply Forall_app. split; [exact H|]. repeat constructor.
  - apply Forall_app. split; [exact H|]. constructor; [|constructor]. now apply Hnth.
  - apply Hput; [exact H|]. intros s Hs t. now apply Hnth.
Qed.

Lemma values_plain (l : list (nat * value)) s : (forall tag, map snd (filter (fun p => Nat.eqb tag (fst p)) l) = s tag) ->
  (forall tag, Forall plain (s tag)) -> Forall (fun p => plain (snd p)) l.
Proof.
  intros E H. apply Forall_forall. intros [tag v] Hin. specialize (H tag). rewrite <- E in H. rewrite Forall_forall in H.
  apply H. apply in_map_iff. exists (tag, v). split; [reflexivity|]. apply filter_In. split; [exact Hin|]. apply Nat.eqb_refl.
Qed.

Lemma lines_lemma names (ops : list (op value)) : well_formed 0 ops -> no_copies ops \/ only_adds ops ->
  Forall (fun a => match a with Set_ _ _ v | Poke _ _ v => plain v | _ => True end) ops ->
  exists w, run empty_world ops = Ok w /\
    forall pl o, o < length (ideal ops) -> exists first l ls,
      place_line pl first /\ Forall2 (fun p s => line_about (names (fst p)) (snd p) s) l ls /\
      (forall tag, of_tag tag l = nth o (ideal ops) nothing tag) /\
      diagnostic_info names w pl o = Ok (concat (map ended (first :: ls))).
Proof.
  intros W F P.
  assert (H : exists w, run empty_world ops = Ok w /\ sim value w (ideal ops)).
  { destruct F as [F|F].
    - exact (run_no_copies value ops empty_world [] (sim_empty value) (disjoint_empty value) W F).
    - exact (run_only_adds value ops empty_world [] (sim_empty value) W F). }
  destruct H as (w & E & S). exists w. split; [exact E|]. intros pl o Ho. destruct (sim_listing w _ o S Ho) as (l & El & Hl).
  assert (Hp : Forall (fun p => plain (snd p)) l).
  { eapply values_plain; [exact Hl|]. intros tag. pose proof (history_plain ops [] ltac:(constructor) P) as HP.
    fold (ideal ops) in HP. destruct (nth_in_or_default o (ideal ops) nothing) as [Hi|En]; [|rewrite En; constructor].
    rewrite Forall_forall in HP. now apply HP. }
  exists (first_line pl), l, (map (fun p => line_of (names (fst p)) (snd p)) l).
  split; [apply first_line_ok|]. split.
  { clear -Hp. induction Hp; cbn [map]; constructor; auto. now apply line_of_about. }
  split; [exact Hl|]. now apply diagnostic_text.
Qed.

(* ---------- what the text tells ---------- *)

Lemma cut_at (c : N) a : forall b x y, ~ In c a -> ~ In c b -> a ++ c :: x = b ++ c :: y -> a = b /\ x = y.
Proof.
  induction a as [|p a IH]; intros [|q b] x y Ha Hb E; cbn in E.
  - injection E. auto.
  - injection E as E1 E2; subst. exfalso. apply Hb. now left.
  - injection E as E1 E2; subst. exfalso. apply Ha. now left.
  - injection E as E1 E2; subst. destruct (IH b x y) as [-> ->]; auto; intros X; [apply Ha|apply Hb]; now right.
Qed.

Lemma ended_injective ls : forall ls', Forall (fun s => ~ In 10%N s) ls -> Forall (fun s => ~ In 10%N s) ls' ->
  concat (map ended ls) = concat (map ended ls') -> ls = ls'.
Proof.
  unfold ended. induction ls as [|l ls IH]; intros [|l' ls'] H H' E; cbn [map concat] in E.
  - reflexivity.
  - destruct l'; discriminate.
  - destruct l; discriminate.
  - rewrite <- !app_assoc in E. inversion H; inversion H'; subst. apply cut_at in E; [|assumption|assumption].
    destruct E as [-> E]. f_equal. now apply IH.
Qed.

Lemma hex_inj a b : (a < 16 -> b < 16 -> hex a = hex b -> a = b)%N.
Proof.
  intros Ha Hb E. apply hex_is_digit in Ha, Hb. rewrite E in Ha. unfold hex_digit in *. lia.
Qed.

Lemma hex_word_inj a b : (a < 256)%N -> (b < 256)%N -> hex_word a = hex_word b -> a = b.
Proof.
  unfold hex_word. intros Ha Hb E. pose proof (f_equal (fun l => nth 0 l 0%N) E) as E1. pose proof (f_equal (fun l => nth 1 l 0%N) E) as E2. cbn [nth] in E1, E2.
  destruct (byte_parts a Ha) as (A1 & A2 & A3), (byte_parts b Hb) as (B1 & B2 & B3).
  apply hex_inj in E1; [|assumption|assumption]. apply hex_inj in E2; [|assumption|assumption].
  rewrite A3, E1, E2. now symmetry.
Qed.

Lemma app_eq_length {A} (a b : list A) : forall x y, length a = length b -> a ++ x = b ++ y -> a = b /\ x = y.
Proof.
  revert b. induction a as [|p a IH]; intros [|q b] x y L E; try discriminate L; [auto|]. injection E as -> E.
  injection L as L. destruct (IH b x y L E) as [-> ->]. auto.
Qed.

Lemma words_inj bs : forall bs', Forall (fun b => b < 256)%N bs -> Forall (fun b => b < 256)%N bs' ->
  spaced (map hex_word bs) = spaced (map hex_word bs') -> bs = bs'.
Proof.
  assert (T : forall bs bs', Forall (fun b => b < 256)%N bs -> Forall (fun b => b < 256)%N bs' ->
    concat (map (fun x => 32%N :: x) (map hex_word bs)) = concat (map (fun x => 32%N :: x) (map hex_word bs')) -> bs = bs').
  { clear. induction bs as [|b bs IH]; intros [|b' bs'] H H' E; try discriminate E; [reflexivity|].
    inversion H; inversion H'; subst. cbn [map concat] in E. rewrite <- !app_comm_cons in E. apply (f_equal (@tl N)) in E. cbn [tl] in E.
    apply app_eq_length in E; [|reflexivity]. destruct E as [E1 E2]. f_equal; [now apply hex_word_inj|now apply IH]. }
  intros bs' H H' E. destruct bs as [|b bs], bs' as [|b' bs']; try reflexivity.
  - cbn [map] in E. rewrite spaced_cons in E. discriminate E.
  - cbn [map] in E. rewrite spaced_cons in E. discriminate E.
  - cbn [map] in E. rewrite !spaced_cons in E. inversion H; inversion H'; subst.
    apply app_eq_length in E; [|reflexivity]. destruct E as [E1 E2]. f_equal; [now apply hex_word_inj|now apply T].
Qed.

Lemma line_of_inj n v n' v' ho : ~ In 61%N n -> ~ In 61%N n' ->
  match v with Streamed _ f => f = Fine /\ ho n = true | Opaque bs => Forall (fun b => b < 256)%N bs /\ ho n = false end ->
  match v' with Streamed _ f => f = Fine /\ ho n' = true | Opaque bs => Forall (fun b => b < 256)%N bs /\ ho n' = false end ->
  line_of n v = line_of n' v' -> n = n' /\ v = v'.
Proof.
  intros Hn Hn' Hv Hv' E.
  assert (Hs : forall x : str, ~ In 61%N x -> ~ In 61%N (x ++ [32%N])).
  { intros x Hx X. apply in_app_iff in X as [X|[X|[]]]; [auto|discriminate]. }
  assert (A : forall (x y : str), x ++ bytes " = " ++ y = (x ++ [32%N]) ++ 61%N :: 32%N :: y) by (intros; rewrite <- app_assoc; reflexivity).
  assert (B : forall (x y : str), x ++ bytes " = [" ++ y = (x ++ [32%N]) ++ 61%N :: 32%N :: 91%N :: y) by (intros; rewrite <- app_assoc; reflexivity).
  destruct v as [s f|bs], v' as [s' f'|bs']; cbn [line_of] in E; rewrite ?A, ?B in E; apply cut_at in E; auto; destruct E as [En E];
    apply app_inj_tail in En as [-> _]; split; auto; destruct Hv as [Hv K], Hv' as [Hv' K']; try congruence.
  injection E as E. apply app_inj_tail in E as [E _]. f_equal. now apply words_inj.
Qed.

Lemma hex_word_line b : (b < 256)%N -> ~ In 10%N (hex_word b).
Proof.
  intros Hb. destruct (byte_parts b Hb) as (A1 & A2 & _). apply hex_is_digit in A1, A2. unfold hex_word, hex_digit in *. intros [X|[X|[]]]; lia.
Qed.

Lemma line_of_one ho names p : readable ho names p -> ~ In 10%N (line_of (names (fst p)) (snd p)).
Proof.
  destruct p as [tag [s f|bs]]; cbn [fst snd line_of readable]; intros (H1 & H2 & H).
  - destruct H as (_ & H & _). intros X. apply in_app_iff in X as [X|X]; [auto|]. cbn in X. intuition discriminate.
  - destruct H as (H & _). intros X. apply in_app_iff in X as [X|X]; [auto|]. apply in_app_iff in X as [X|X]; [cbn in X; intuition discriminate|].
    apply in_app_iff in X as [X|X]; [|cbn in X; intuition discriminate]. destruct bs as [|b bs]; [exact X|]. cbn [map] in X.
    rewrite spaced_cons in X. inversion H as [|? ? Hb Hbs]; subst. apply in_app_iff in X as [X|X]; [now apply hex_word_line in X|].
    rewrite in_concat in X. destruct X as (w & Hw & X). rewrite map_map in Hw. apply in_map_iff in Hw as (b' & <- & Hb'). rewrite Forall_forall in Hbs.
    destruct X as [X|X]; [discriminate|]. apply hex_word_line in X; auto.
Qed.

Lemma first_line_one pl : one_line pl -> ~ In 10%N (first_line pl).
Proof.
  intros [Hf Hg] X. unfold first_line in X. apply in_app_iff in X as [X|X].
  - destruct (p_file pl) as [f|]; [|cbn in X; intuition discriminate]. apply in_app_iff in X as [X|X]; [auto|].
    apply in_app_iff in X as [X|X]; [cbn in X; intuition discriminate|]. apply in_app_iff in X as [X|X]; [|cbn in X; intuition discriminate].
    pose proof (digits_clean (p_line pl)) as [D _]. auto.
  - apply in_app_iff in X as [X|X]; [cbn in X; intuition discriminate|]. destruct (p_function pl); [auto|]. cbn in X. intuition discriminate.
Qed.

Lemma readable_plain ho names l : Forall (readable ho names) l -> Forall (fun p => plain (snd p)) l.
Proof.
  induction 1 as [|[tag v] l H _ IH]; constructor; [|exact IH]. destruct H as (_ & _ & H). destruct v; cbn [snd plain] in *; tauto.
Qed.

Lemma text_tells_lemma ho names names' w w' pl pl' o o' l l' s : listing w o = Ok l -> listing w' o' = Ok l' ->
  Forall (readable ho names) l -> Forall (readable ho names') l' -> one_line pl -> one_line pl' ->
  diagnostic_info names w pl o = Ok s -> diagnostic_info names' w' pl' o' = Ok s ->
  map (fun p => (names (fst p), snd p)) l = map (fun p => (names' (fst p), snd p)) l'.
Proof.
  intros El El' Hl Hl' Hp Hp' E E'.
  rewrite (diagnostic_text names w pl o l El (readable_plain _ _ _ Hl)) in E.
  rewrite (diagnostic_text names' w' pl' o' l' El' (readable_plain _ _ _ Hl')) in E'. rewrite <- E in E'. injection E' as E'.
  assert (X : forall nm l, Forall (readable ho nm) l -> Forall (fun s => ~ In 10%N s) (map (fun p => line_of (nm (fst p)) (snd p)) l)).
  { intros nm l0 H. induction H; cbn [map]; constructor; auto. eapply line_of_one; eauto. }
  apply (ended_injective (first_line pl' :: _) (first_line pl :: _)) in E'; try (constructor; [now apply first_line_one|now apply X]).
  injection E' as _ E'. symmetry in E'. clear -Hl Hl' E'. revert l' Hl' E'. induction Hl as [|p l H Hl IH]; intros [|p' l'] Hl' E; try discriminate; [reflexivity|].
  cbn [map] in E |- *. injection E as E1 E2. inversion Hl' as [|? ? H' Hl'']; subst. f_equal; [|now apply IH].
  destruct p as [t v], p' as [t' v']. destruct H as (_ & A & B), H' as (_ & A' & B'). cbn [fst snd] in *.
  apply (line_of_inj _ _ _ _ ho) in E1; auto; [destruct E1; congruence | |]; [destruct v; tauto | destruct v'; tauto].
Qed.

(* ---------- exceptions ---------- *)

Lemma pointer_lemma names w e : t_info e <> None \/ t_what e <> None ->
  describe_pointer names w (Some e) = describe_exception names w None e.
Proof.
  intros H. cbn [describe_pointer]. destruct (t_info e) as [[pl o]|] eqn:E; [reflexivity|]. destruct (t_what e); [reflexivity|].
  destruct H as [H|H]; congruence.
Qed.

Definition head_text (e : thrown) : str :=
  ended (codes "dynamic exception type: " ++ match t_wrapped e with Some n => n | None => t_name e end) ++
  match t_what e with Some s => ended (codes "what: " ++ s) | None => [] end.

Lemma exception_text names w e : describe_exception names w None e =
  match t_info e with
  | Some (pl, o) => obind (diagnostic_info names w pl o) (fun s => Ok (head_text e ++ s))
  | None => Ok (head_text e)
  end.
Proof.
  unfold describe_exception, head_text, ended, new_stream. rewrite !write_good, !bytes_codes, <- !app_assoc. cbn [app].
  destruct (t_what e) as [s|]; rewrite ?write_good; destruct (t_info e) as [[pl o]|]; cbn [s_text]; rewrite ?app_nil_r, <- ?app_assoc; try reflexivity;
    destruct (diagnostic_info names w pl o); cbn [obind]; rewrite ?write_good; cbn [s_text]; rewrite ?app_nil_r, <- ?app_assoc; reflexivity.
Qed.

Lemma wrapped_lemma names w wrapper e pl o : t_wrapped e = None -> t_info e = None ->
  exists own, describe_exception names w None e = Ok own /\
    describe_pointer names w (Some (with_info wrapper e (pl, o))) =
    match diagnostic_info names w pl o with Ok s => Ok (own ++ s) | Throws => Throws | UB => UB end.
Proof.
  intros Hw Hi. exists (head_text e). split; [now rewrite exception_text, Hi|].
  rewrite pointer_lemma by (left; discriminate). rewrite exception_text. cbn [t_info with_info]. unfold head_text. cbn [t_wrapped t_what with_info].
  rewrite Hw. destruct (diagnostic_info names w pl o); reflexivity.
Qed.
