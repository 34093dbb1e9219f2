(** Lifetimes. *)
From Coq Require Import List Arith Bool Lia.
From Verif Require Import Base DangModel DangSpec.
Import ListNotations.

(** ** The nested fixpoints by name *)
Section Named.
  Context (env : list nat).
  Fixpoint args (es : list ex) (h : heap) : list nat * heap :=
    match es with
    | [] => ([], h)
    | e :: es' =>
        let '(r, h1) := eval env e h in
        let '(id, h2) := bind_ref r h1 in
        let '(refs, h3) := args es' h2 in
        (begin_of h2 id ++ refs, h3)
    end.
  Lemma eval_zip es h : eval env (EZip es) h = let '(refs, h1) := args es h in (Value Points refs, h1).
  Proof. reflexivity. Qed.
End Named.

Fixpoint checks (tenv : list vty) (ss : list stmt) : option (list vty) :=
  match ss with
  | [] => Some tenv
  | s :: ss' => match check tenv s with Some tenv' => checks tenv' ss' | None => None end
  end.

Fixpoint runs (env : list nat) (h : heap) (ss : list stmt) : outcome (list nat * heap) :=
  match ss with
  | [] => Ok (env, h)
  | s :: ss' => obind (run env h s) (fun '(env1, h1) => runs env1 h1 ss')
  end.

Lemma check_for tenv e body : check tenv (SFor e body) =
  match typ tenv e with
  | Some (t, _) => if iterable t then match checks tenv body with Some _ => Some tenv | None => None end else None
  | None => None
  end.
Proof. reflexivity. Qed.

Lemma check_block tenv body : check tenv (SBlock body) = match checks tenv body with Some _ => Some tenv | None => None end.
Proof. reflexivity. Qed.

Lemma run_for env h e body : run env h (SFor e body) =
  let '(r, h1) := eval env e h in
  let '(id, h2) := bind_ref r h1 in
  let h3 := kill (length h) (if extends e then Some id else None) h2 in
  if usable h3 id then obind (runs env h3 body) (fun '(_, h4) => Ok (env, kill (length h) None h4)) else UB.
Proof. reflexivity. Qed.

Lemma run_block env h body : run env h (SBlock body) = obind (runs env h body) (fun '(_, h1) => Ok (env, kill (length h) None h1)).
Proof. reflexivity. Qed.

Section ExInd.
  Context (P : ex -> Prop).
  Context (Pv : forall x, P (EVar x)) (Pm : P EMake) (Ph : P EHolder) (Pi : P EIota)
    (Pt : forall e, P e -> P (EItems e)) (Pc : forall e, P e -> P (ECall e)) (Po : forall e, P e -> P (EMoved e))
    (Pr : forall e, P e -> P (ERange e)) (Pj : forall e, P e -> P (EJoin e)) (Pz : forall es, Forall P es -> P (EZip es)).
  Fixpoint ex_ind0 (e : ex) : P e :=
    match e with
    | EVar x => Pv x
    | EMake => Pm
    | EHolder => Ph
    | EIota => Pi
    | EItems e => Pt e (ex_ind0 e)
    | ECall e => Pc e (ex_ind0 e)
    | EMoved e => Po e (ex_ind0 e)
    | ERange e => Pr e (ex_ind0 e)
    | EJoin e => Pj e (ex_ind0 e)
    | EZip es => Pz es ((fix all (es : list ex) : Forall P es :=
                           match es with [] => Forall_nil P | e :: es' => Forall_cons e (ex_ind0 e) (all es') end) es)
    end.
End ExInd.

(** ** Heaps *)
Lemma nth_kill0 (f : nat * obj -> obj) s h j :
  nth_error (map f (combine (seq s (length h)) h)) j = option_map (fun o => f (s + j, o)) (nth_error h j).
Proof.
  revert s j. induction h as [|o h IH]; intros s j; [destruct j; reflexivity|]. cbn [length seq combine map]. destruct j as [|j]; cbn [nth_error].
  - cbn. now rewrite Nat.add_0_r.
  - rewrite IH. now replace (S s + j) with (s + S j) by lia.
Qed.

Lemma nth_kill a keep h j : nth_error (kill a keep h) j =
  option_map (fun o => if (j <? a) || match keep with Some k => j =? k | None => false end then o else mkobj (okind o) (orefs o) false) (nth_error h j).
Proof. unfold kill. rewrite nth_kill0. reflexivity. Qed.

Lemma length_kill a keep h : length (kill a keep h) = length h.
Proof. unfold kill. rewrite map_length, combine_length, seq_length. lia. Qed.

Lemma alive_kill a keep h j : alive (kill a keep h) j = alive h j && ((j <? a) || match keep with Some k => j =? k | None => false end).
Proof.
  unfold alive. rewrite nth_kill. destruct (nth_error h j) as [o|]; [|reflexivity]. cbn [option_map].
  destruct ((j <? a) || _); cbn; [now rewrite andb_true_r | now rewrite andb_false_r].
Qed.

Lemma refs_kill a keep h j : refs_of (kill a keep h) j = refs_of h j.
Proof. unfold refs_of. rewrite nth_kill. destruct (nth_error h j) as [o|]; [|reflexivity]. cbn [option_map]. now destruct ((j <? a) || _). Qed.

Lemma kind_kill a keep h j : kind_of (kill a keep h) j = kind_of h j.
Proof. unfold kind_of. rewrite nth_kill. destruct (nth_error h j) as [o|]; [|reflexivity]. cbn [option_map]. now destruct ((j <? a) || _). Qed.

Lemma touched_kill a keep h refs : touched (kill a keep h) refs = touched h refs.
Proof. unfold touched. f_equal. apply flat_map_ext. intros j. apply refs_kill. Qed.

Lemma alive_lt h j : alive h j = true -> j < length h.
Proof. unfold alive. destruct (nth_error h j) eqn:E; [|discriminate]. intros _. apply nth_error_Some. now rewrite E. Qed.

Lemma alive_app h n j : j < length h -> alive (h ++ n) j = alive h j.
Proof. intros L. unfold alive. now rewrite nth_error_app1. Qed.
Lemma refs_app h n j : j < length h -> refs_of (h ++ n) j = refs_of h j.
Proof. intros L. unfold refs_of. now rewrite nth_error_app1. Qed.
Lemma kind_app h n j : j < length h -> kind_of (h ++ n) j = kind_of h j.
Proof. intros L. unfold kind_of. now rewrite nth_error_app1. Qed.

(** All that is looked at is alive. *)
Definition sound (h : heap) (refs : list nat) : Prop := forall j, In j (touched h refs) -> alive h j = true.
Definition below (a : nat) (h : heap) (refs : list nat) : Prop := forall j, In j (touched h refs) -> j < a.

Lemma touched_app h n refs : sound h refs -> touched (h ++ n) refs = touched h refs.
Proof.
  intros S. unfold touched. f_equal. assert (L : forall j, In j refs -> j < length h).
  { intros j I. apply alive_lt, S. unfold touched. apply in_or_app. now left. }
  clear S. induction refs as [|r refs IH]; [reflexivity|]. cbn [flat_map]. rewrite refs_app by (apply L; now left).
  f_equal. apply IH. intros j I. apply L. now right.
Qed.

Lemma sound_app h n refs : sound h refs -> sound (h ++ n) refs.
Proof. intros S j I. rewrite touched_app in I by assumption. pose proof (S j I) as A. rewrite alive_app; [exact A | now apply alive_lt]. Qed.

Lemma below_app a h n refs : sound h refs -> (below a (h ++ n) refs <-> below a h refs).
Proof. intros S. unfold below. now rewrite touched_app. Qed.

Lemma in_touched h refs j : In j (touched h refs) <-> In j refs \/ exists r, In r refs /\ In j (refs_of h r).
Proof. unfold touched. rewrite in_app_iff, in_flat_map. reflexivity. Qed.

Lemma touched_both h a b j : In j (touched h (a ++ b)) <-> In j (touched h a) \/ In j (touched h b).
Proof.
  rewrite !in_touched. split.
  - intros [I|(r & I & J)].
    + apply in_app_or in I as [I|I]; auto.
    + apply in_app_or in I as [I|I]; [left | right]; right; eauto.
  - intros [[I|(r & I & J)]|[I|(r & I & J)]].
    + left. apply in_or_app. auto.
    + right. exists r. split; [apply in_or_app; auto | exact J].
    + left. apply in_or_app. auto.
    + right. exists r. split; [apply in_or_app; auto | exact J].
Qed.

Lemma usable_spec h id : usable h id = true <-> alive h id = true /\ sound h (refs_of h id).
Proof. unfold usable. rewrite andb_true_iff, forallb_forall. reflexivity. Qed.

(** An object that is not there refers to nothing, and so do owners and numbers. *)
Definition shaped (k : kind) (refs : list nat) : Prop := match k with Owner | Numbers => refs = [] | Points | Joins => True end.

Definition kind_for (t : vty) : kind := match t with TCont | THolder => Owner | TIota => Numbers | TRange | TZip => Points | TJoin => Joins end.

(** ** Variables *)
Record var_ok (a : nat) (h : heap) (t : vty) (id : nat) : Prop := mkvar {
  v_old : id < a;
  v_alive : alive h id = true;
  v_kind : kind_of h id = kind_for t;
  v_shape : shaped (kind_of h id) (refs_of h id);
  v_sound : sound h (refs_of h id);
  v_below : below a h (refs_of h id) }.

Definition good (a : nat) (tenv : list vty) (env : list nat) (h : heap) : Prop := Forall2 (var_ok a h) tenv env.

Lemma var_app a h n t id : var_ok a h t id -> var_ok a (h ++ n) t id.
Proof.
  intros [A B C D E F]. pose proof (alive_lt _ _ B) as L. constructor.
  - exact A.
  - now rewrite alive_app.
  - now rewrite kind_app.
  - now rewrite kind_app, refs_app.
  - rewrite refs_app by exact L. now apply sound_app.
  - rewrite refs_app by exact L. now apply below_app.
Qed.

Lemma good_app a h n tenv env : good a tenv env h -> good a tenv env (h ++ n).
Proof. unfold good. induction 1; constructor; [now apply var_app | assumption]. Qed.

Lemma var_kill a b keep h t id : a <= b -> var_ok a h t id -> var_ok a (kill b keep h) t id.
Proof.
  intros L [A B C D E F]. constructor; try rewrite kind_kill; try rewrite refs_kill; auto.
  - rewrite alive_kill, B. destruct (Nat.ltb_spec id b); [reflexivity | lia].
  - intros j I. rewrite touched_kill in I. rewrite alive_kill, (E j I). pose proof (F j I). destruct (Nat.ltb_spec j b); [reflexivity | lia].
  - intros j I. rewrite touched_kill in I. now apply F.
Qed.

Lemma good_kill a b keep h tenv env : a <= b -> good a tenv env h -> good a tenv env (kill b keep h).
Proof. intros L. unfold good. induction 1; constructor; [now apply var_kill | assumption]. Qed.

Lemma good_more a b h tenv env : a <= b -> good a tenv env h -> good b tenv env h.
Proof.
  intros L. unfold good. induction 1 as [|t id tenv env [A B C D E F]]; constructor; [|assumption]. constructor; auto; [lia|].
  intros j I. specialize (F j I). lia.
Qed.

(** ** Expressions *)
Definition placed (e : ex) : bool := match e with EVar _ | EItems _ | ECall _ | EMoved _ => true | _ => false end.

Record place_ok (a : nat) (h : heap) (t : vty) (e : ex) (id : nat) : Prop := mkplace {
  p_alive : alive h id = true;
  p_kind : kind_of h id = kind_for t;
  p_shape : shaped (kind_of h id) (refs_of h id);
  p_sound : sound h (refs_of h id);
  p_last : lasting e <-> id < a;
  p_under : id < a -> below a h (refs_of h id);
  p_kept : kept e <-> below a h (refs_of h id) }.

Record value_ok (a : nat) (h : heap) (t : vty) (e : ex) (k : kind) (refs : list nat) : Prop := mkvalue {
  q_kind : k = kind_for t;
  q_shape : shaped k refs;
  q_sound : sound h refs;
  q_kept : kept e <-> below a h refs }.

Definition result_ok (a : nat) (h : heap) (t : vty) (e : ex) (r : res) : Prop :=
  match r with
  | Place id => placed e = true /\ place_ok a h t e id
  | Value k refs => placed e = false /\ value_ok a h t e k refs
  end.

Lemma place_app a h n t e id : place_ok a h t e id -> place_ok a (h ++ n) t e id.
Proof.
  intros [A B C D E F G]. pose proof (alive_lt _ _ A) as L. constructor; try rewrite kind_app by exact L; try rewrite refs_app by exact L; auto.
  - now rewrite alive_app.
  - now apply sound_app.
  - intros Hi. apply below_app; auto.
  - rewrite G. symmetry. now apply below_app.
Qed.

Lemma lasting_placed e : lasting e -> placed e = true.
Proof. now destruct 1. Qed.

Lemma lasting_kept a h t e id : place_ok a h t e id -> lasting e -> kept e.
Proof. intros P L. apply (p_kept _ _ _ _ _ P). apply (p_under _ _ _ _ _ P). now apply (p_last _ _ _ _ _ P). Qed.

(** A reference to what was evaluated. *)
Record bound_ok (a : nat) (h : heap) (t : vty) (e : ex) (id : nat) : Prop := mkbound {
  b_alive : alive h id = true;
  b_kind : kind_of h id = kind_for t;
  b_shape : shaped (kind_of h id) (refs_of h id);
  b_sound : sound h (refs_of h id);
  b_last : lasting e <-> id < a;
  b_under : id < a -> below a h (refs_of h id);
  b_kept : kept e <-> below a h (refs_of h id) }.

Lemma nth_last (h : heap) o : nth_error (h ++ [o]) (length h) = Some o.
Proof. rewrite nth_error_app2, Nat.sub_diag by lia. reflexivity. Qed.

Lemma bind_ok a h t e r id h2 : a <= length h -> result_ok a h t e r -> bind_ref r h = (id, h2) ->
  (exists n, h2 = h ++ n) /\ bound_ok a h2 t e id.
Proof.
  intros L R B. destruct r as [i|k refs]; cbn in B; injection B as <- <-.
  - destruct R as [_ [A B C D E F G]]. split; [exists []; now rewrite app_nil_r|]. now constructor.
  - destruct R as [Pl [A B C D]]. split; [eauto|].
    assert (RF : refs_of (h ++ [mkobj k refs true]) (length h) = refs) by (unfold refs_of; now rewrite nth_last).
    constructor; rewrite ?RF.
    + unfold alive. now rewrite nth_last.
    + unfold kind_of. now rewrite nth_last.
    + unfold kind_of. rewrite nth_last. exact B.
    + now apply sound_app.
    + split; [intros La; apply lasting_placed in La; congruence | lia].
    + lia.
    + rewrite D. symmetry. now apply below_app.
Qed.

Lemma sound_one h id : alive h id = true -> sound h (refs_of h id) -> sound h [id].
Proof.
  intros A S j I. apply in_touched in I as [[<-|[]]|(r & [<-|[]] & I)]; [exact A|]. apply S. apply in_touched. now left.
Qed.

Lemma below_one a h id : (id < a -> below a h (refs_of h id)) -> (below a h [id] <-> id < a).
Proof.
  intros U. split.
  - intros B. apply B. apply in_touched. left. now left.
  - intros L j I. apply in_touched in I as [[<-|[]]|(r & [<-|[]] & I)]; [exact L|]. apply (U L). apply in_touched. now left.
Qed.

Definition evaluates (e : ex) : Prop := forall a tenv env h t l r h1, a <= length h -> good a tenv env h -> typ tenv e = Some (t, l) ->
  eval env e h = (r, h1) -> (exists n, h1 = h ++ n) /\ result_ok a h1 t e r.

(** What an argument of zipped contributes. *)
Lemma begin_ok a h t e id l : bound_ok a h t e id -> iterable t = true -> (l = true \/ is_borrowed t = true) ->
  (kind_of h id = Points -> lasting e) -> (numbers e -> t = TIota) -> (t = TIota -> lasting e \/ numbers e) ->
  sound h (begin_of h id) /\ ((lasting e \/ numbers e) <-> below a h (begin_of h id)).
Proof.
  intros [A B C D E F G] It Lt PL NT TN. unfold begin_of. destruct t; try discriminate; cbn [kind_for] in B; rewrite B in *.
  - split; [now apply sound_one|]. rewrite below_one by exact F. rewrite <- E. split; [intros [H|H]; [exact H | now apply NT in H] | now left].
  - split; [intros j []|]. split; [intros _ j [] | intros _; now apply TN].
  - split; [exact D|]. split; [intros _; apply F, E, PL; reflexivity | intros _; left; now apply PL].
  - split; [exact D|]. split; [intros _; apply F, E, PL; reflexivity | intros _; left; now apply PL].
Qed.

Lemma numbers_type tenv e t l : numbers e -> typ tenv e = Some (t, l) -> t = TIota.
Proof.
  intros N. revert t l. induction N as [|e N IH]; intros t l T; cbn in T; [congruence|].
  destruct (typ tenv e) as [[t' l']|] eqn:E; [|discriminate]. injection T as <- <-. exact (IH t' l' eq_refl).
Qed.

Lemma iota_type tenv e l : typ tenv e = Some (TIota, l) -> lasting e \/ numbers e.
Proof.
  revert l. induction e as [x| | | |e IH|e IH|e IH|e IH|e IH|es IH] using ex_ind0; intros l T; cbn [typ] in T; try discriminate.
  - left. constructor.
  - right. constructor.
  - destruct (typ tenv e) as [[[] ?]|]; discriminate.
  - destruct (typ tenv e) as [[[] ?]|]; discriminate.
  - destruct (typ tenv e) as [[t' l']|] eqn:E; [|discriminate]. cbn in T. injection T as -> <-.
    destruct (IH l' eq_refl); [left | right]; now constructor.
  - destruct (typ tenv e) as [[[] ?]|]; discriminate.
  - destruct (typ tenv e) as [[[] ?]|]; discriminate.
  - destruct (negb _ && _); discriminate.
Qed.

(** Views that are lvalues are variables. *)
Lemma view_lvalue tenv e t : typ tenv e = Some (t, true) -> kind_for t = Points -> lasting e.
Proof.
  intros T K. destruct e as [x| | | |e|e|e|e|e|es]; cbn [typ] in T; try discriminate.
  - constructor.
  - destruct (typ tenv e) as [[[] ?]|]; try discriminate. injection T as <- ->. discriminate.
  - destruct (typ tenv e) as [[[] ?]|]; try discriminate. injection T as <-. discriminate.
  - destruct (typ tenv e) as [[? ?]|]; discriminate.
  - destruct (typ tenv e) as [[[] ?]|]; discriminate.
  - destruct (typ tenv e) as [[[] ?]|]; discriminate.
  - destruct (negb _ && _); discriminate.
Qed.

Definition fits_zip (tenv : list vty) (e : ex) : Prop := exists t l, typ tenv e = Some (t, l) /\ iterable t = true /\ (l = true \/ is_borrowed t = true).

Lemma typ_zip tenv es t l : typ tenv (EZip es) = Some (t, l) -> t = TZip /\ l = false /\ es <> [] /\ Forall (fits_zip tenv) es.
Proof.
  cbn [typ]. destruct (negb (length es =? 0)) eqn:N; cbn [andb]; [|discriminate].
  destruct (forallb _ es) eqn:F; [|discriminate]. intros [= <- <-]. split; [reflexivity|]. split; [reflexivity|].
  split; [intros ->; discriminate|]. apply Forall_forall. intros e I. rewrite forallb_forall in F. specialize (F e I).
  destruct (typ tenv e) as [[t l]|] eqn:E; [|discriminate]. apply andb_prop in F as [F1 F2]. exists t, l. split; [exact E|]. split; [exact F1|].
  now apply orb_true_iff.
Qed.

Lemma args_ok es : Forall evaluates es -> forall a tenv env h refs h1, a <= length h -> good a tenv env h -> Forall (fits_zip tenv) es ->
  args env es h = (refs, h1) ->
  (exists n, h1 = h ++ n) /\ sound h1 refs /\ ((forall e, In e es -> lasting e \/ numbers e) <-> below a h1 refs).
Proof.
  induction es as [|e es' IH]; intros EV a tenv env h refs h1 L G Z E.
  - cbn in E. injection E as <- <-. split; [exists []; now rewrite app_nil_r|]. split; [intros j []|]. split; [intros _ j [] | intros _ e []].
  - inversion EV as [|? ? E1 E2]; subst. inversion Z as [|? ? (t & l & T & It & Lt) Z2]; subst. cbn [args] in E.
    destruct (eval env e h) as [r h2] eqn:Ev. destruct (bind_ref r h2) as [id h3] eqn:Eb. destruct (args env es' h3) as [refs' h4] eqn:Ea.
    injection E as <- <-. destruct (E1 a tenv env h t l r h2 L G T Ev) as [[n1 ->] R].
    assert (L2 : a <= length (h ++ n1)) by (rewrite app_length; lia).
    destruct (bind_ok a _ t e r id h3 L2 R Eb) as [[n2 ->] B].
    assert (L3 : a <= length ((h ++ n1) ++ n2)) by (rewrite app_length; lia).
    assert (G3 : good a tenv env ((h ++ n1) ++ n2)) by (now apply good_app, good_app).
    destruct (IH E2 a tenv env _ refs' h4 L3 G3 Z2 Ea) as ([n3 ->] & S' & K').
    assert (PL : kind_of ((h ++ n1) ++ n2) id = Points -> lasting e).
    { intros K. rewrite (b_kind _ _ _ _ _ B) in K. destruct Lt as [-> |Bo]; [now apply (view_lvalue tenv e t T) | destruct t; discriminate]. }
    destruct (begin_ok a _ t e id l B It Lt PL (fun N => numbers_type _ _ _ _ N T) (fun Q => iota_type tenv e l (eq_trans T (f_equal (fun t => Some (t, l)) Q)))) as [S K].
    split; [exists (n1 ++ n2 ++ n3); now rewrite !app_assoc|]. split.
    + intros j I. apply touched_both in I as [I|I]; [|now apply S']. now apply (sound_app _ n3 _ S).
    + assert (K3 : (lasting e \/ numbers e) <-> below a (((h ++ n1) ++ n2) ++ n3) (begin_of ((h ++ n1) ++ n2) id)) by (rewrite K; symmetry; now apply below_app).
      split.
      * intros A j I. apply touched_both in I as [I|I].
        -- apply (proj1 K3); [apply A; now left | exact I].
        -- apply (proj1 K'); [intros x X; apply A; now right | exact I].
      * intros A x [<-|X].
        -- apply K3. intros j I. apply A. apply touched_both. now left.
        -- apply (proj2 K'); [|exact X]. intros j I. apply A. apply touched_both. now right.
Qed.

Lemma good_nth a tenv env h x t : good a tenv env h -> nth_error tenv x = Some t -> var_ok a h t (nth x env 0).
Proof.
  intros G. revert x. induction G as [|u id tenv env V G IH]; intros x E; [destruct x; discriminate|].
  destruct x as [|x]; cbn in E |- *; [injection E as <-; exact V | now apply IH].
Qed.

Lemma below_nil a h : below a h [].
Proof. intros j []. Qed.
Lemma sound_nil h : sound h [].
Proof. intros j []. Qed.

Lemma eval_ok e : evaluates e.
Proof.
  induction e as [x| | | |e IH|e IH|e IH|e IH|e IH|es IH] using ex_ind0; intros a tenv env h t l r h1 L G T E.
  - cbn in T, E. destruct (nth_error tenv x) as [u|] eqn:N; [|discriminate]. injection T as <- <-. injection E as <- <-.
    split; [exists []; now rewrite app_nil_r|]. split; [reflexivity|]. destruct (good_nth _ _ _ _ _ _ G N) as [A B C D F K].
    constructor; auto.
    + split; [intros _; exact A | intros _; constructor].
    + split; [intros _; exact K | intros _; constructor].
  - cbn in T, E. injection T as <- <-. injection E as <- <-. split; [exists []; now rewrite app_nil_r|]. split; [reflexivity|].
    constructor; [reflexivity | reflexivity | apply sound_nil | split; [intros _; apply below_nil | intros _; constructor]].
  - cbn in T, E. injection T as <- <-. injection E as <- <-. split; [exists []; now rewrite app_nil_r|]. split; [reflexivity|].
    constructor; [reflexivity | reflexivity | apply sound_nil | split; [intros _; apply below_nil | intros _; constructor]].
  - cbn in T, E. injection T as <- <-. injection E as <- <-. split; [exists []; now rewrite app_nil_r|]. split; [reflexivity|].
    constructor; [reflexivity | reflexivity | apply sound_nil | split; [intros _; apply below_nil | intros _; constructor]].
  - cbn [typ eval] in T, E. destruct (typ tenv e) as [[t' l']|] eqn:Te; [|discriminate]. destruct t'; try discriminate. injection T as <- <-.
    destruct (eval env e h) as [r' h2] eqn:Ev. destruct (bind_ref r' h2) as [id h3] eqn:Eb. injection E as <- <-.
    destruct (IH a tenv env h _ _ r' h2 L G Te Ev) as [[n1 ->] R]. assert (L2 : a <= length (h ++ n1)) by (rewrite app_length; lia).
    destruct (bind_ok a _ _ e r' id h3 L2 R Eb) as [[n2 ->] [A B C D F K Q]]. split; [exists (n1 ++ n2); now rewrite app_assoc|].
    split; [reflexivity|]. constructor; auto.
    + rewrite <- F. split; [intros H; inversion H; assumption | now constructor].
    + split; [|intros _; constructor]. intros _. rewrite B in C. cbn in C. rewrite C. apply below_nil.
  - cbn [typ eval] in T, E. destruct (typ tenv e) as [[t' l']|] eqn:Te; [|discriminate]. destruct t'; try discriminate. injection T as <- <-.
    destruct (eval env e h) as [r' h2] eqn:Ev. destruct (bind_ref r' h2) as [id h3] eqn:Eb. injection E as <- <-.
    destruct (IH a tenv env h _ _ r' h2 L G Te Ev) as [[n1 ->] R]. assert (L2 : a <= length (h ++ n1)) by (rewrite app_length; lia).
    destruct (bind_ok a _ _ e r' id h3 L2 R Eb) as [[n2 ->] [A B C D F K Q]]. split; [exists (n1 ++ n2); now rewrite app_assoc|].
    split; [reflexivity|]. constructor; auto.
    + rewrite <- F. split; [intros H; inversion H; assumption | now constructor].
    + split; [|intros _; constructor]. intros _. rewrite B in C. cbn in C. rewrite C. apply below_nil.
  - cbn [typ eval] in T, E. destruct (typ tenv e) as [[t' l']|] eqn:Te; [|discriminate]. cbn in T. injection T as <- <-.
    destruct (eval env e h) as [r' h2] eqn:Ev. destruct (bind_ref r' h2) as [id h3] eqn:Eb. injection E as <- <-.
    destruct (IH a tenv env h _ _ r' h2 L G Te Ev) as [[n1 ->] R]. assert (L2 : a <= length (h ++ n1)) by (rewrite app_length; lia).
    destruct (bind_ok a _ _ e r' id h3 L2 R Eb) as [[n2 ->] [A B C D F K Q]]. split; [exists (n1 ++ n2); now rewrite app_assoc|].
    split; [reflexivity|]. constructor; auto.
    + rewrite <- F. split; [intros H; inversion H; assumption | now constructor].
    + rewrite <- Q. split; [intros H; inversion H; assumption | now constructor].
  - cbn [typ eval] in T, E. destruct (typ tenv e) as [[t' l']|] eqn:Te; [|discriminate]. destruct t'; try discriminate. injection T as <- <-.
    destruct (eval env e h) as [r' h2] eqn:Ev. destruct (bind_ref r' h2) as [id h3] eqn:Eb. injection E as <- <-.
    destruct (IH a tenv env h _ _ r' h2 L G Te Ev) as [[n1 ->] R]. assert (L2 : a <= length (h ++ n1)) by (rewrite app_length; lia).
    destruct (bind_ok a _ _ e r' id h3 L2 R Eb) as [[n2 ->] [A B C D F K Q]]. split; [exists (n1 ++ n2); now rewrite app_assoc|].
    split; [reflexivity|]. unfold begin_of. rewrite B. cbn [kind_for]. constructor; [reflexivity | exact I | now apply sound_one|].
    rewrite below_one by exact K. rewrite <- F. split; [intros H; inversion H; assumption | now constructor].
  - cbn [typ eval] in T, E. destruct (typ tenv e) as [[t' l']|] eqn:Te; [|discriminate].
    assert (t = TJoin) as -> by (destruct t'; congruence).
    destruct (eval env e h) as [r' h2] eqn:Ev. destruct (bind_ref r' h2) as [id h3] eqn:Eb. injection E as <- <-.
    destruct (IH a tenv env h _ _ r' h2 L G Te Ev) as [[n1 ->] R]. assert (L2 : a <= length (h ++ n1)) by (rewrite app_length; lia).
    destruct (bind_ok a _ _ e r' id h3 L2 R Eb) as [[n2 ->] [A B C D F K Q]]. split; [exists (n1 ++ n2); now rewrite app_assoc|].
    split; [reflexivity|]. constructor; [reflexivity | exact I | now apply sound_one|].
    rewrite below_one by exact K. rewrite <- F. split; [intros H; inversion H; assumption | now constructor].
  - apply typ_zip in T as (-> & -> & _ & Z). rewrite eval_zip in E. destruct (args env es h) as [refs h2] eqn:Ea. injection E as <- <-.
    destruct (args_ok es IH a tenv env h refs h2 L G Z Ea) as (N & S & K). split; [exact N|]. split; [reflexivity|].
    constructor; [reflexivity | exact I | exact S|]. rewrite <- K. split; [intros H; inversion H; assumption | now constructor].
Qed.
