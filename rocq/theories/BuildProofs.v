(** Proofs about builders and extractors. *)
From Coq Require Import String List NArith ZArith Arith Bool Lia.
From Verif Require Import Base PathModel EnumProofs SerialModel SerialSpec SerialBaseProofs SerialSamples SerialMsgModel SerialMsgEraseProofs SerialRoundProofs BuildModel BuildSpec.
Import ListNotations.
Local Open Scope list_scope.

Local Notation str := (list N) (only parsing).

(* ------------------------------------------------------------------ *)
(** ** Arrays *)

Lemma array_calls_tuple be skip tvs : forall s,
  one_document (array_calls be skip (map (fun tv => AAdd (fst tv) (snd tv)) tvs ++ [ADone]) (Some s)) =
  match ser_tuple (fun t => ser be skip t None) (map fst tvs) (map snd tvs) with
  | Ok js => Ok [JArr (s ++ js)] | Throws => Throws | UB => UB end.
Proof.
  induction tvs as [|[t v] tvs IH]; intros s.
  - cbn. rewrite app_nil_r. destruct be; reflexivity.
  - cbn [map app array_calls ser_tuple fst snd]. unfold add_element, serialize. destruct (ser be skip t None v) as [j| |]; cbn [obind]; [|reflexivity|reflexivity].
    rewrite IH. destruct (ser_tuple _ _ _) as [js| |]; cbn [obind]; [|reflexivity|reflexivity]. rewrite <- app_assoc. reflexivity.
Qed.

Lemma array_built_lemma be skip tvs :
  one_document (array_calls be skip (map (fun tv => AAdd (fst tv) (snd tv)) tvs ++ [ADone]) new_array) =
  match serialize be skip (TTup (map fst tvs)) (VSeq (map snd tvs)) with
  | Ok d => Ok [d] | Throws => Throws | UB => UB end.
Proof.
  unfold new_array. rewrite array_calls_tuple. unfold serialize. cbn [ser]. unfold omap.
  destruct (ser_tuple _ _ _); reflexivity.
Qed.

(* ------------------------------------------------------------------ *)
(** ** Objects *)

Lemma members_app m a b ra : members m a = Ok ra ->
  members m (a ++ b) = match members m b with Ok rb => Ok (ra ++ rb) | _ => UB end.
Proof.
  revert ra. induction a as [|[n j] a IH]; intros ra H.
  - injection H as <-. cbn [app]. assert (K : members m b <> Throws).
    { clear. induction b as [|[n j] b IH]; cbn [members]; [discriminate|]. destruct (match n with Copied s => Ok s | Viewed w => read_view m w end), (members m b); discriminate. }
    destruct (members m b); [reflexivity | congruence | reflexivity].
  - cbn [members app] in *. destruct (match n with Copied s => Ok s | Viewed w => read_view m w end) as [s| |]; try discriminate.
    destruct (members m a) as [r| |]; try discriminate. rewrite (IH r eq_refl). injection H as <-. destruct (members m b); reflexivity.
Qed.

(** All names are copies. *)
Definition copied (ms : list (name * json)) (r : list (str * json)) : Prop := ms = map (fun x => (Copied (fst x), snd x)) r.

Lemma set_fresh n j ms r : copied ms r -> ~ In n (map fst r) -> set_member n j ms = ms ++ [(Copied n, j)].
Proof.
  unfold copied. revert ms. induction r as [|[k i] r IH]; intros ms -> Hn; [reflexivity|]. cbn [map set_member fst snd app].
  destruct (str_eqb n k) eqn:E; [apply str_eqb_true in E; subst; elim Hn; now left|]. f_equal. apply IH; [reflexivity|].
  intros H. apply Hn. now right.
Qed.

Lemma members_copied m ms r : copied ms r -> members m ms = Ok r.
Proof. unfold copied. revert ms. induction r as [|[k i] r IH]; intros ms ->; [reflexivity|]. cbn [map members fst snd]. rewrite (IH _ eq_refl). reflexivity. Qed.

Definition fields_of (ns : list str) (es : list entry) : list (attrs * ty) := map (fun ne => emitting (fst ne) (e_type (snd ne))) (combine ns es).

Lemma emitting_written skip (f : ty -> option (list str) -> val -> outcome json) n t v fs vs :
  ser_fields skip f [] (emitting n t :: fs) (v :: vs) = obind (f t None v) (fun j => obind (ser_fields skip f [] fs vs) (fun r => Ok ((n, j) :: r))).
Proof. cbn -[ser_fields]. unfold ser_fields at 1. cbn. destruct (f t None v); reflexivity. Qed.

Lemma built_json fp skip m m' es ns : names_in m es ns -> names_survive (Json fp) m' es ns -> forall ms r, members m' ms = Ok r ->
  match add_members (Json fp) skip m es (Some ms) with
  | Ok (Some ms') => members m' ms' | Ok None => UB | Throws => Throws | UB => UB end =
  match ser_fields skip (ser (Json fp) skip) [] (fields_of ns es) (map e_value es) with
  | Ok js => Ok (r ++ js) | Throws => Throws | UB => UB end.
Proof.
  intros H. induction H as [|e n es ns He H IH]; intros Hs ms r Hr.
  - cbn. rewrite app_nil_r. exact Hr.
  - inversion Hs as [|? ? ? ? Hn Hs']; subst. unfold fields_of. cbn [add_members map combine]. fold (fields_of ns es).
    rewrite emitting_written. unfold add_member, serialize. cbn [fst snd].
    destruct (ser (Json fp) skip (e_type e) None (e_value e)) as [j| |]; cbn [obind]; [|reflexivity|reflexivity].
    assert (E : forall x, (match x with Copied s => Ok s | Viewed w => read_view m' w end) = Ok n -> members m' (ms ++ [(x, j)]) = Ok (r ++ [(n, j)])).
    { intros x Hx. rewrite (members_app _ _ _ _ Hr). cbn [members]. rewrite Hx. reflexivity. }
    assert (G : forall ms', members m' ms' = Ok (r ++ [(n, j)]) ->
      match add_members (Json fp) skip m es (Some ms') with
      | Ok (Some ms') => members m' ms' | Ok None => UB | Throws => Throws | UB => UB end =
      match obind (ser_fields skip (ser (Json fp) skip) [] (fields_of ns es) (map e_value es)) (fun r0 => Ok ((n, j) :: r0)) with
      | Ok js => Ok (r ++ js) | Throws => Throws | UB => UB end).
    { intros ms' K. rewrite (IH Hs' ms' _ K). destruct (ser_fields _ _ _ _ _); cbn [obind]; [|reflexivity|reflexivity]. rewrite <- app_assoc. reflexivity. }
    destruct (e_dynamic e) eqn:Ed.
    + rewrite He. apply G. apply E. reflexivity.
    + apply G. apply E. destruct Hn as [Hn | Hn]; [discriminate | exact Hn].
Qed.

Lemma built_yaml ft skip m m' es ns : names_in m es ns -> NoDup ns -> forall ms r, copied ms r -> (forall n, In n ns -> ~ In n (map fst r)) ->
  match add_members (Yaml ft) skip m es (Some ms) with
  | Ok (Some ms') => members m' ms' | Ok None => UB | Throws => Throws | UB => UB end =
  match ser_fields skip (ser (Yaml ft) skip) [] (fields_of ns es) (map e_value es) with
  | Ok js => Ok (r ++ js) | Throws => Throws | UB => UB end.
Proof.
  intros H. induction H as [|e n es ns He H IH]; intros Hd ms r Hr Hf.
  - cbn. rewrite app_nil_r. apply members_copied. exact Hr.
  - inversion Hd as [|? ? Hn Hd']; subst. unfold fields_of. cbn [add_members map combine]. fold (fields_of ns es).
    rewrite emitting_written. unfold add_member, serialize. cbn [fst snd].
    destruct (ser (Yaml ft) skip (e_type e) None (e_value e)) as [j| |]; cbn [obind]; [|reflexivity|reflexivity].
    rewrite He. rewrite (set_fresh n j ms r Hr (Hf n (or_introl eq_refl))).
    rewrite (IH Hd' _ (r ++ [(n, j)])).
    + destruct (ser_fields _ _ _ _ _); cbn [obind]; [|reflexivity|reflexivity]. rewrite <- app_assoc. reflexivity.
    + unfold copied in *. rewrite map_app, Hr. reflexivity.
    + intros k Hk. rewrite map_app, in_app_iff. intros [K | [K | []]]; [apply (Hf k); [now right | exact K]|]. cbn in K. subst k. contradiction.
Qed.

Lemma no_reserved ns es : reserved_field_names (fields_of ns es) = Ok [].
Proof.
  unfold reserved_field_names. replace (any_extra_or_flatten (fields_of ns es)) with false; [reflexivity|]. symmetry.
  unfold any_extra_or_flatten, fields_of. induction (combine ns es) as [|x l IH]; [reflexivity|]. cbn [map existsb]. rewrite IH. reflexivity.
Qed.

Lemma object_built_lemma be skip m m' es ns : names_in m es ns -> names_survive be m' es ns ->
  match be with Json _ => True | Yaml _ => NoDup ns end ->
  build_object be skip m m' es =
  serialize be skip (TRec (map (fun ne => emitting (fst ne) (e_type (snd ne))) (combine ns es))) (VRec (map e_value es)).
Proof.
  intros Hn Hs Hd. fold (fields_of ns es). unfold serialize. cbn [ser]. rewrite no_reserved. cbn [obind]. unfold build_object, omap, new_object, done_object.
  assert (E : match add_members be skip m es (Some []) with
              | Ok (Some ms') => members m' ms' | Ok None => UB | Throws => Throws | UB => UB end =
              match ser_fields skip (ser be skip) [] (fields_of ns es) (map e_value es) with
              | Ok js => Ok js | Throws => Throws | UB => UB end).
  { destruct be as [fp | ft].
    - rewrite (built_json fp skip m m' es ns Hn Hs [] [] eq_refl). reflexivity.
    - rewrite (built_yaml ft skip m m' es ns Hn Hd [] [] eq_refl (fun n _ H => H)). reflexivity. }
  assert (NS : forall s l, add_members be skip m l (Some s) <> Ok None).
  { clear. intros s l. revert s. induction l as [|e l IH]; intros s; cbn [add_members]; [discriminate|].
    unfold add_member. destruct (serialize be skip (e_type e) (e_value e)); [|discriminate|discriminate]. destruct be.
    - destruct (if e_dynamic e then _ else _); [apply IH | discriminate | discriminate].
    - destruct (read_view m (e_view e)); [apply IH | discriminate | discriminate]. }
  assert (NT : forall ms, members m' ms <> Throws).
  { clear. induction ms as [|[n j] b IH]; cbn [members]; [discriminate|]. destruct (match n with Copied s => Ok s | Viewed w => read_view m' w end), (members m' b); discriminate. }
  destruct (add_members be skip m es (Some [])) as [[ms|]| |] eqn:Ea; [|elim (NS _ _ Ea)|..];
    destruct (ser_fields _ _ _ _ _) as [js| |]; cbn [obind] in *; try discriminate; try reflexivity.
  - rewrite E. reflexivity.
  - elim (NT ms E).
  - rewrite E. reflexivity.
Qed.

(* ------------------------------------------------------------------ *)
(** ** Taking apart *)

Lemma c_string_same s : ~ In 0%N s -> c_string s = s.
Proof.
  induction s as [|x s IH]; intros H; [reflexivity|]. cbn [c_string]. destruct (N.eqb_spec x 0) as [-> | Hx]; [elim H; now left|].
  f_equal. apply IH. intros K. apply H. now right.
Qed.

Lemma bare_read n t f ms v : xread_field (fst (bare n t)) f ms v = f (at_field ms n) v.
Proof.
  unfold xread_field, bare, resolve_field_name, xthen_validate, serialized_name. cbn [fst plain a_rename a_name a_aliases find a_default a_allow_missing a_validators].
  destruct (has_field ms n); [destruct (is_null (at_field ms n))|]; destruct (f (at_field ms n) v) as [? []]; reflexivity.
Qed.

Lemma members_cons f names ms a t fs v vs : ordinary a ->
  xdeser_members f names ms ((a, t) :: fs) (v :: vs) =
  match xread_field a (f t) ms v with
  | (v', Some e) => (v' :: vs, Some (add (LField Deserializing (a_name a)) e))
  | (v', None) => let '(r, e') := xdeser_members f names ms fs vs in (v' :: r, e')
  end.
Proof.
  intros (H1 & H2 & H3). cbn -[xread_field catch]. rewrite H1, H2, H3. destruct (xread_field a (f t) ms v) as [v' [e|]]; reflexivity.
Qed.

Lemma members_bare be tname names ms fs : Forall (fun f => ~ In 0%N (fst f)) fs -> forall vs, length fs = length vs ->
  xdeser_members (xdeser be tname) names ms (map (fun f => bare (fst f) (snd f)) fs) vs = extract_members be tname ms fs vs.
Proof.
  induction fs as [|[n t] fs IH]; intros Hz [|v vs] Hl; try discriminate; [reflexivity|].
  inversion Hz as [|? ? Hn Hz']; subst. injection Hl as Hl. cbn [map extract_members fst snd] in *. rewrite (c_string_same n Hn).
  change (bare n t) with (fst (bare n t), t). rewrite members_cons by (repeat split). cbn [fst]. change (a_name (plain n (default_of t))) with n.
  change (plain n (default_of t)) with (fst (bare n t)).
  rewrite bare_read. destruct (xdeser be tname t (at_field ms n) v) as [v' [e|]]; [reflexivity|]. rewrite (IH Hz' vs Hl). reflexivity.
Qed.

Lemma elements_bare be tname js fs : forall i vs, length fs = length vs -> (N.of_nat (i + length fs) < 2 ^ 32)%N ->
  xdeser_elements (xdeser be tname) js (map (fun f => bare (fst f) (snd f)) fs) i vs =
  (let '(r, _, e) := extract_elements be tname js (map (fun f => (snd f, None)) fs) (N.of_nat i) vs in (r, e)).
Proof.
  induction fs as [|[n t] fs IH]; intros i [|v vs] Hl Hi; try discriminate; [reflexivity|].
  injection Hl as Hl. cbn [map extract_elements fst snd length] in *. unfold extract_element. rewrite Nat2N.id.
  unfold xdeser_elements. cbn [bare plain a_skip_deser a_extra a_flatten]. fold (xdeser_elements (xdeser be tname) js).
  unfold xthen_validate. cbn [a_validators xvalidate].
  destruct (xdeser be tname t (at_index js i) v) as [v' [e|]]; [reflexivity|].
  replace (next_index (N.of_nat i)) with (N.of_nat (S i)) by (unfold next_index; rewrite N.mod_small; lia).
  rewrite IH; [|exact Hl|lia]. destruct (extract_elements be tname js _ _ _) as [[r k] e]. reflexivity.
Qed.

Lemma no_reserved_bare fs : reserved_field_names (map (fun f => bare (fst f) (snd f)) fs) = Ok [].
Proof.
  unfold reserved_field_names. replace (any_extra_or_flatten _) with false; [reflexivity|]. symmetry.
  unfold any_extra_or_flatten. induction fs as [|x l IH]; [reflexivity|]. cbn [map existsb]. rewrite IH. reflexivity.
Qed.

Lemma from_object_lemma be tname ms fs vs : Forall (fun f => ~ In 0%N (fst f)) fs -> length fs = length vs ->
  let struct := map (fun f => bare (fst f) (snd f)) fs in
  xdeser be tname (TRec struct) (JObj ms) (VRec vs) =
  (VRec (fst (from_object be tname (JObj ms) fs vs)),
   option_map (add (LType Deserializing (tname struct))) (snd (from_object be tname (JObj ms) fs vs))).
Proof.
  intros Hz Hl. cbv zeta. cbn [xdeser from_object]. rewrite no_reserved_bare, members_bare by assumption.
  destruct (extract_members be tname ms fs vs) as [r [e|]]; reflexivity.
Qed.

Lemma count_bare fs : sequence_field_count (map (fun f => bare (fst f) (snd f)) fs) = length fs.
Proof. unfold sequence_field_count. induction fs as [|f fs IH]; [reflexivity|]. cbn in *. rewrite IH. reflexivity. Qed.

Lemma from_array_lemma be tname js fs vs : length fs = length vs -> (N.of_nat (length fs) < 2 ^ 32)%N -> length js <= length fs ->
  let struct := map (fun f => bare (fst f) (snd f)) fs in
  let calls := map (fun f => (snd f, None)) fs in
  xdeser be tname (TRec struct) (JArr js) (VRec vs) =
  (VRec (fst (fst (from_array be tname (JArr js) calls vs))),
   option_map (add (LType Deserializing (tname struct))) (snd (from_array be tname (JArr js) calls vs))).
Proof.
  intros Hl Hn Hj. cbv zeta. cbn [xdeser from_array]. rewrite count_bare. destruct (Nat.ltb_spec (length fs) (length js)); [lia|].
  rewrite (elements_bare be tname js fs 0 vs Hl Hn). change (N.of_nat 0) with 0%N.
  destruct (extract_elements be tname js _ 0 vs) as [[r k] [e|]]; reflexivity.
Qed.

(* ------------------------------------------------------------------ *)
(** ** There and back *)

Lemma no_report be tname t j w v : deser be t j w = (v, None) -> xdeser be tname t j w = (v, None).
Proof.
  intros H. pose proof (xdeser_erase be tname t j w) as E. rewrite H in E. destruct (xdeser be tname t j w) as [x [e|]]; unfold erase in E; cbn [fst snd option_map] in E; [discriminate | injection E as ->; reflexivity].
Qed.

Lemma fields_written be skip ns es : length ns = length es -> forall ms,
  ser_fields skip (ser be skip) [] (fields_of ns es) (map e_value es) = Ok ms ->
  map fst ms = ns /\ Forall2 (fun e x => serialize be skip (e_type e) (e_value e) = Ok (snd x)) es ms.
Proof.
  revert es. induction ns as [|n ns IH]; intros [|e es] Hl ms H; try discriminate.
  - injection H as <-. split; [reflexivity | constructor].
  - unfold fields_of in H. cbn [combine map fst snd] in H. fold (fields_of ns es) in H. rewrite emitting_written in H.
    destruct (ser be skip (e_type e) None (e_value e)) as [j| |] eqn:Ej; cbn [obind] in H; try discriminate.
    destruct (ser_fields skip (ser be skip) [] (fields_of ns es) (map e_value es)) as [r| |] eqn:Er; cbn [obind] in H; try discriminate.
    injection H as <-. injection Hl as Hl. destruct (IH es Hl r Er) as [<- F]. split; [reflexivity|]. constructor; [exact Ej | exact F].
Qed.

Lemma at_field_in ms n j : NoDup (map fst ms) -> In (n, j) ms -> at_field ms n = j.
Proof. intros Hd H. unfold at_field. rewrite (find_member_nodup n j ms Hd H). reflexivity. Qed.

Lemma extract_back be tname skip ms es part ws : NoDup (map fst ms) -> (forall x, In x part -> In x ms) ->
  Forall (fun n => ~ In 0%N n) (map fst part) ->
  Forall2 (fun e x => serialize be skip (e_type e) (e_value e) = Ok (snd x)) es part ->
  Forall2 (comes_back be skip) es ws ->
  extract_members be tname ms (combine (map fst part) (map e_type es)) ws = (map e_value es, None).
Proof.
  intros Hd Hin Hz F. revert ws Hin Hz. induction F as [|e x es part Hs F IH]; intros ws Hin Hz W; inversion W as [|? w ? ws' Hw W']; subst; [reflexivity|].
  cbn [map combine extract_members] in *. inversion Hz as [|? ? Hn Hz']; subst. rewrite (c_string_same _ Hn).
  destruct x as [n j]. cbn [fst snd] in *. rewrite (at_field_in ms n j Hd (Hin _ (or_introl eq_refl))).
  destruct Hw as (Wf & Ty & Rt). rewrite (no_report _ _ _ _ _ _ (round_trip_lemma be skip _ _ _ _ Wf Ty Rt Hs)).
  rewrite IH; [reflexivity | intros y Hy; apply Hin; now right | exact Hz' | exact W'].
Qed.

Lemma object_kept_lemma be tname skip m m' es ns ws d : names_in m es ns -> names_survive be m' es ns -> NoDup ns ->
  Forall (fun n => ~ In 0%N n) ns -> Forall2 (comes_back be skip) es ws ->
  build_object be skip m m' es = Ok d ->
  from_object be tname d (combine ns (map e_type es)) ws = (map e_value es, None).
Proof.
  intros Hn Hs Hd Hz W H. rewrite (object_built_lemma be skip m m' es ns Hn Hs) in H by (destruct be; auto).
  fold (fields_of ns es) in H. unfold serialize in H. cbn [ser] in H. rewrite no_reserved in H. cbn [obind] in H. unfold omap in H.
  destruct (ser_fields skip (ser be skip) [] (fields_of ns es) (map e_value es)) as [ms| |] eqn:E; cbn [obind] in H; try discriminate.
  injection H as <-. cbn [from_object].
  assert (Hl : length ns = length es) by (clear - Hn; induction Hn; cbn; congruence).
  destruct (fields_written be skip ns es Hl ms E) as [K F]. subst ns. apply (extract_back be tname skip ms es ms ws); auto.
Qed.

Lemma tuple_written be skip tvs : forall js, ser_tuple (fun t => ser be skip t None) (map fst tvs) (map snd tvs) = Ok js ->
  Forall2 (fun tv j => serialize be skip (fst tv) (snd tv) = Ok j) tvs js.
Proof.
  induction tvs as [|[t v] tvs IH]; intros js H; cbn [map fst snd ser_tuple] in H.
  - injection H as <-. constructor.
  - destruct (ser be skip t None v) as [j| |] eqn:Ej; cbn [obind] in H; try discriminate.
    destruct (ser_tuple _ _ _) as [r| |] eqn:Er; cbn [obind] in H; try discriminate. injection H as <-. constructor; [exact Ej | now apply IH].
Qed.

Lemma elements_back be tname skip tvs : forall pre part ws, (N.of_nat (length pre + length tvs) < 2 ^ 32)%N ->
  Forall2 (fun tv j => serialize be skip (fst tv) (snd tv) = Ok j) tvs part ->
  Forall2 (element_back be skip) tvs ws ->
  extract_elements be tname (pre ++ part) (map (fun tv => (fst tv, None)) tvs) (N.of_nat (length pre)) ws =
  (map snd tvs, N.of_nat (length pre + length tvs), None).
Proof.
  induction tvs as [|[t v] tvs IH]; intros pre part ws Hb F W; inversion W as [|? w ? ws' Hw W']; subst.
  - cbn. rewrite Nat.add_0_r. reflexivity.
  - cbn [map extract_elements fst snd length] in *. inversion F as [|? j ? part' Hs F' Ex Ep]; subst. unfold extract_element. rewrite Nat2N.id.
    assert (Ea : at_index (pre ++ j :: part') (length pre) = j).
    { unfold at_index. rewrite nth_error_app2, Nat.sub_diag by lia. reflexivity. }
    destruct Hw as (Wf & Ty & Rt). cbn [fst snd] in *. rewrite Ea, (no_report _ _ _ _ _ _ (round_trip_lemma be skip _ _ _ _ Wf Ty Rt Hs)).
    replace (next_index (N.of_nat (length pre))) with (N.of_nat (length (pre ++ [j]))) by (rewrite app_length; unfold next_index; rewrite N.mod_small; cbn [length]; lia).
    replace (pre ++ j :: part') with ((pre ++ [j]) ++ part') by (rewrite <- app_assoc; reflexivity).
    rewrite (IH (pre ++ [j]) part' ws'); [| rewrite app_length; cbn [length]; lia | exact F' | exact W'].
    rewrite app_length. cbn [length]. replace (length pre + 1 + length tvs) with (length pre + S (length tvs)) by lia. reflexivity.
Qed.

Lemma array_kept_lemma be tname skip tvs ws d : (N.of_nat (length tvs) < 2 ^ 32)%N -> Forall2 (element_back be skip) tvs ws ->
  one_document (array_calls be skip (map (fun tv => AAdd (fst tv) (snd tv)) tvs ++ [ADone]) new_array) = Ok [d] ->
  from_array be tname d (map (fun tv => (fst tv, None)) tvs) ws = (map snd tvs, N.of_nat (length tvs), None).
Proof.
  intros Hb W H. unfold new_array in H. rewrite array_calls_tuple in H.
  destruct (ser_tuple _ _ _) as [js| |] eqn:E; try discriminate. injection H as <-. cbn [app from_array].
  exact (elements_back be tname skip tvs [] js ws Hb (tuple_written be skip tvs js E) W).
Qed.
