(** More about handlers: what a call does to the variant, results, templates against templates. *)
From Coq Require Import List Arith ZArith Bool Lia.
From Verif Require Import Base OverModel OverSpec OverProofs OverMatchProofs.
Import ListNotations.

Section More.
Variables V R : Type.
Variable conv : ty -> ty -> V -> V.
Variable put_back : ty -> ty -> V -> V -> V.

Lemma match_called : forall W c v (hs : list (handler V R)) n x' r v' hs', sound W ->
  match_ conv put_back W c v hs = Called n x' r v' hs' ->
  exists k x t h y s, hs' = hs /\ v_held v = Some (k, x) /\ nth_error (v_alts v) k = Some t /\
    resolve W false (mkarg true c t) (map h_cand hs) = Some n /\ nth_error hs n = Some h /\ h_run h x' (h_state h) = (r, y, s) /\
    x' = match p_pat (c_param (h_cand h)) with Exactly u => if ty_eqb t u then x else conv t u x | _ => x end /\
    v' = mkvariant (v_alts v) (Some (k,
      if reaches c (c_param (h_cand h))
      then match p_pat (c_param (h_cand h)) with Exactly u => if ty_eqb t u then y else put_back t u x y | _ => y end
      else x)).
Proof.
  intros W c v hs n x' r v' hs' Sd. unfold match_. destruct (visitable W c (v_alts v) hs); cbn [negb]; [|discriminate].
  destruct (v_held v) as [[k x]|] eqn:Eh; [|discriminate]. destruct (nth_error (v_alts v) k) as [t|] eqn:Et; [|discriminate].
  destruct (resolve W false (mkarg true c t) (map h_cand hs)) as [m|] eqn:Er; [|discriminate].
  destruct (nth_error hs m) as [h|] eqn:En; [|discriminate].
  destruct (deduce (c_param (h_cand h)) (mkarg true c t)) as [q|] eqn:Ed; [|discriminate].
  destruct (h_run h (passed conv W t q x) (h_state h)) as [[r' y] s] eqn:Ehr. intros E. injection E as <- <- <- <- <-.
  exists k, x, t, h, y, s.
  apply resolve_wins in Er; [|exact Sd]. destruct Er as (cd & i & Ec & Ev & Eb).
  assert (Er : resolve W false (mkarg true c t) (map h_cand hs) = Some m).
  { apply resolve_wins; [exact Sd|]. exists cd, i. auto. }
  rewrite nth_error_map, En in Ec. cbn in Ec. injection Ec as <-.
  unfold viable in Ev. cbn [andb] in Ev. rewrite Ed in Ev.
  assert (P : passed conv W t q x = match p_pat (c_param (h_cand h)) with Exactly u => if ty_eqb t u then x else conv t u x | _ => x end).
  { unfold deduce in Ed. cbn [a_type a_const a_lvalue] in Ed. destruct (p_pat (c_param (h_cand h))) as [u| | |].
    - destruct (p_ref (c_param (h_cand h))); injection Ed as <-; reflexivity.
    - destruct (p_ref (c_param (h_cand h))); injection Ed as <-; cbn [passed]; now rewrite ty_eqb_refl.
    - destruct t; try discriminate. destruct (p_ref (c_param (h_cand h))); injection Ed as <-; cbn [passed]; now rewrite ty_eqb_refl.
    - destruct t; try discriminate. destruct (p_ref (c_param (h_cand h))); injection Ed as <-; cbn [passed]; now rewrite ty_eqb_refl. }
  repeat (split; [first [reflexivity|assumption]|]). f_equal. f_equal. f_equal.
  unfold deduce in Ed. unfold reaches. cbn [a_type a_const a_lvalue] in Ed.
  assert (G : forall u c', sequence W (mkarg true c t) (CL c' u) = Some i -> c' = false -> related W t u = true /\ c = false).
  { intros u c' Hs ->. unfold sequence in Hs. cbn [a_type a_const a_lvalue] in Hs. destruct (related W t u); [|discriminate].
    destruct c; [discriminate|auto]. }
  destruct (p_pat (c_param (h_cand h))) as [u| | |].
  - destruct (p_ref (c_param (h_cand h))); injection Ed as <-; cbn [after]; try reflexivity;
      destruct (p_const (c_param (h_cand h))); cbn [negb orb]; try reflexivity; destruct (G u false Ev eq_refl) as [-> _]; now destruct (ty_eqb t u).
  - destruct (p_ref (c_param (h_cand h))); injection Ed as <-; cbn [after]; try reflexivity;
      destruct (p_const (c_param (h_cand h)) || c); cbn [negb orb]; try reflexivity; now rewrite ty_eqb_refl.
  - destruct t; try discriminate. destruct (p_ref (c_param (h_cand h))); injection Ed as <-; cbn [after]; try reflexivity;
      destruct (p_const (c_param (h_cand h)) || c); cbn [negb orb]; try reflexivity; now rewrite ty_eqb_refl.
  - destruct t; try discriminate. destruct (p_ref (c_param (h_cand h))); injection Ed as <-; cbn [after]; try reflexivity;
      destruct (p_const (c_param (h_cand h))); cbn [negb orb]; try reflexivity; destruct (G _ false Ev eq_refl) as [_ ->]; cbn [negb]; now rewrite ty_eqb_refl.
Qed.

Lemma ret_eqb_eq a b : ret_eqb a b = true -> a = b.
Proof. unfold ret_eqb. rewrite andb_true_iff, eqb_true_iff, ty_eqb_eq. destruct a, b; cbn. intros [-> ->]. reflexivity. Qed.

Lemma match_compiles : forall W c v (hs : list (handler V R)), match_ conv put_back W c v hs <> Ill ->
  forall t, In t (v_alts v) -> exists n h, resolve W false (mkarg true c t) (map h_cand hs) = Some n /\ nth_error hs n = Some h /\
  forall t' n' h', In t' (v_alts v) -> resolve W false (mkarg true c t') (map h_cand hs) = Some n' -> nth_error hs n' = Some h' -> h_returns h' = h_returns h.
Proof.
  intros W c v hs H. assert (Hv : visitable W c (v_alts v) hs = true).
  { unfold match_ in H. destruct (visitable W c (v_alts v) hs); [reflexivity|]. now contradiction H. }
  unfold visitable in Hv. rewrite forallb_forall in Hv.
  assert (K : exists r0, forall t, In t (v_alts v) -> exists n h, resolve W false (mkarg true c t) (map h_cand hs) = Some n /\ nth_error hs n = Some h /\ h_returns h = r0).
  { destruct (v_alts v) as [|t0 ts]; [exists (false, Arith TInt); intros t []|].
    pose proof (Hv t0 (or_introl eq_refl)) as H0.
    destruct (resolve W false (mkarg true c t0) (map h_cand hs)) as [m|] eqn:E0; [|discriminate].
    destruct (nth_error hs m) as [h0|] eqn:N0; [|discriminate]. exists (h_returns h0). intros t Ht. specialize (Hv t Ht).
    destruct (resolve W false (mkarg true c t) (map h_cand hs)) as [n|]; [|discriminate].
    destruct (nth_error hs n) as [h|] eqn:Nn; [|discriminate]. exists n, h. apply ret_eqb_eq in Hv. auto. }
  destruct K as (r0 & K). intros t Ht. destruct (K t Ht) as (n & h & En & Hn & Er). exists n, h. repeat split; auto.
  intros t' n' h' Ht' En' Hn'. destruct (K t' Ht') as (n2 & h2 & E2 & H2 & R2). congruence.
Qed.
End More.

(** Templates against templates. *)
Lemma generic_viable W c t f : generic (c_param f) -> p_ref (c_param f) = lref \/ p_ref (c_param f) = forwarding ->
  viable W false (mkarg true c t) f = Some (mkics exact_match t (Some (false, p_const (c_param f) || c))).
Proof.
  intros G Rf. unfold viable, deduce. cbn [andb]. rewrite G. cbn [a_type a_const a_lvalue].
  destruct Rf as [-> | ->]; unfold sequence; cbn [a_type a_const a_lvalue]; rewrite related_refl, convert_refl;
    replace (implb c (p_const (c_param f) || c)) with true by (destruct c, (p_const (c_param f)); reflexivity); reflexivity.
Qed.

Lemma ics_same W c t : sound W -> ics_better W (mkics exact_match t (Some (false, c))) (mkics exact_match t (Some (false, c))) = false.
Proof. intros Sd. unfold ics_better. cbn. rewrite derives_irrefl by exact Sd. rewrite ty_eqb_refl. cbn. now destruct c. Qed.
Lemma ics_less W t : sound W -> ics_better W (mkics exact_match t (Some (false, false))) (mkics exact_match t (Some (false, true))) = true /\
  ics_better W (mkics exact_match t (Some (false, true))) (mkics exact_match t (Some (false, false))) = false.
Proof. intros Sd. unfold ics_better. cbn. rewrite derives_irrefl by exact Sd. rewrite ty_eqb_refl. auto. Qed.

(** [auto&] before [auto&&] and [const auto&]. *)
Lemma auto_ref : forall W t cs n f, sound W -> nth_error cs n = Some f -> generic (c_param f) -> p_ref (c_param f) = lref -> p_const (c_param f) = false ->
  c_mutable f = false ->
  (forall m g, m <> n -> nth_error cs m = Some g -> c_mutable g = false /\
    ((exists u, p_pat (c_param g) = Exactly u /\ u <> t) \/
     (generic (c_param g) /\ (p_ref (c_param g) = forwarding /\ p_const (c_param g) = false \/ p_ref (c_param g) = lref /\ p_const (c_param g) = true)))) ->
  resolve W false (mkarg true false t) cs = Some n.
Proof.
  intros W t cs n f Sd N G Rf Cf M O. apply resolve_wins; [exact Sd|].
  exists f, (mkics exact_match t (Some (false, false))). split; [exact N|].
  split; [rewrite (generic_viable W false t f G (or_introl Rf)), Cf; reflexivity|].
  intros m g j D Nm Vg. destruct (O m g D Nm) as [Mg [(u & P & U)|(Gg & K)]]; unfold better; rewrite M, Mg; cbn [andb negb orb].
  - destruct (other_worse W t (Some (false, false)) j (other_rank W false (mkarg true false t) g j u P U Vg)) as [-> ->]. reflexivity.
  - rewrite (generic_viable W false t g Gg) in Vg by tauto. injection Vg as <-. destruct K as [[Kr Kc]|[Kr Kc]]; rewrite Kc; cbn [orb].
    + rewrite ics_same by exact Sd. cbn [negb andb orb].
      unfold tie_break, is_template, more_specialized, at_least. unfold generic in *. rewrite G, Gg, Rf, Kr, Cf, Kc. reflexivity.
    + destruct (ics_less W t Sd) as [-> ->]. reflexivity.
Qed.

(** For const variants, [const auto&] before [auto&] and [auto&&]. *)
Lemma const_auto_ref : forall W t cs n f, sound W -> nth_error cs n = Some f -> generic (c_param f) -> p_ref (c_param f) = lref -> p_const (c_param f) = true ->
  c_mutable f = false ->
  (forall m g, m <> n -> nth_error cs m = Some g -> c_mutable g = false /\
    ((exists u, p_pat (c_param g) = Exactly u /\ u <> t) \/
     (generic (c_param g) /\ p_const (c_param g) = false /\ (p_ref (c_param g) = forwarding \/ p_ref (c_param g) = lref)))) ->
  resolve W false (mkarg true true t) cs = Some n.
Proof.
  intros W t cs n f Sd N G Rf Cf M O. apply resolve_wins; [exact Sd|].
  exists f, (mkics exact_match t (Some (false, true))). split; [exact N|].
  split; [rewrite (generic_viable W true t f G (or_introl Rf)), Cf; reflexivity|].
  intros m g j D Nm Vg. destruct (O m g D Nm) as [Mg [(u & P & U)|(Gg & Kc & Kr)]]; unfold better; rewrite M, Mg; cbn [andb negb orb].
  - destruct (other_worse W t (Some (false, true)) j (other_rank W false (mkarg true true t) g j u P U Vg)) as [-> ->]. reflexivity.
  - rewrite (generic_viable W true t g Gg) in Vg by tauto. injection Vg as <-. rewrite orb_true_r.
    rewrite ics_same by exact Sd. cbn [negb andb orb].
    unfold tie_break, is_template, more_specialized, at_least. unfold generic in *. rewrite G, Gg, Rf, Cf, Kc. destruct Kr as [-> | ->]; reflexivity.
Qed.
