(** match.hpp *)
From Coq Require Import List Arith ZArith Bool Lia.
From Verif Require Import Base OverModel OverSpec OverProofs.
Import ListNotations.

Section S.
Variables V R : Type.
Variable conv : ty -> ty -> V -> V.
Variable put_back : ty -> ty -> V -> V -> V.

Lemma plain_resolve : forall W c rt t (hs : list (handler V R)) n h, sound W -> plain_handlers rt hs -> nth_error hs n = Some h ->
  for_type c t (c_param (h_cand h)) -> (forall m g, m <> n -> nth_error hs m = Some g -> p_pat (c_param (h_cand g)) <> Exactly t) ->
  resolve W false (mkarg true c t) (map h_cand hs) = Some n.
Proof.
  intros W c rt t hs n h Sd P N F O. apply (own_handler_plain W c t _ n (h_cand h) Sd); [rewrite nth_error_map, N; reflexivity | exact F | exact (proj1 (P h (nth_error_In _ _ N)))|].
  intros m g D Nm. rewrite nth_error_map in Nm. destruct (nth_error hs m) as [g'|] eqn:E; [|discriminate Nm]. injection Nm as <-.
  destruct (P g' (nth_error_In _ _ E)) as (M & _ & u & U). split; [exact M|]. exists u. split; [exact U|]. intros ->. exact (O m g' D E U).
Qed.

Lemma plain_visitable : forall W c rt alts (hs : list (handler V R)), sound W -> plain_handlers rt hs -> own_handlers c alts hs -> visitable W c alts hs = true.
Proof.
  intros W c rt alts hs Sd P O. unfold visitable. apply forallb_forall. intros t I.
  destruct (O t I) as (n & h & N & F & U). rewrite (plain_resolve W c rt t hs n h Sd P N F U), N.
  destruct alts as [|t0 alts]; [destruct I|]. destruct (O t0 (or_introl eq_refl)) as (m & g & Nm & Fm & Um).
  rewrite (plain_resolve W c rt t0 hs m g Sd P Nm Fm Um), Nm. destruct (P h (nth_error_In _ _ N)) as (_ & -> & _). destruct (P g (nth_error_In _ _ Nm)) as (_ & -> & _).
  unfold ret_eqb. rewrite eqb_reflx, ty_eqb_refl. reflexivity.
Qed.

Lemma match_dispatch : forall W c rt v (hs : list (handler V R)) k x t n h r y s, sound W -> plain_handlers rt hs -> own_handlers c (v_alts v) hs ->
  v_held v = Some (k, x) -> nth_error (v_alts v) k = Some t -> nth_error hs n = Some h -> for_type c t (c_param (h_cand h)) ->
  h_run h x (h_state h) = (r, y, s) ->
  match_ conv put_back W c v hs = Called n x r
    (mkvariant (v_alts v) (Some (k, match p_ref (c_param (h_cand h)), p_const (c_param (h_cand h)) with lref, false => y | _, _ => x end))) hs.
Proof.
  intros W c rt v hs k x t n h r y s Sd P O H T N F E. unfold match_.
  rewrite (plain_visitable W c rt _ hs Sd P O), H, T. cbn [negb].
  assert (U : forall m g, m <> n -> nth_error hs m = Some g -> p_pat (c_param (h_cand g)) <> Exactly t).
  { destruct (O t (nth_error_In _ _ T)) as (n2 & h2 & N2 & F2 & U2). destruct (Nat.eq_dec n2 n) as [->|D]; [exact U2|].
    exfalso. exact (U2 n h (fun e => D (eq_sym e)) N (proj1 F)). }
  rewrite (plain_resolve W c rt t hs n h Sd P N F U), N.
  unfold deduce. rewrite (proj1 F). destruct F as [_ [Fr | [Fr Fc]]]; rewrite Fr; unfold passed, after; rewrite ty_eqb_refl, E; [reflexivity|].
  destruct (p_const (c_param (h_cand h))); reflexivity.
Qed.

Lemma match_throws : forall W c v (hs : list (handler V R)), v_held v = None -> visitable W c (v_alts v) hs = true -> match_ conv put_back W c v hs = Thrown v hs.
Proof. intros W c v hs H I. unfold match_. rewrite H, I. reflexivity. Qed.

Lemma match_type_value : forall W c alts (hs : list (handler V R)) b t, match_type W c alts hs = Some (b, t) -> b = false.
Proof.
  intros W c alts hs b t H. unfold match_type in H. destruct (visitable W c alts hs); [|discriminate H]. destruct alts as [|u alts]; [discriminate H|].
  destruct (resolve W false (mkarg true c u) (map h_cand hs)) as [n|]; [|discriminate H]. destruct (nth_error hs n); [|discriminate H]. injection H as <- _. reflexivity.
Qed.

(** With handlers for rvalues only it does not compile. *)
Lemma match_rref : forall W c v t (hs : list (handler V R)), In t (v_alts v) ->
  (forall h, In h hs -> exists u, p_pat (c_param (h_cand h)) = Exactly u /\ p_ref (c_param (h_cand h)) = rref /\ (u = t \/ convert W t u = None)) ->
  match_ conv put_back W c v hs = Ill.
Proof.
  intros W c v t hs I A. unfold match_.
  assert (Rs : resolve W false (mkarg true c t) (map h_cand hs) = None).
  { unfold resolve. assert (Z : forall k, viables W false (mkarg true c t) k (map h_cand hs) = []).
    { induction hs as [|h hs IH]; intros k; [reflexivity|]. cbn [map viables].
      destruct (A h (or_introl eq_refl)) as (u & P & Rf & U).
      assert (Vn : viable W false (mkarg true c t) (h_cand h) = None).
      { destruct U as [->|U]; [apply (rref_never W false c t (h_cand h) t P Rf (related_refl W t))|].
        unfold viable, deduce. cbn [andb]. rewrite P, Rf. unfold sequence. cbn [a_type a_const a_lvalue]. rewrite U.
        destruct (related W t u); [|reflexivity]. rewrite andb_false_r. reflexivity. }
      rewrite Vn. apply IH. intros g G. exact (A g (or_intror G)). }
    rewrite Z. reflexivity. }
  replace (visitable W c (v_alts v) hs) with false; [reflexivity|]. symmetry. unfold visitable.
  apply not_true_is_false. intros F. rewrite forallb_forall in F. specialize (F t I). rewrite Rs in F. discriminate F.
Qed.

(** The handlers a program gives by name are not changed. *)
Lemma match_keeps_handlers : forall W c v (hs : list (handler V R)) n x r v' hs', match_ conv put_back W c v hs = Called n x r v' hs' -> hs' = hs.
Proof.
  intros W c v hs n x r v' hs' H. unfold match_ in H. destruct (negb (visitable W c (v_alts v) hs)); [discriminate H|].
  destruct (v_held v) as [[k y]|]; [|discriminate H]. destruct (nth_error (v_alts v) k); [|discriminate H].
  destruct (resolve W false _ _) as [m|]; [|discriminate H]. destruct (nth_error hs m) as [h|]; [|discriminate H].
  destruct (deduce _ _); [|discriminate H]. destruct (h_run h _ _) as [[? ?] ?]. injection H as <- <- <- <- <-. reflexivity.
Qed.

Lemma func_overload_own : forall c t, for_type c t (c_param (func_overload (mkparam false by_value (Exactly t)))).
Proof. intros c t. split; [reflexivity|]. right. split; [reflexivity | intros _; reflexivity]. Qed.
End S.
