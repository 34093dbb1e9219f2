(** Classes that convert to other types, and classes that derive from others. *)
From Coq Require Import List Arith Bool Lia.
From Verif Require Import PickModel PickSpec PickProofs PickAgreeProofs.
Import ListNotations.

(** * Conversions *)

Lemma ptr_cases : forall t, t = Arith Char \/ t <> Arith Char.
Proof. intros t. destruct t as [[]| | | | | | | | | | | | | | |]; try (right; discriminate). left. reflexivity. Qed.

Lemma conv_ptr : forall llp b t, t <> Arith Char -> pick llp b Dump (Class None None [Ptr t] None) = Some SBool.
Proof.
  intros llp b t N. destruct t as [[]| | | | | | | | | | | | | | |]; try (contradiction N; reflexivity); destruct llp, b; vm_compute; reflexivity.
Qed.
Lemma conv_arr : forall llp b t n, t <> Arith Char -> pick llp b Dump (Class None None [Arr t n] None) = Some SBool.
Proof.
  intros llp b t n N. destruct t as [[]| | | | | | | | | | | | | | |]; try (contradiction N; reflexivity); destruct llp, b; vm_compute; reflexivity.
Qed.

Lemma converting_dumped : forall llp b x, simple b x -> pick llp b Dump (Class None None [x] None) = pick llp b Dump x.
Proof.
  intros llp b x H. destruct H as [a| |t|t n| |J|J|J].
  - destruct llp, b, a; vm_compute; reflexivity.
  - destruct llp, b; vm_compute; reflexivity.
  - destruct (ptr_cases t) as [->|N]; [destruct llp, b; vm_compute; reflexivity|]. rewrite conv_ptr, pointer_pick by exact N. reflexivity.
  - destruct (ptr_cases t) as [->|N]; [destruct llp, b; vm_compute; reflexivity|]. rewrite conv_arr, array_pick by exact N. reflexivity.
  - destruct llp, b; vm_compute; reflexivity.
  - subst b. destruct llp; vm_compute; reflexivity.
  - subst b. destruct llp; vm_compute; reflexivity.
  - subst b. destruct llp; vm_compute; reflexivity.
Qed.

Lemma converting_not_read : forall llp b conv, pick llp b Read (Class None None conv None) = None.
Proof. intros llp b conv. destruct llp, b; vm_compute; reflexivity. Qed.

(** of several conversions the one that needs the least is taken for each overload *)
Lemma pointer_and_number : forall llp t a, t <> Arith Char ->
  pick llp Json Dump (Class None None [Ptr t; Arith a] None) = pick llp Json Dump (Arith a).
Proof.
  intros llp t a N. destruct t as [[]| | | | | | | | | | | | | | |]; try (contradiction N; reflexivity); destruct llp, a; vm_compute; reflexivity.
Qed.

(** * Bases *)

Definition up (n : nat) (s : option std) : option std := match s with Some Exact => Some (Base n) | _ => None end.
Definition alike (n : nat) (t d : ty) : Prop :=
  members d = members t /\ nested d = nested t /\ is_reflectable d = false /\ is_enum d = false /\ is_arithmetic d = false /\
  (forall u, standard d u = if to_class u then up n (standard t u) else None) /\
  (forall k, deduce k d = up n (deduce k t)) /\ (forall u, constructors d u = constructors t u) /\ conversions d = [] /\
  (wide d = false) /\ root d = root t /\
  is_bool d = false /\ is_char_array d = false /\ is_json_value d = false.

Lemma passed_on_direct : forall t, passed_on t -> (forall u s, standard t u = Some s -> s = Exact) /\ (forall k s, deduce k t = Some s -> s = Exact) /\
  (forall u, to_class u = false -> standard t u = None).
Proof.
  intros t H. destruct H; (split; [|split]).
  all: try (intros [] s E; cbn in E; inversion E; reflexivity).
  all: try (intros [] E; try discriminate E; reflexivity).
Qed.

Lemma derived_alike : forall t d, derives t d -> passed_on t -> exists n, 1 <= n /\ alike n t d.
Proof.
  intros t d D P. destruct (passed_on_direct t P) as (S1 & K1 & S0).
  assert (S2 : forall u, standard t u = Some Exact \/ standard t u = None).
  { intros u. destruct (standard t u) as [s|] eqn:E; [left; rewrite (S1 u s E); reflexivity | right; reflexivity]. }
  assert (K2 : forall k, deduce k t = Some Exact \/ deduce k t = None).
  { intros k. destruct (deduce k t) as [s|] eqn:E; [left; rewrite (K1 k s E); reflexivity | right; reflexivity]. }
  induction D as [|d D (n & N & IH)].
  - exists 1. split; [lia|]. repeat split.
    + intros u. cbn [standard]. destruct (to_class u); [|reflexivity]. destruct (S2 u) as [->| ->]; reflexivity.
    + intros k. destruct k; cbn [deduce]; match goal with |- context [deduce ?k t] => destruct (K2 k) as [->| ->] end; reflexivity.
  - destruct IH as (M & Ne & _ & _ & _ & St & De & Co & _ & _ & Ro & _ & _ & _).
    exists (S n). split; [lia|]. repeat split; try assumption.
    + intros u. cbn [standard]. destruct (to_class u) eqn:C; [|reflexivity]. rewrite St, C. destruct (S2 u) as [->| ->]; reflexivity.
    + intros k. destruct k; cbn [deduce]; rewrite De; match goal with |- context [deduce ?k t] => destruct (K2 k) as [->| ->] end; reflexivity.
Qed.

Lemma has_same : forall f t d, members d = members t -> has f d = has f t.
Proof. intros f t d E. unfold has. rewrite E. reflexivity. Qed.

Lemma generics_same : forall t d, members d = members t ->
  is_range d = is_range t /\ is_map_alike d = is_map_alike t /\ is_growable_range d = is_growable_range t /\ is_fixed_size_range d = is_fixed_size_range t.
Proof. intros t d E. unfold is_range, is_map_alike, is_growable_range, is_fixed_size_range. unfold is_range, has. rewrite !E. auto. Qed.

Definition viable_up (n : nat) (t : ty) (w : bool) (p : param) : option ics :=
  match p with
  | Generic _ => None
  | Fixed u =>
      match (if to_class u then up n (standard t u) else None) with
      | Some s => Some (Std s)
      | None => if w then best_user (constructors t u ++ []) else None
      end
  | Template k => match up n (deduce k t) with Some s => Some (Std s) | None => None end
  end.

Section Same.
  Context (llp : bool) (t d : ty) (n : nat) (P : passed_on t) (A : alike n t d).

  Lemma viable_fixed : forall w u, viable w d (Fixed u) = viable_up n t w (Fixed u).
  Proof.
    destruct A as (M & Ne & R & En & Ar & St & De & Co & Cv & Wi & Ro & Bo & Ca & Jv).
    intros w u. cbn [viable viable_up]. unfold implicit, binds, user. rewrite St, Co, Cv. cbn [length seq combine flat_map].
    destruct w; [reflexivity|]. destruct (to_class u); [|reflexivity]. unfold up. destruct (standard t u) as [[]|]; reflexivity.
  Qed.
  Lemma viable_template : forall w k, viable w d (Template k) = viable_up n t w (Template k).
  Proof.
    destruct A as (M & Ne & R & En & Ar & St & De & Co & Cv & Wi & Ro & Bo & Ca & Jv).
    intros w k. cbn [viable viable_up]. rewrite De. reflexivity.
  Qed.

  Ltac leave :=
    destruct A as (M & Ne & R & En & Ar & St & De & Co & Cv & Wi & Ro & Bo & Ca & Jv);
    destruct (generics_same t d M) as (G1 & G2 & G3 & G4);
    unfold resolve, viables; cbn [flat_map fst snd];
    rewrite ?viable_fixed, ?viable_template; cbn [viable];
    rewrite ?G1, ?G2, ?G3, ?G4, ?R, ?En, ?Bo, ?Ca, ?Jv.

  Lemma writers_same : resolve true d writers = resolve true t writers.
  Proof.
    unfold writers. leave. clear - P.
    destruct P as [| | | | | | |c]; try (vm_compute; reflexivity).
  Qed.
  Lemma readers_same : resolve false d readers = resolve false t readers.
  Proof.
    unfold readers. leave. clear - P.
    destruct P as [| | | | | | |c]; try (vm_compute; reflexivity).
  Qed.
  Lemma constructible_same : is_json_constructible llp d = false /\ is_json_constructible llp t = false.
  Proof.
    split; [|destruct P; destruct llp; vm_compute; reflexivity].
    unfold is_json_constructible, json_constructors. leave. clear - P.
    destruct P as [| | | | | | |c]; destruct llp; try (vm_compute; reflexivity).
  Qed.

  Lemma overloads_same : forall b m, resolve (writing m) d (overloads llp b m) = resolve (writing m) t (overloads llp b m).
  Proof.
    assert (W : written_by_library d = written_by_library t) by (unfold written_by_library; rewrite writers_same; reflexivity).
    assert (Rd : read_by_library d = read_by_library t) by (unfold read_by_library; rewrite readers_same; reflexivity).
    destruct constructible_same as [C1 C2].
    assert (I : is_integral d = false /\ is_floating_point d = false /\ is_arithmetic d = false).
    { destruct A as (_ & _ & _ & _ & Ar & _). unfold is_integral, is_floating_point. rewrite Ar. repeat split. destruct d; try reflexivity. discriminate Ar. }
    destruct I as (I1 & I2 & I3).
    intros b m. destruct b, m; cbn [overloads writing]; unfold json_dump, json_serialize, json_deserialize, yaml_dump, yaml_serialize, yaml_deserialize;
      leave; rewrite ?W, ?Rd, ?C1, ?C2, ?I1, ?I2, ?I3; clear - P C2.
    all: destruct P as [| | | | | | |c]; destruct llp; try (vm_compute; reflexivity).
    all: rewrite ?C2; destruct c as [[[] [] [] [] [] cn it [ky|] [mp|]]|]; vm_compute; reflexivity.
  Qed.

  Lemma emitter_same : resolve true d yaml_emitter = resolve true t yaml_emitter.
  Proof.
    unfold yaml_emitter. leave. clear - P.
    destruct P as [| | | | | | |c]; try (vm_compute; reflexivity).
  Qed.

  Lemma act_same : forall b m, pick_act llp b m d = pick_act llp b m t.
  Proof.
    intros b m. unfold pick_act. rewrite overloads_same.
    assert (Q : forall x, resolve (writing m) t (overloads llp b m) = Some x -> x = Library \/ x = Scalar SAny).
    { intros x. clear - P. destruct b, m, llp; destruct P as [| | | | | | |c]; try (vm_compute; intros [= <-]; auto; fail); try (vm_compute; discriminate).
      all: destruct c as [[[] [] [] [] [] cn it [ky|] [mp|]]|]; vm_compute; first [discriminate | intros [= <-]; auto]. }
    destruct (resolve (writing m) t (overloads llp b m)) as [x|] eqn:E.
    - destruct (Q x eq_refl) as [->| ->]; [|reflexivity]. destruct (writing m); [apply writers_same | apply readers_same].
    - rewrite emitter_same. reflexivity.
  Qed.
End Same.

Lemma whole_same : forall llp b m t d n p, passed_on t -> alike n t d -> whole llp b m d None p = whole llp b m t None p.
Proof.
  intros llp b m t d n p P A. unfold whole. rewrite (act_same llp t d n P A).
  destruct A as (M & Ne & R & En & _). destruct (generics_same t d M) as (G1 & G2 & G3 & G4).
  rewrite M, Ne, G4. rewrite (has_same _ t d M).
  destruct (pick_act llp b m t) as [[]|] eqn:E; try reflexivity.
  destruct d; try discriminate En; destruct t; try reflexivity; inversion P.
Qed.

Lemma derived_same : forall llp b m t d, derives t d -> passed_on t -> pick llp b m d = pick llp b m t.
Proof.
  intros llp b m t d D P.
  assert (F : p_whole (analyse llp b m t) = whole llp b m t None (analyse llp b m t)).
  { destruct P; reflexivity. }
  assert (H : forall e, derives t e ->
    analyse llp b m e = mkparts (whole llp b m e None (analyse llp b m t)) (p_item (analyse llp b m t)) (p_mapped (analyse llp b m t)) (p_components (analyse llp b m t)) (p_held (analyse llp b m t)) (p_set (analyse llp b m t))).
  { clear D d. intros e D. induction D as [|e D IH]; [reflexivity|]. cbn [analyse]. rewrite IH. reflexivity. }
  unfold pick. rewrite (H d D), F. cbn [p_whole].
  destruct (derived_alike t d D P) as (n & _ & A). exact (whole_same llp b m t d n _ P A).
Qed.

(** * Patching *)

Lemma map_all_ext : forall (f g : ty -> option shape) l, (forall x, In x l -> f x = g x) -> all (map f l) = all (map g l).
Proof.
  induction l as [|x l IH]; intros H; [reflexivity|]. cbn [map all]. rewrite (H x (or_introl eq_refl)), IH; [reflexivity|].
  intros y I. apply H. right. exact I.
Qed.

Lemma patched_read : forall llp b t, plain t -> pick_patch llp b t = pick llp b Read t.
Proof.
  intros llp b. apply (size_ind (fun t => plain t -> pick_patch llp b t = pick llp b Read t)). intros t IH P. unfold pick_patch.
  destruct P as [ts _|x y _ _|x Px|c fs _ _ Pf|t Ht].
  - reflexivity.
  - reflexivity.
  - cbn [analyse_patch fst]. unfold whole_patch. change (resolve false (Opt x) patchers) with (Some Optional). cbv iota.
    rewrite opt_pick. f_equal. apply IH; [cbn [size]; lia | exact Px].
  - cbn [analyse_patch fst]. unfold whole_patch. destruct fs as [l|].
    + change (resolve false (Class c (Some l) [] None) patchers) with (Some Struct). cbv iota.
      rewrite class_plain_pick. cbn [writing orb]. destruct (ranged c && _); [reflexivity|].
      rewrite (map_all_ext (fun x => fst (analyse_patch llp b x)) (pick llp b Read) l).
      * destruct (all _); reflexivity.
      * intros x I. apply IH; [|exact (proj1 (Forall_forall _ _) (Pf l eq_refl) x I)].
        pose proof (size_in l x I). cbn [size]. destruct c; lia.
    + change (resolve false (Class c None [] None) patchers) with (@None act). reflexivity.
  - destruct t as [x| |x|x n|ch|ch| | | | |s u r|u r|ts|x y|x|c fs conv base]; try contradiction; cbn [analyse_patch fst]; unfold whole_patch;
      try reflexivity.
Qed.
