(** Proofs about the checks of field names at compile time. *)
From Coq Require Import List NArith Arith Bool Lia.
From Verif Require Import Base PathModel SerialModel SerialSpec SerialBaseProofs AttrModel AttrSpec.
Import ListNotations.
Local Open Scope outcome_scope.

Local Notation str := (list N) (only parsing).

Lemma cstring_equal_iff a : forall b, cstring_equal a b = true <-> c_text a = c_text b.
Proof.
  induction a as [|x a IH]; intros b; cbn.
  - destruct b as [|y b]; cbn; [split; reflexivity|]. destruct (y =? 0)%N; split; (reflexivity || discriminate).
  - destruct (x =? 0)%N eqn:E0; cbn [negb andb].
    + apply N.eqb_eq in E0. subst x. destruct b as [|y b]; cbn; [split; reflexivity|].
      destruct (N.eqb_spec y 0) as [-> | Hy]; [split; reflexivity|]. destruct (N.eqb_spec 0 y) as [E | E]; [congruence|].
      destruct y; [congruence|]. split; discriminate.
    + destruct b as [|y b]; cbn.
      * destruct (x =? 0)%N; [discriminate|]. split; discriminate.
      * destruct (N.eqb_spec x y) as [<- | Hxy].
        -- rewrite E0, IH. split; [intros ->; reflexivity | intros E; injection E as E; exact E].
        -- destruct (y =? 0)%N; (split; [discriminate|]); intros E; [discriminate | injection E as E _; contradiction].
Qed.

Lemma push_result cap l : forall result buf,
  push_all cap l result buf = (r <- push_all cap l true buf ;; Ok (result && fst r, snd r)).
Proof.
  induction l as [|n l IH]; intros result buf; cbn; [rewrite andb_true_r; reflexivity|].
  destruct (push_unique cap n buf) as [[ok buf'] | |]; cbn; try reflexivity.
  rewrite (IH (if ok then result else false)), (IH (if ok then true else false)).
  destruct (push_all cap l true buf') as [[ok2 buf2] | |]; cbn; try reflexivity.
  destruct ok, result; reflexivity.
Qed.

Lemma push_app cap l1 l2 : forall result buf,
  push_all cap (l1 ++ l2) result buf = (r <- push_all cap l1 result buf ;; push_all cap l2 (fst r) (snd r)).
Proof.
  induction l1 as [|n l IH]; intros result buf; cbn; [reflexivity|].
  destruct (push_unique cap n buf) as [[ok buf'] | |]; cbn; try reflexivity. apply IH.
Qed.

Lemma texts_in n buf : existsb (fun d => cstring_equal d n) buf = true <-> In (c_text n) (map c_text buf).
Proof.
  rewrite existsb_exists, in_map_iff. split; intros (d & H1 & H2); exists d.
  - split; [apply cstring_equal_iff; exact H2 | exact H1].
  - split; [exact H2 | apply cstring_equal_iff; exact H1].
Qed.

Lemma nodup_snoc (l : list str) x : NoDup l -> ~ In x l -> NoDup (l ++ [x]).
Proof.
  induction 1 as [|y l Hy Hl IH]; cbn; intros Hx; constructor; [intros [] | constructor | |].
  - intros H. apply in_app_or in H. destruct H as [H | [<- | []]]; [contradiction|]. apply Hx. left. reflexivity.
  - apply IH. intros H. apply Hx. right. exact H.
Qed.

Lemma push_exact cap l : forall buf, NoDup (map c_text buf) -> length buf + length l <= cap ->
  exists ok buf', push_all cap l true buf = Ok (ok, buf') /\ (ok = true <-> NoDup (map c_text (buf ++ l))).
Proof.
  induction l as [|n l IH]; intros buf ND Hc; cbn [push_all].
  - exists true, buf. rewrite app_nil_r. split; [reflexivity | split; [intros _; exact ND | reflexivity]].
  - cbn [length] in Hc. unfold push_unique. destruct (existsb (fun d => cstring_equal d n) buf) eqn:E.
    + apply texts_in in E. cbn [obind fst snd]. rewrite push_result.
      destruct (IH buf ND) as (ok & buf' & -> & _); [lia|]. cbn. exists false, buf'. split; [reflexivity|].
      split; [discriminate|]. rewrite map_app. cbn. intros H. apply NoDup_remove_2 in H. exfalso. apply H.
      apply in_or_app. left. exact E.
    + assert (Hn : ~ In (c_text n) (map c_text buf)) by (rewrite <- texts_in, E; discriminate).
      destruct (Nat.leb_spec cap (length buf)) as [Hl | Hl]; [lia|]. cbn [obind fst snd].
      destruct (IH (buf ++ [n])) as (ok & buf' & -> & H).
      * rewrite map_app. cbn. apply nodup_snoc; assumption.
      * rewrite app_length. cbn. lia.
      * exists ok, buf'. split; [reflexivity|]. rewrite H, <- app_assoc. reflexivity.
Qed.

(** ** Writing *)

Lemma ser_collect_names cap t : forall buf, ser_collect cap t buf = push_all cap (ser_names t) true buf.
Proof.
  induction t as [ |it| | | |t IH|t IH|k t IH|t IH|ts IH|e|e|fs IH] using ty_ind0; intros buf; cbn [ser_collect ser_names push_all]; try reflexivity.
  enough (G : forall result buf, ser_collect_of cap (ser_collect cap) fs result buf = push_all cap (ser_names_of ser_names fs) result buf) by apply G.
  induction IH as [|[a t] fs Ht _ IHfs]; intros result b; cbn [ser_collect_of ser_names_of push_all]; [reflexivity|]. cbn [snd] in Ht.
  destruct (a_skip_ser a || a_extra a); [apply IHfs|]. rewrite push_app. destruct (a_flatten a).
  - rewrite (push_result cap (ser_names t) result), Ht. destruct (push_all cap (ser_names t) true b) as [[ok b'] | |]; cbn [obind fst snd]; try reflexivity.
    rewrite IHfs. destruct ok, result; reflexivity.
  - cbn [push_all]. destruct (push_unique cap (serialized_name a) b) as [[ok b'] | |]; cbn [obind fst snd]; try reflexivity. apply IHfs.
Qed.

Lemma ser_count_length t : length (ser_names t) = ser_field_count t.
Proof.
  induction t as [ |it| | | |t IH|t IH|k t IH|t IH|ts IH|e|e|fs IH] using ty_ind0; cbn [ser_names ser_field_count]; try reflexivity.
  induction IH as [|[a t] fs Ht _ IHfs]; cbn [ser_names_of ser_count_of]; [reflexivity|]. cbn [snd] in Ht.
  rewrite app_length, IHfs. f_equal. destruct (a_skip_ser a || a_extra a); [reflexivity|]. destruct (a_flatten a); [exact Ht | reflexivity].
Qed.

(** ** Reading *)

Lemma deser_collect_names cap t : forall buf, deser_collect cap t buf = push_all cap (deser_names t) true buf.
Proof.
  induction t as [ |it| | | |t IH|t IH|k t IH|t IH|ts IH|e|e|fs IH] using ty_ind0; intros buf; cbn [deser_collect deser_names push_all]; try reflexivity.
  enough (G : forall result buf, deser_collect_of cap (deser_collect cap) fs result buf = push_all cap (deser_names_of deser_names fs) result buf) by apply G.
  induction IH as [|[a t] fs Ht _ IHfs]; intros result b; cbn [deser_collect_of deser_names_of]; [reflexivity|]. cbn [snd] in Ht.
  destruct (a_skip_deser a || a_extra a); [apply IHfs|]. rewrite push_app. destruct (a_flatten a).
  - rewrite (push_result cap (deser_names t) result), Ht. destruct (push_all cap (deser_names t) true b) as [[ok b'] | |]; cbn [obind fst snd]; try reflexivity.
    rewrite IHfs. destruct ok, result; reflexivity.
  - destruct (push_all cap (serialized_name a :: a_aliases a) result b) as [[ok b'] | |]; cbn [obind fst snd]; try reflexivity. apply IHfs.
Qed.

Lemma deser_count_length t : few_aliases t -> length (deser_names t) <= deser_field_count t.
Proof.
  induction t as [ |it| | | |t IH|t IH|k t IH|t IH|ts IH|e|e|fs IH] using ty_ind0; cbn [deser_names deser_field_count few_aliases]; try (intros; reflexivity).
  induction IH as [|[a t] fs Ht _ IHfs]; cbn [deser_names_of deser_count_of]; [reflexivity|]. cbn [snd] in Ht.
  intros (Ha & Hf & Hr). rewrite app_length. specialize (IHfs Hr). specialize (Ht Hf).
  destruct (a_skip_deser a || a_extra a); [cbn [length]; lia|]. destruct (a_flatten a); [lia|].
  destruct (a_aliases a); cbn [length] in *; unfold max_aliases; lia.
Qed.

(** ** Both *)

Lemma name_checks_lemma t :
  (exists b, serialize_names_ok t = Ok b /\ (b = true <-> NoDup (map c_text (ser_names t)))) /\
  (few_aliases t -> exists b, deserialize_names_ok t = Ok b /\ (b = true <-> NoDup (map c_text (deser_names t)))).
Proof.
  split.
  - unfold serialize_names_ok. rewrite ser_collect_names.
    destruct (push_exact (ser_field_count t) (ser_names t) []) as (ok & buf & -> & H); [constructor | rewrite ser_count_length; reflexivity|].
    exists ok. split; [reflexivity | exact H].
  - intros Ha. unfold deserialize_names_ok. rewrite deser_collect_names.
    destruct (push_exact (deser_field_count t) (deser_names t) []) as (ok & buf & -> & H); [constructor | apply deser_count_length; exact Ha|].
    exists ok. split; [reflexivity | exact H].
Qed.

Lemma c_text_plain s : plain_name s -> c_text s = s.
Proof.
  unfold plain_name. induction s as [|c s IH]; cbn; intros H; [reflexivity|].
  destruct (N.eqb_spec c 0) as [-> | Hc]; [exfalso; apply H; left; reflexivity|]. f_equal. apply IH. intros Hs. apply H. right. exact Hs.
Qed.

Lemma map_plain l : Forall plain_name l -> map c_text l = l.
Proof. induction 1 as [|s l Hs _ IH]; cbn; [reflexivity|]. rewrite (c_text_plain s Hs), IH. reflexivity. Qed.

(** For names without zeros the checks are the conditions of [wf]. *)
Lemma name_checks_wf_lemma t :
  few_aliases t -> Forall plain_name (ser_names t) -> Forall plain_name (deser_names t) ->
  (serialize_names_ok t = Ok true <-> NoDup (ser_names t)) /\ (deserialize_names_ok t = Ok true <-> NoDup (deser_names t)) /\
  serialize_names_ok t <> Throws /\ deserialize_names_ok t <> Throws.
Proof.
  intros Ha Hs Hd. destruct (name_checks_lemma t) as [(b & E & Hb) H2]. destruct (H2 Ha) as (b' & E' & Hb').
  rewrite (map_plain _ Hs) in Hb. rewrite (map_plain _ Hd) in Hb'. rewrite E, E'. repeat split; try discriminate.
  - intros H. injection H as ->. apply Hb. reflexivity.
  - intros H. f_equal. apply Hb. exact H.
  - intros H. injection H as ->. apply Hb'. reflexivity.
  - intros H. f_equal. apply Hb'. exact H.
Qed.
