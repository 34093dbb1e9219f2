(** Values and texts for which the claims fail. *)
From Coq Require Import String List NArith ZArith Arith Bool Lia.
From Verif Require Import Base ScalarModel ScalarSpec SerialModel SerialSpec JtextModel JtextSpec JtextStringProofs JtextNumProofs JtextReadProofs JtextSamples.
Import ListNotations.
Local Open Scope list_scope.
Local Open Scope N_scope.

Lemma nan_text dc fp p : exists j, serialize (Json fp) true TDouble (VDbl bits_nan) = Ok j /\ dump_text dc fp p TDouble (VDbl bits_nan) = Ok [] /\ parse dc [] = Throws.
Proof. eexists. split; [reflexivity|]. split; reflexivity. Qed.
Lemma nan_array dc fp : exists j s, serialize (Json fp) true (TSeq TDouble) (VSeq [VDbl bits_nan]) = Ok j /\
  dump_text dc fp false (TSeq TDouble) (VSeq [VDbl bits_nan]) = Ok s /\ parse dc s = Ok (JArr []) /\ j <> JArr [].
Proof. eexists. exists (codes "[]"%string). split; [reflexivity|]. split; [reflexivity|]. split; [reflexivity|discriminate]. Qed.

Lemma long_string dc fp p s : N.of_nat (length s) = 4294967296 -> dump_text dc fp p TStr (VStr s) = Ok (codes """"""%string).
Proof.
  intros H. unfold dump_text. cbn [dump dmp wev calls call]. unfold string_call, size_type. rewrite H.
  change (4294967296 mod 4294967296) with 0. cbn [N.mul N.add N.leb]. destruct p; reflexivity.
Qed.
Lemma some_length n : exists s : list N, N.of_nat (length s) = n.
Proof. exists (repeat 97 (N.to_nat n)). rewrite repeat_length. apply N2Nat.id. Qed.
Lemma long_string_lost dc fp p : exists s, dump_text dc fp p TStr (VStr s) = Ok (codes """"""%string) /\
  parse dc (codes """"""%string) = Ok (JStr []) /\ serialize (Json fp) true TStr (VStr s) <> Ok (JStr []).
Proof.
  destruct (some_length 4294967296) as (s & H). exists s. split; [exact (long_string _ _ _ _ H)|]. split; [reflexivity|]. unfold serialize. cbn [ser]. intros [= E]. rewrite E in H. discriminate.
Qed.

Lemma document_head R j s c t : document R j s -> s = c :: t -> blank c \/ value_head c.
Proof.
  intros (w & v & w' & -> & Hw & Hv & _) E. destruct Hw as [|x w Hx Hw]; cbn in E; [|left; congruence].
  destruct (denotes_head (mkdconv (fun _ => []) R) _ _ Hv) as (y & v' & -> & Hy). right. cbn in E. congruence.
Qed.

Lemma zero_ends dc : exists t j, parse dc t = Ok j /\ forall R j', ~ document R j' t.
Proof.
  exists (codes "[] "%string ++ 0 :: codes "garbage"%string), (JArr []). split; [reflexivity|].
  intros R j' H. refine (document_nonzero (mkdconv (fun _ => []) R) j' _ H _). cbn. tauto.
Qed.
Lemma part_mark dc : exists t j, parse dc t = Ok j /\ (forall s, t <> [239; 187; 191] ++ s) /\ forall R j', ~ document R j' t.
Proof.
  exists (191 :: codes "[]"%string), (JArr []). split; [reflexivity|]. split; [discriminate|].
  intros R j' H. destruct (document_head _ _ _ _ _ H eq_refl) as [Hb|Hv]; [unfold blank in Hb; lia|]. apply head_facts in Hv. lia.
Qed.
