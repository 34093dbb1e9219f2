From Coq Require Import List Arith Lia.
From Verif Require Import YviewModel YviewSpec YviewSamples.

Lemma docs_closed : closed docs.
Proof.
  intros n Hn. do 13 (destruct n as [|n]; [cbn; split; [lia | intros m Hm; repeat (destruct Hm as [<-|Hm]; [lia|]); destruct Hm]|]).
  cbn in Hn. lia.
Qed.
