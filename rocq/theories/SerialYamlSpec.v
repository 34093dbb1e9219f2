(** One document in both formats. *)
From Coq Require Import String List NArith ZArith Arith Bool.
From Verif Require Import Base EnumModel ScalarModel ScalarSpec SerialModel SerialSpec SerialDocSpec.
Import ListNotations.

(** The YAML document [j'] says what the JSON document [j] says: booleans are
    true and false, integers are decimal, the rest is the same. *)
Fixpoint restated (ft : fptext) (j j' : json) {struct j} : Prop :=
  match j with
  | JNull => j' = JNull
  | JBool b => j' = JStr (codes (if b then "true" else "false")%string)
  | JInt z => exists s, j' = JStr s /\ decimal z s
  | JDbl b => j' = JStr (dbl_text ft b)
  | JStr s => j' = JStr s
  | JArr js => exists js', j' = JArr js' /\ all2 (restated ft) js js'
  | JObj ms => exists ms', j' = JObj ms' /\ all2 (fun m m' => fst m = fst m' /\ restated ft (snd m) (snd m')) ms ms'
  end.

(** [P] holds of every type inside. *)
Fixpoint every_type (P : ty -> Prop) (t : ty) : Prop :=
  P t /\
  match t with
  | TOpt t' | TSeq t' | TArr _ t' | TMap t' => every_type P t'
  | TTup ts => all1 (every_type P) ts
  | TRec fs => all1 (fun f => every_type P (snd f)) fs
  | _ => True
  end.

Definition no_float (t : ty) : Prop := every_type (fun t' => t' <> TFloat) t.
Definition no_reals (t : ty) : Prop := every_type (fun t' => t' <> TFloat /\ t' <> TDouble) t.
