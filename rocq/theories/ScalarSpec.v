(** What the scalars of YAML mean: numerals as in C++, the booleans of
    yaml.org/type/bool.html.  Independent of the model. *)
From Coq Require Import String Ascii List NArith ZArith Arith Bool.
Import ListNotations.
Local Open Scope list_scope.
Local Open Scope N_scope.

Local Notation str := (list N) (only parsing).

(** Text literal to character codes. *)
Definition codes (s : string) : list N := map N_of_ascii (list_ascii_of_string s).

(** The character [c] is the digit [d]: 0-9, a-f or A-F. *)
Definition spells (c d : N) : Prop :=
  (c = 48 + d /\ d < 10) \/ ((c = 87 + d \/ c = 55 + d) /\ 10 <= d < 16).

(** The number with these digits, the most significant first. *)
Fixpoint weighs (base : N) (ds : list N) : N :=
  match ds with
  | [] => 0
  | d :: ds' => d * base ^ N.of_nat (length ds') + weighs base ds'
  end.

Definition numeral (base : N) (s : str) (n : N) : Prop :=
  s <> [] /\ exists ds, Forall2 spells s ds /\ Forall (fun d => d < base) ds /\ n = weighs base ds.

(** Hexadecimal after [0x] or [0X], octal after [0], decimal otherwise. *)
Definition magnitude (s : str) (n : N) : Prop :=
  (exists x s', s = 48 :: x :: s' /\ (x = 120 \/ x = 88) /\ numeral 16 s' n) \/
  (exists s', s = 48 :: s' /\ numeral 8 s n) \/
  ((forall s', s <> 48 :: s') /\ numeral 10 s n).

Definition white (c : N) : Prop := c = 32 \/ 9 <= c <= 13.

(** The text [s] means the number [z]; minus only when [signed]. *)
Definition int_means (signed : bool) (s : str) (z : Z) : Prop :=
  exists sign body tail n, s = sign ++ body ++ tail /\ Forall white tail /\ magnitude body n /\
    ((sign = [] /\ z = Z.of_N n) \/ (sign = [43] /\ z = Z.of_N n) \/
     (sign = [45] /\ signed = true /\ z = (- Z.of_N n)%Z)).

(** [s] is how [z] is written: decimal, a minus if negative, no leading zero. *)
Definition decimal (z : Z) (s : str) : Prop :=
  exists body, s = (if (z <? 0)%Z then 45 :: body else body) /\
    numeral 10 body (Z.abs_N z) /\ (forall s', body = 48 :: s' -> s' = []).

Definition spellings (b : bool) : list (list N) :=
  map codes (if b then ["y"; "Y"; "yes"; "Yes"; "YES"; "true"; "True"; "TRUE"; "on"; "On"; "ON"]%string
             else ["n"; "N"; "no"; "No"; "NO"; "false"; "False"; "FALSE"; "off"; "Off"; "OFF"]%string).
