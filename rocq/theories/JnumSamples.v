(** Numerals and doubles for the examples about reading numbers. *)
From Coq Require Import String List NArith ZArith Bool.
From Verif Require Import ScalarModel ScalarSpec SerialModel JtextModel JnumModel.
Import ListNotations.
Local Open Scope list_scope.
Local Open Scope N_scope.

(** The bits of [1.0 / 11], and the shortest numeral nearest to it. *)
Definition eleventh : N := 4591215111030249286.
Definition eleventh_text : list N := codes "0.09090909090909091"%string.
(** The bits of [1e-23]. *)
Definition tiny : N := 4262707295203537489.
Definition tiny_text : list N := codes "1e-23"%string.
(** Zero, with an exponent. *)
Definition zero_text : list N := codes "0e309"%string.
(** One, with 400 zeros before the exponent. *)
Definition long_one_text : list N := 49 :: repeat 48 400 ++ codes "e-400"%string.
(** Writes 1/11 and 1.5. *)
Definition demo_write (b : N) : list N := if b =? eleventh then eleventh_text else codes "1.5"%string.
