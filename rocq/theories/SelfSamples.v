(** A path "ab/c/de" in its buffer. *)
From Coq Require Import List NArith.
From Verif Require Import PathModel SelfModel.
Import ListNotations.

Definition abcde : list N := [97; 98; 47; 99; 47; 100; 101]%N.
Definition own_abcde : own := mkown (fun j => nth j abcde 0%N) 7 [mkseg 0 2; mkseg 3 1; mkseg 5 2].
