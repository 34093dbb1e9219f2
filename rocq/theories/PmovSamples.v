(** The path a/b, and libraries of both kinds. *)
From Coq Require Import List NArith.
From Verif Require Import Base PathModel PmovModel.
Import ListNotations.

Definition ab_text : list N := [97; 47; 98]%N.
Definition ab_path : path := mkpath [97; 47; 98]%N [mkseg 0 1; mkseg 2 1].
Definition clearing : library := mklib true.
Definition leaving : library := mklib false.
