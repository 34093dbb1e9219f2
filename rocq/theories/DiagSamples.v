(** Names, places and histories for the examples about descriptions of exceptions. *)
From Coq Require Import String List NArith ZArith.
From Verif Require Import Base PathModel SerialMsgModel XinfoModel DiagModel.
Import ListNotations.
Local Open Scope list_scope.

Definition tag_names (tag : nat) : str := match tag with O => bytes "file_name" | S O => bytes "errno_code" | _ => bytes "blob" end.
Definition somewhere : place := mkplace (Some (bytes "main.cpp")) 42 (Some (bytes "f()")).
Definition nowhere : place := mkplace None 0 None.

Definition attached : list (op value) :=
  [Construct; Set_ 0 0 (Streamed (bytes "a.txt") Fine); Set_ 0 1 (Streamed (bytes "2") Fine);
   Set_ 0 0 (Streamed (bytes "b.txt") Fine); Set_ 0 2 (Opaque [0; 255; 26]%N); Unset 0 1].

Definition runtime_error : thrown := mkthrown (bytes "std::runtime_error") None (Some (bytes "boom")) None.
Definition unknown_thing : thrown := mkthrown (bytes "thing") None None None.

(** A value whose [operator<<] leaves the stream bad, set after another value. *)
Definition broken_first : list (op value) :=
  [Construct; Set_ 0 1 (Streamed (bytes "2") Fine); Set_ 0 0 (Streamed [] Breaks)].
(** One value that reads like two. *)
Definition forged : list (op value) :=
  [Construct; Set_ 0 0 (Streamed (bytes "a.txt" ++ [10%N] ++ bytes "errno_code = 2") Fine)].
Definition honest : list (op value) :=
  [Construct; Set_ 0 1 (Streamed (bytes "2") Fine); Set_ 0 0 (Streamed (bytes "a.txt") Fine)].
Definition raising : list (op value) := [Construct; Set_ 0 0 (Streamed [] Raises)].
