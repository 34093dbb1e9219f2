(** Programs for the examples about functions that own connections. *)
From Coq Require Import List.
From Verif Require Import CaptModel.
Import ListNotations.

(** Two slots of one signal; the function of the first comes to own a scoped connection to the second. *)
Definition pair_of_slots : list op := [New_signal; Connect 0 false; Connect 0 false; Give 1 0 true].
Definition taken_all : list op := pair_of_slots ++ [Drop 0; Disconnect_all 0].
Definition destroyed_signal : list op := pair_of_slots ++ [Drop 0; Destroy 0].
Definition cut_in_emission : list op := pair_of_slots ++ [Begin 0; Disconnect 0; End 0].
(** The other way round: the second slot owns the first. *)
Definition older_owned : list op := [New_signal; Connect 0 false; Connect 0 false; Give 0 1 true; Drop 1; Disconnect_all 0].
Definition own_connection (scoped : bool) : list op := [New_signal; Connect 0 false; Give 0 0 scoped; Destroy 0].
(** A slot that disconnects itself when it is called. *)
Definition one_shot : list op := [New_signal; Connect 0 false; Give 0 0 false; Begin 0; Disconnect_owned 0 0; End 0].
Definition copy_kept : list op := [New_signal; Connect 0 false; Connect 0 false; Give 1 0 false; Copy 0; Disconnect 0].
(** Two signals: slots of the second own scoped connections to slots of the first. *)
Definition two_levels : list op :=
  [New_signal; New_signal; Connect 0 false; Connect 1 true; Give 0 1 true; Drop 1; Begin 1; Disconnect_all 1; End 1; Destroy 1; Destroy 0].
Definition level (s : nat) : nat := s.
Definition final (os : list op) : state := match run os empty with Done st => st | _ => empty end.
