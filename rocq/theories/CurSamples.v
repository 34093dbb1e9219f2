(** Runs. *)
From Coq Require Import List.
From Verif Require Import Base CurModel CurSpec.
Import ListNotations.

(** A slot that disconnects itself; its function asks when destroyed. *)
Definition one_shot (asks : bool) : list event := [EConnect 0 asks; EBegin 0; ECall 0; EAsk; EHold 0; EDisconnect 0; EDrop 0; EReturn; EEnd].
(** The second slot disconnects the first, whose function asks. *)
Definition by_second : list event := [EConnect 0 true; EConnect 0 false; EBegin 0; ECall 0; EReturn; ECall 1; EDisconnect 0; EReturn].
(** The first slot disconnects both; only the function of the second, which is not invoked, asks. *)
Definition later_one : list event :=
  [EConnect 0 false; EConnect 0 true; EBegin 0; ECall 0; EDisconnect 1; EDisconnect 0; EReturn; EEnd].
(** The same with a connection to the slot called last kept. *)
Definition kept : list event :=
  [EConnect 0 false; EConnect 0 true; EHold 0; EBegin 0; ECall 0; EDisconnect 1; EDisconnect 0; EReturn; EEnd; EAsk; EDrop 0].
(** Nested emissions; in a slot of the inner one a slot of a third signal, whose function asks, is disconnected and destroyed. *)
Definition nested : list event :=
  [EConnect 0 false; EConnect 1 false; EConnect 2 true; EAsk; EBegin 0; ECall 0; EBegin 1; ECall 1; EAsk; EDisconnect 2; EReturn; EEnd; EAsk; EReturn; EEnd; EAsk].

(** The slot disconnects itself and another one, whose function asks, and throws into the slot of another signal, which asks. *)
Definition throwing : list event :=
  [EConnect 0 false; EConnect 1 true; EConnect 1 true; EBegin 0; ECall 0; EBegin 1; ECall 1; EDisconnect 1; EDisconnect 2; EThrow; EAsk; EReturn; EEnd; EAsk].
