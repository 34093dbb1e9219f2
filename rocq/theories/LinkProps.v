(** Programs of several units: what is claimed. *)
From Coq Require Import List String.
From Verif Require Import LinkModel LinkSpec LinkProofs LinkSamples.
Import ListNotations.
Local Open Scope string_scope.

(** Whatever the headers include, cycles among them too, a unit gets those that its #include lines lead to, each once. *)
Theorem headers_included : forall tab, files_once tab -> forall l,
  NoDup (expand tab l) /\ forall k, In k (expand tab l) <-> exists h, In h l /\ reaches tab h k.
Proof. intros tab O l. split; [apply expand_once | apply expand_iff, O]. Qed.
Print Assumptions headers_included.

(** A program whose units compile links exactly if at most one unit has binary_rw/string.hpp in it, and kl-json and kl-yaml
    are there if functions of theirs are called. *)
Theorem programs_link : forall p, Forall (fun u => compiles u = true) (units p) ->
  (links p = true <-> at_most_one streams_strings (units p) /\
    forall u s, In u (units p) -> In s (calls u) -> (of_json s -> json p = true) /\ (of_yaml s -> yaml p = true)).
Proof. exact links_iff. Qed.
Print Assumptions programs_link.

(** Not every header can be included in every unit. *)
Theorem headers_anywhere_refuted : ~ forall p, Forall (fun u => compiles u = true) (units p) -> json p = true -> yaml p = true ->
  links p = true.
Proof.
  intros H. specialize (H (mkprogram [names_cpp; load_cpp] false true true)).
  assert (C : Forall (fun u => compiles u = true) [names_cpp; load_cpp]) by (repeat constructor).
  specialize (H C eq_refl eq_refl). vm_compute in H. discriminate H.
Qed.
Print Assumptions headers_anywhere_refuted.

Example a_tool : Forall (fun u => compiles u = true) (units tool) /\ links tool = true /\ streams_strings names_cpp.
Proof. split; [repeat constructor|]. split; [vm_compute; reflexivity|]. exists "binary_rw/string.hpp". split; [right; now left|constructor]. Qed.
Example two_units : links pair_of = false.
Proof. vm_compute. reflexivity. Qed.
Example library_forgotten : links bare = false /\ links (mkprogram (units bare) true true false) = true.
Proof. split; vm_compute; reflexivity. Qed.
Example a_cycle : expand [("a", ["b"; "c"]); ("b", ["a"]); ("c", ["c"])] ["b"] = ["b"; "a"; "c"].
Proof. reflexivity. Qed.
