(** Programs for DangProps. *)
From Coq Require Import List.
From Verif Require Import Base DangModel DangSpec.
Import ListNotations.

(** auto v = make(); auto h = make_holder(); auto r = kl::range(v);
    for (auto x : kl::zipped(r, h.items(), iota)) { auto j = kl::stream_join(r); os << j; os << kl::stream_join(kl::range(make())); }
    for (auto x : make_holder().items) {} *)
Definition tidy : list stmt :=
  [SAuto EMake; SAuto EHolder; SAuto (ERange (EVar 0));
   SFor (EZip [EVar 2; ECall (EVar 1); EIota]) [SAuto (EJoin (EVar 2)); SPrint (EVar 3); SPrint (EJoin (ERange EMake))];
   SFor (EItems EHolder) []].

(** for (auto x : kl::enumerated(make_holder().items())) {} *)
Definition hidden : list stmt := [SFor (EZip [EIota; ECall EHolder]) []].

(** for (auto x : kl::range(make())) {} *)
Definition ranged : list stmt := [SFor (ERange EMake) []].

(** auto v = make(); auto j = kl::stream_join(kl::range(v)); os << j; *)
Definition joined : list stmt := [SAuto EMake; SAuto (EJoin (ERange (EVar 0))); SPrint (EVar 1)].

(** auto v = make(); for (auto x : kl::zipped(v, make())) {} *)
Definition rejected : list stmt := [SAuto EMake; SFor (EZip [EVar 0; EMake]) []].
