(** Programs with macros. *)
From Coq Require Import String List Arith.
From Verif Require Import PpModel PpSpec.
Import ListNotations.
Local Open Scope list_scope.
Local Open Scope string_scope.

(** No macros besides those of kl. *)
Definition bare : penv := mkpenv [] 64.
(** [#define linux 1] *)
Definition unix : penv := mkpenv [("linux", Obj [Num 1])] 64.
(** [__COUNTER__] is 7 next. *)
Definition counting : penv := mkpenv [("__COUNTER__", Obj [Num 7])] 64.

(** include/kl/reflect_enum.hpp:14-22 *)
Definition documented_enum : list enumerator := [Plain [Id "A"]; Named [Id "B"] [Id "bb"]; Plain [Id "C"]].
(** include/kl/reflect_enum.hpp:63 *)
Definition documented_sequence : list tok := tokens "KL_REFLECT_ENUM_SEQ(enum_, (A)(B, bb)(C))".

(** An attribute that is written with braces. *)
Definition range_attribute : list tok := tokens "range{1, 2}".
Definition range_source : list tok := tokens "KL_REFLECT_STRUCT(A, (i, range{1, 2}))".
Definition range_field : field := ([Id "i"], [range_attribute]).
