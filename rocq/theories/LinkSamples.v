(** Programs for the examples of LinkProps.v. *)
From Coq Require Import List String.
From Verif Require Import LinkModel.
Import ListNotations.
Local Open Scope string_scope.

Definition names_cpp : unit_ := mkunit ["binary_rw/vector.hpp"; "binary_rw/string.hpp"] ["kl::write_binary(binary_writer&, const std::string&)"].
Definition load_cpp : unit_ := mkunit ["binary_rw/string.hpp"] [].
Definition config_cpp : unit_ := mkunit ["json.hpp"; "resource_op.hpp"] ["kl::json::detail::expect_string"; "kl::path::set"].

(** One unit that streams strings *)
Definition tool : program := mkprogram [names_cpp; config_cpp] false true false.
(** Two of them, the second calls nothing *)
Definition pair_of : program := mkprogram [names_cpp; load_cpp] false false false.
(** kl-json forgotten *)
Definition bare : program := mkprogram [config_cpp] true false true.
