(** Programs for examples and counterexamples. *)
From Coq Require Import List Arith Bool.
From Verif Require Import Base NsModel NsSpec.
Import ListNotations.

(** An application's namespace, and one of its parts. *)
Definition app : list nat := [10].
Definition app_part : list nat := [11; 10].

(** Flags in the application, in the global namespace, and not scoped. *)
Definition flags : enum := mkenum 0 app true.
Definition outer_flags : enum := mkenum 1 [] true.
Definition plain_flags : enum := mkenum 2 app false.
(** Traits not specialized. *)
Definition bare : enum := mkenum 3 app true.

Definition all_traits (t : ty) (k : trait) : option bool :=
  match t with
  | Enum e => Some (negb (Nat.eqb (e_id e) 3))
  | _ => Some false
  end.

(** Other function 0 writes a class of the application to a class 7 (a stream). *)
Definition others (n : nat) : list ty := [Class 7; Class n].

Definition with_decls (l : list decl) : program :=
  mkprogram (enum_traits_hpp 1 ++ binary_rw_hpp 2 ++ l) [] all_traits others.
Definition plain : program := with_decls [].
(** [std::ostream& operator<<(std::ostream&, const thing&)] in the application. *)
Definition prints : program := with_decls [mkdecl app (token Shl) (Other 0) 5].
(** ... with [using ::operator<<;] beside it. *)
Definition prints_uses : program := with_decls [mkdecl app (token Shl) (Other 0) 5; mkdecl app (token Shl) (Global Shl) 6].

Definition at_ (n : list nat) : place := mkplace n 20 20 [] [].
Definition with_directive (n : list nat) : place := mkplace n 20 20 [] [ns_operators].
(** In a template before the headers. *)
Definition early (n : list nat) : place := mkplace n 0 20 [] [].

(** [flags operator|(flags, flags)] in the application. *)
Definition own_or : program :=
  mkprogram (enum_traits_hpp 1 ++ binary_rw_hpp 2 ++ [mkdecl app (token Or) (Other 0) 5]) [] all_traits
    (fun n => match n with 0 => [Enum flags; Enum flags] | _ => [Class n] end).
