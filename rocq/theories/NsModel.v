(** Which function an operator applied to enums calls: the operators of kl/enum_traits.hpp, in the global namespace for
    enums whose traits enable them (191-308) and in [kl::enums::operators] for all (97-189), beside the stream operators
    that kl/binary_rw.hpp declares in [kl].

    Modelled: unqualified lookup ([basic.lookup.unqual], [namespace.udir]), argument dependent lookup
    ([basic.lookup.argdep]), which functions are viable and which is best ([over.match.oper], [over.match.best]).

    Simplifications: no inline namespaces; a namespace nominated by a using-directive has no using-directives itself;
    no friends and no members among the operators; operands of operators that assign are lvalues that are not const;
    enums promote to [int]; functions of other people are not templates. *)
From Coq Require Import List Arith Bool.
From Verif Require Import Base.
Import ListNotations.

(** * Scopes *)

(** A namespace: its names, the innermost first; the global one is [[]]. *)
Notation ns := (list nat) (only parsing).

Fixpoint ns_eqb (a b : ns) : bool :=
  match a, b with
  | [], [] => true
  | x :: a, y :: b => Nat.eqb x y && ns_eqb a b
  | _, _ => false
  end.

(** A namespace and those around it, the innermost first. *)
Fixpoint chain (n : ns) : list ns :=
  match n with
  | [] => [[]]
  | _ :: m => n :: chain m
  end.

(** The innermost namespace around both. *)
Fixpoint meet (n : ns) (m : ns) : ns :=
  if existsb (ns_eqb n) (chain m) then n
  else match n with [] => [] | _ :: n => meet n m end.

(** [kl] and [kl::enums::operators] (99). *)
Definition ns_kl : ns := [1].
Definition ns_operators : ns := [3; 2; 1].

(** * Operators *)

Inductive op :=
| Plus | Inc | Post_inc                                    (* 101-120, 196-216 *)
| Or | And | Xor | Not | Or_eq | And_eq | Xor_eq           (* 122-162, 222-276 *)
| Shl | Shr | Shl_eq | Shr_eq.                             (* 164-188, 289-308 *)

(** The name that is looked up; both increments have the same. *)
Definition token (o : op) : nat :=
  match o with
  | Plus => 0 | Inc | Post_inc => 1
  | Or => 2 | And => 3 | Xor => 4 | Not => 5 | Or_eq => 6 | And_eq => 7 | Xor_eq => 8
  | Shl => 9 | Shr => 10 | Shl_eq => 11 | Shr_eq => 12
  end.

Definition op_eqb (a b : op) : bool :=
  match a, b with
  | Plus, Plus | Inc, Inc | Post_inc, Post_inc | Or, Or | And, And | Xor, Xor | Not, Not | Or_eq, Or_eq
  | And_eq, And_eq | Xor_eq, Xor_eq | Shl, Shl | Shr, Shr | Shl_eq, Shl_eq | Shr_eq, Shr_eq => true
  | _, _ => false
  end.

(** The member of [enum_traits] asked for (21-48). *)
Inductive trait := Does_index | Enable_bitmask | Enable_bitshift.
Definition trait_of (o : op) : trait :=
  match o with
  | Plus | Inc | Post_inc => Does_index
  | Or | And | Xor | Not | Or_eq | And_eq | Xor_eq => Enable_bitmask
  | Shl | Shr | Shl_eq | Shr_eq => Enable_bitshift
  end.

(** * Types *)

Record enum := mkenum { e_id : nat; e_ns : ns; e_scoped : bool }.

Inductive ty :=
| Enum (e : enum)
| Int
| Small (n : nat)       (* promoted to [int]: [bool], [char], [short], ... *)
| Wide (n : nat)        (* other arithmetic types *)
| Writer | Reader       (* [kl::binary_writer], [kl::binary_reader] *)
| Class (n : nat).      (* other classes, none of them with conversions *)

Definition ty_eqb (a b : ty) : bool :=
  match a, b with
  | Enum x, Enum y => Nat.eqb (e_id x) (e_id y)
  | Int, Int | Writer, Writer | Reader, Reader => true
  | Small n, Small m | Wide n, Wide m | Class n, Class m => Nat.eqb n m
  | _, _ => false
  end.

(** * Programs *)

Inductive func :=
| Global (o : op)       (* enum_traits.hpp:196-308 *)
| Inner (o : op)        (* enum_traits.hpp:101-188 *)
| Put                   (* binary_rw.hpp:259-264 *)
| Get                   (* binary_rw.hpp:187-192 *)
| Other (n : nat).

Definition func_eqb (a b : func) : bool :=
  match a, b with
  | Global o, Global p | Inner o, Inner p => op_eqb o p
  | Put, Put | Get, Get => true
  | Other n, Other m => Nat.eqb n m
  | _, _ => false
  end.

(** A declaration of a function, or a using-declaration of it, in a namespace; [d_at] is where in the file. *)
Record decl := mkdecl { d_ns : ns; d_token : nat; d_func : func; d_at : nat }.

(** [using namespace u_of;] in the namespace [u_in]. *)
Record directive := mkdirective { u_in : ns; u_of : ns; u_at : nat }.

Record program := mkprogram {
  decls : list decl;
  directives : list directive;
  (** [enum_traits<T>::member], if there is such a member *)
  traits : ty -> trait -> option bool;
  (** the parameter types of other functions *)
  other : nat -> list ty }.

(** An operator in the text: its namespace, where it is, the using-declarations and the using-directives of the block.
    The operands are known at [p_known], later than [p_at] when this is in a template. *)
Record place := mkplace {
  p_ns : ns; p_at : nat; p_known : nat; p_decls : list (nat * func); p_directives : list ns }.

(** * Lookup *)

Definition declared (P : program) (n : ns) (t at_ : nat) : list func :=
  map d_func (filter (fun d => ns_eqb (d_ns d) n && Nat.eqb (d_token d) t && Nat.ltb (d_at d) at_) (decls P)).

(** The using-directives in effect, with the namespaces where the names appear. *)
Definition active (P : program) (p : place) : list (ns * ns) :=
  map (fun q => (meet (p_ns p) q, q)) (p_directives p) ++
  map (fun u => (meet (u_in u) (u_of u), u_of u))
    (filter (fun u => existsb (ns_eqb (u_in u)) (chain (p_ns p)) && Nat.ltb (u_at u) (p_at p)) (directives P)).

(** The functions that appear in the namespace [n]. *)
Definition appear (P : program) (p : place) (t : nat) (n : ns) : list func :=
  declared P n t (p_at p) ++
  flat_map (fun a => declared P (snd a) t (p_at p)) (filter (fun a => ns_eqb (fst a) n) (active P p)).

Fixpoint first_found (l : list (list func)) : list func :=
  match l with
  | [] => []
  | [] :: l => first_found l
  | fs :: _ => fs
  end.

Definition local (p : place) (t : nat) : list func :=
  map snd (filter (fun d => Nat.eqb (fst d) t) (p_decls p)).

Definition unqualified (P : program) (p : place) (t : nat) : list func :=
  first_found (local p t :: map (appear P p t) (chain (p_ns p))).

(** The namespaces of the types of the operands; fundamental types have none, other classes are in the global one. *)
Definition associated (t : ty) : list ns :=
  match t with
  | Enum e => [e_ns e]
  | Writer | Reader => [ns_kl]
  | Class _ => [[]]
  | _ => []
  end.

Definition dependent (P : program) (p : place) (t : nat) (args : list ty) : list func :=
  flat_map (fun n => declared P n t (p_known p)) (flat_map associated args).

Fixpoint dedup (l : list func) : list func :=
  match l with
  | [] => []
  | f :: l => if existsb (func_eqb f) l then dedup l else f :: dedup l
  end.

Definition found (P : program) (p : place) (t : nat) (args : list ty) : list func :=
  dedup (unqualified P p t ++ dependent P p t args).

(** * Viable functions *)

(** Conversion ranks: 0 exact, 1 promotion, 2 conversion; [None] is no conversion. *)
Definition rank (a : ty) (param : ty) : option nat :=
  if ty_eqb a param then Some 0
  else
    match param with
    | Int =>
        match a with
        | Small _ => Some 1
        | Wide _ => Some 2
        | Enum e => if e_scoped e then None else Some 1
        | _ => None
        end
    | Small _ | Wide _ =>
        match a with
        | Int | Small _ | Wide _ => Some 2
        | Enum e => if e_scoped e then None else Some 2
        | _ => None
        end
    | _ => None
    end.

Fixpoint ranks (args params : list ty) : option (list nat) :=
  match args, params with
  | [], [] => Some []
  | a :: args, q :: params =>
      match rank a q, ranks args params with
      | Some r, Some rs => Some (r :: rs)
      | _, _ => None
      end
  | _, _ => None
  end.

(** The parameters of the operators of [kl::enums::operators], with what the template parameter is deduced to be. *)
Definition params_of (o : op) (deduced : ty) : list ty :=
  match o with
  | Plus | Inc | Not => [deduced]
  | Post_inc | Shl | Shr | Shl_eq | Shr_eq => [deduced; Int]
  | Or | And | Xor | Or_eq | And_eq | Xor_eq => [deduced; deduced]
  end.

(** Deduction; both operands of [|] have to agree. *)
Definition deduce (o : op) (args : list ty) : option (list ty) :=
  match args with
  | [] => None
  | a :: rest =>
      match o, rest with
      | (Or | And | Xor | Or_eq | And_eq | Xor_eq), [b] => if ty_eqb a b then Some (params_of o a) else None
      | (Or | And | Xor | Or_eq | And_eq | Xor_eq), _ => None
      | _, _ => Some (params_of o a)
      end
  end.

(** The ranks of the conversions, if the function can be called. *)
Definition viable (P : program) (f : func) (args : list ty) : option (list nat) :=
  match f with
  | Global o =>
      match args, deduce o args with
      | a :: _, Some ps =>
          match traits P a (trait_of o) with
          | Some true => ranks args ps
          | _ => None      (* no such member, or false *)
          end
      | _, _ => None
      end
  | Inner o =>
      match deduce o args with
      | Some ps => ranks args ps
      | None => None
      end
  | Put => match args with [_; b] => ranks args [Writer; b] | _ => None end
  | Get => match args with [_; b] => ranks args [Reader; b] | _ => None end
  | Other n => ranks args (other P n)
  end.

Definition is_template (f : func) : bool := match f with Other _ => false | _ => true end.

(** The operators of the language for arithmetic types and enums that are not scoped; enums cannot be assigned what these
    give. *)
Definition builtin_rank (t : ty) : option nat :=
  match t with
  | Int | Wide _ => Some 0
  | Small _ => Some 1
  | Enum e => if e_scoped e then None else Some 1
  | _ => None
  end.
Fixpoint builtin_ranks (args : list ty) : option (list nat) :=
  match args with
  | [] => Some []
  | a :: args =>
      match builtin_rank a, builtin_ranks args with
      | Some r, Some rs => Some (r :: rs)
      | _, _ => None
      end
  end.
Definition assigns (o : op) : bool :=
  match o with
  | Inc | Post_inc | Or_eq | And_eq | Xor_eq | Shl_eq | Shr_eq => true
  | _ => false
  end.

(** * The best *)

Inductive candidate := User (f : func) | Builtin.

Definition candidates (P : program) (o : op) (fs : list func) (args : list ty) : list (candidate * list nat) :=
  flat_map (fun f => match viable P f args with Some r => [(User f, r)] | None => [] end) fs ++
  (if assigns o then [] else match builtin_ranks args with Some r => [(Builtin, r)] | None => [] end).

Definition not_worse (r s : list nat) : bool := forallb (fun x => Nat.leb (fst x) (snd x)) (combine r s).

(** None of the templates here is more specialized than another: the operators on enums have the same parameters, and
    [(T, int)] and [(binary_writer&, const T&)] are each more special in one of them. *)
Definition prefers (c d : candidate) : bool :=
  match c, d with
  | User f, User g => negb (is_template f) && is_template g
  | Builtin, User g => is_template g
  | _, _ => false
  end.

Definition better (a b : candidate * list nat) : bool :=
  not_worse (snd a) (snd b) && (negb (not_worse (snd b) (snd a)) || prefers (fst a) (fst b)).

Inductive result := Chosen (f : func) | Language | Ambiguous | Missing.

Definition of_candidate (c : candidate) : result := match c with User f => Chosen f | Builtin => Language end.

(** The candidate that is better than those before it in the list and those after it. *)
Fixpoint best_of (before after : list (candidate * list nat)) : option candidate :=
  match after with
  | [] => None
  | c :: after =>
      if forallb (better c) before && forallb (better c) after then Some (fst c)
      else best_of (before ++ [c]) after
  end.

(** Functions are looked up for an operator if an operand is an enum or a class. *)
Definition overloadable (t : ty) : bool :=
  match t with Enum _ | Writer | Reader | Class _ => true | _ => false end.

Definition resolve (P : program) (p : place) (o : op) (args : list ty) : result :=
  if negb (existsb overloadable args) then Language
  else
  match candidates P o (found P p (token o) args) args with
  | [] => Missing
  | cs => match best_of [] cs with Some c => of_candidate c | None => Ambiguous end
  end.

(** * The headers *)

(** enum_traits.hpp, included at [h]. *)
Definition all_ops : list op :=
  [Plus; Inc; Post_inc; Or; And; Xor; Not; Or_eq; And_eq; Xor_eq; Shl; Shr; Shl_eq; Shr_eq].
Definition enum_traits_hpp (h : nat) : list decl :=
  map (fun o => mkdecl ns_operators (token o) (Inner o) h) all_ops ++
  map (fun o => mkdecl [] (token o) (Global o) h) all_ops.

(** binary_rw.hpp, included at [h]. *)
Definition binary_rw_hpp (h : nat) : list decl :=
  [mkdecl ns_kl (token Shl) Put h; mkdecl ns_kl (token Shr) Get h].
