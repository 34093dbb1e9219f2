(** Which types can be streamed: the overloads of [write_binary] and [read_binary] in kl/binary_rw.hpp and
    kl/binary_rw/*.hpp as the compiler sees them, for [w << value] and [r >> value].

    Simplifications: all headers are included; containers have the default comparison and allocator; types can be moved;
    a class of the user has at most one base; its own functions take exactly that class, and take it before those
    for its bases (a nearer base is a better conversion); spans have any number of elements. *)
From Coq Require Import List Arith Bool.
Import ListNotations.

Inductive ty :=
| Number (k : nat)                  (* arithmetic types but bool, enums *)
| Boolean
| Endian (k : nat)                  (* boost::endian::endian_arithmetic *)
| Str
| Chars                             (* pointers to and arrays of char: they convert to std::string *)
| Vec (t : ty) | Set_ (t : ty) | Map (k t : ty) | Pair (t u : ty) | Opt (t : ty) | Var (ts : list ty)
| Span (const : bool) (t : ty)      (* gsl::span<const T>, gsl::span<T> *)
| Const (t : ty)
(** a class: has functions of its own to write and to read it, is default constructible, is trivially copyable, converts to
    std::string, its base *)
| User (k : nat) (w r def triv str : bool) (base : option ty)
| Other (k : nat).                  (* anything else *)

Fixpoint ty_eqb (a b : ty) {struct a} : bool :=
  match a, b with
  | Number j, Number k | Endian j, Endian k | Other j, Other k => Nat.eqb j k
  | User j _ _ _ _ _ _, User k _ _ _ _ _ _ => Nat.eqb j k          (* the name of the class *)
  | Boolean, Boolean | Str, Str | Chars, Chars => true
  | Vec x, Vec y | Set_ x, Set_ y | Opt x, Opt y | Const x, Const y => ty_eqb x y
  | Map k x, Map l y | Pair k x, Pair l y => ty_eqb k l && ty_eqb x y
  | Span c x, Span d y => Bool.eqb c d && ty_eqb x y
  | Var xs, Var ys =>
      (fix lists (xs ys : list ty) :=
         match xs, ys with
         | [], [] => true
         | x :: xs', y :: ys' => ty_eqb x y && lists xs' ys'
         | _, _ => false
         end) xs ys
  | _, _ => false
  end.

(** binary_rw.hpp:68-70 *)
Fixpoint is_simple (t : ty) : bool := match t with Number _ | Boolean => true | Const t => is_simple t | _ => false end.

(** [std::is_trivially_copyable], [std::is_default_constructible] *)
Fixpoint trivially_copyable (t : ty) : bool :=
  match t with
  | Number _ | Boolean | Endian _ | Chars | Span _ _ | Other _ => true
  | Opt t | Const t => trivially_copyable t
  | Var ts => forallb trivially_copyable ts
  | User _ _ _ _ triv _ _ => triv
  | Str | Vec _ | Set_ _ | Map _ _ | Pair _ _ => false
  end.
Fixpoint default_constructible (t : ty) : bool :=
  match t with
  | Pair t u => default_constructible t && default_constructible u
  | Var ts => match ts with t :: _ => default_constructible t | [] => false end
  | User _ _ _ def _ _ _ => def
  | Const t => default_constructible t
  | _ => true
  end.

(** * Writing *)

(** 246-258 for simple types and spans, endian.hpp:9-16, string.hpp:13-19, vector.hpp:13-30 and 79-83, set.hpp:9-16,
    map.hpp:9-19, pair.hpp:9-14, optional.hpp:9-15, variant.hpp:35-40.  A class is written by its own function, by that of
    the nearest base, or as the string it converts to. *)
Fixpoint can_write (t : ty) : bool :=
  match t with
  | Number _ | Boolean | Endian _ | Str | Chars => true
  | Vec x => if is_simple x then match x with Boolean => false | _ => true end     (* no span of a vector<bool> *)
             else can_write x
  | Set_ x | Opt x | Const x => can_write x
  | Map x y | Pair x y => can_write x && can_write y
  | Var ts => forallb can_write ts
  | Span const x => const && trivially_copyable x        (* [gsl::span<const T, Extent>] is not deduced from [gsl::span<T>] *)
  | User _ w _ _ _ str base => w || (match base with Some b => can_write b | None => false end) || str
  | Other _ => false
  end.

(** * Reading *)

Fixpoint once (ts : list ty) : bool :=
  match ts with [] => true | t :: ts' => negb (existsb (ty_eqb t) ts') && once ts' end.

(** 171-199, endian.hpp:18-24, string.hpp:21-34, vector.hpp:32-71 and 85-89, set.hpp:18-32, map.hpp:21-35, pair.hpp:16-25,
    optional.hpp:17-25, variant.hpp:11-33 and 42-50.  A value of a type that [read<T>()] returns is made first (119-126).
    [variant = std::move(value)] needs to know which alternative is meant. *)
Fixpoint can_read (t : ty) : bool :=
  match t with
  | Number _ | Boolean | Endian _ | Str => true
  | Chars => false
  | Vec x => if is_simple x then match x with Number _ => true | _ => false end
             else default_constructible x && can_read x
  | Set_ x | Opt x => default_constructible x && can_read x
  | Map x y => default_constructible x && can_read x && (default_constructible y && can_read y)
  | Pair x y => can_read x && can_read y
  | Var ts => forallb (fun x => default_constructible x && can_read x) ts && once ts
  | Span const x => negb const && trivially_copyable x && match x with Const _ => false | _ => true end
  | Const (Span false x) => trivially_copyable x && match x with Const _ => false | _ => true end   (* spans are copied *)
  | Const _ => false
  | User _ _ r _ _ _ base => r || match base with Some b => can_read b | None => false end
  | Other _ => false
  end.
