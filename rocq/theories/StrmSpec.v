(** The types that can be streamed, as rules. *)
From Coq Require Import List Arith Bool.
From Verif Require Import StrmModel.
Import ListNotations.

Definition simple (t : ty) : Prop := t = Boolean \/ exists k, t = Number k.

(** Types of values: no spans, pointers and constants; classes that come with both functions and a default constructor, or
    derive from such a type and add nothing. *)
Inductive regular : ty -> Prop :=
| r_number : forall k, regular (Number k)
| r_bool : regular Boolean
| r_endian : forall k, regular (Endian k)
| r_string : regular Str
| r_vec : forall t, regular t -> regular (Vec t)
| r_set : forall t, regular t -> regular (Set_ t)
| r_map : forall k t, regular k -> regular t -> regular (Map k t)
| r_pair : forall t u, regular t -> regular u -> regular (Pair t u)
| r_opt : forall t, regular t -> regular (Opt t)
| r_var : forall ts, ts <> [] -> Forall regular ts -> regular (Var ts)
| r_own : forall k triv str base, regular (User k true true true triv str base)
| r_derived : forall k triv b, regular b -> regular (User k false false true triv false (Some b)).

(** [Vec Boolean] occurs where it is streamed. *)
Inductive bits_in : ty -> Prop :=
| b_here : bits_in (Vec Boolean)
| b_vec : forall t, bits_in t -> bits_in (Vec t)
| b_set : forall t, bits_in t -> bits_in (Set_ t)
| b_key : forall k t, bits_in k -> bits_in (Map k t)
| b_mapped : forall k t, bits_in t -> bits_in (Map k t)
| b_first : forall t u, bits_in t -> bits_in (Pair t u)
| b_second : forall t u, bits_in u -> bits_in (Pair t u)
| b_opt : forall t, bits_in t -> bits_in (Opt t)
| b_var : forall ts t, In t ts -> bits_in t -> bits_in (Var ts)
| b_base : forall k triv b, bits_in b -> bits_in (User k false false true triv false (Some b)).

(** The same type, classes by their names. *)
Inductive same : ty -> ty -> Prop :=
| s_number : forall k, same (Number k) (Number k)
| s_bool : same Boolean Boolean
| s_endian : forall k, same (Endian k) (Endian k)
| s_string : same Str Str
| s_chars : same Chars Chars
| s_vec : forall t u, same t u -> same (Vec t) (Vec u)
| s_set : forall t u, same t u -> same (Set_ t) (Set_ u)
| s_map : forall k t l u, same k l -> same t u -> same (Map k t) (Map l u)
| s_pair : forall k t l u, same k l -> same t u -> same (Pair k t) (Pair l u)
| s_opt : forall t u, same t u -> same (Opt t) (Opt u)
| s_var : forall ts us, Forall2 same ts us -> same (Var ts) (Var us)
| s_span : forall c t u, same t u -> same (Span c t) (Span c u)
| s_const : forall t u, same t u -> same (Const t) (Const u)
| s_user : forall k w r d v s b w' r' d' v' s' b', same (User k w r d v s b) (User k w' r' d' v' s' b')
| s_other : forall k, same (Other k) (Other k).

(** A variant with an alternative twice occurs where it is streamed. *)
Inductive twice_in : ty -> Prop :=
| t_here : forall l t m u n, same t u -> twice_in (Var (l ++ t :: m ++ u :: n))
| t_vec : forall t, twice_in t -> twice_in (Vec t)
| t_set : forall t, twice_in t -> twice_in (Set_ t)
| t_key : forall k t, twice_in k -> twice_in (Map k t)
| t_mapped : forall k t, twice_in t -> twice_in (Map k t)
| t_first : forall t u, twice_in t -> twice_in (Pair t u)
| t_second : forall t u, twice_in u -> twice_in (Pair t u)
| t_opt : forall t, twice_in t -> twice_in (Opt t)
| t_var : forall ts t, In t ts -> twice_in t -> twice_in (Var ts)
| t_base : forall k triv b, twice_in b -> twice_in (User k false false true triv false (Some b)).

(** Types copied byte by byte: [std::is_trivially_copyable]. *)
Inductive trivial : ty -> Prop :=
| v_number : forall k, trivial (Number k)
| v_bool : trivial Boolean
| v_endian : forall k, trivial (Endian k)
| v_chars : trivial Chars
| v_span : forall c t, trivial (Span c t)
| v_opt : forall t, trivial t -> trivial (Opt t)
| v_const : forall t, trivial t -> trivial (Const t)
| v_var : forall ts, (forall t, In t ts -> trivial t) -> trivial (Var ts)
| v_user : forall k w r d s b, trivial (User k w r d true s b)
| v_other : forall k, trivial (Other k).

(** Types that cannot be made from nothing. *)
Inductive unmade : ty -> Prop :=
| m_first : forall t u, unmade t -> unmade (Pair t u)
| m_second : forall t u, unmade u -> unmade (Pair t u)
| m_var : forall t ts, unmade t -> unmade (Var (t :: ts))
| m_none : unmade (Var [])
| m_const : forall t, unmade t -> unmade (Const t)
| m_user : forall k w r v s b, unmade (User k w r false v s b).
