(** Overload resolution for calls with one argument, with match.hpp and range.hpp on top of it.

    Simplifications: no enums, pointers, member pointers or cv-qualifiers other than [const]; user-defined conversions
    are not ranked among each other; [volatile], ellipsis, constraints and explicit constructors are left out. *)
From Coq Require Import List Arith ZArith Bool.
From Verif Require Import Base.
Import ListNotations.

(** * Types and arguments *)

Inductive arith :=
| TBool | TChar | TSchar | TUchar | TShort | TUshort | TInt | TUint | TLong | TUlong | TLlong | TUllong
| TFloat | TDouble | TLdouble.
Inductive ty :=
| Arith (a : arith)
| Class (n : nat)
| Array (t : ty) (n : nat)
| Range (i : nat).            (* [kl::range<I>], for the iterator type [i] *)

Definition arith_eqb (a b : arith) : bool :=
  match a, b with
  | TBool, TBool | TChar, TChar | TSchar, TSchar | TUchar, TUchar | TShort, TShort | TUshort, TUshort
  | TInt, TInt | TUint, TUint | TLong, TLong | TUlong, TUlong | TLlong, TLlong | TUllong, TUllong
  | TFloat, TFloat | TDouble, TDouble | TLdouble, TLdouble => true
  | _, _ => false
  end.
Fixpoint ty_eqb (a b : ty) : bool :=
  match a, b with
  | Arith x, Arith y => arith_eqb x y
  | Class x, Class y => Nat.eqb x y
  | Array x n, Array y m => ty_eqb x y && Nat.eqb n m
  | Range i, Range j => Nat.eqb i j
  | _, _ => false
  end.

(** [conv.prom], [conv.fpprom]; [int] holds all values of the smaller types *)
Definition promotes (a b : arith) : bool :=
  match a, b with
  | (TBool | TChar | TSchar | TUchar | TShort | TUshort), TInt => true
  | TFloat, TDouble => true
  | _, _ => false
  end.

(** The classes of the program: [derives d b], [b] is an accessible, unambiguous proper base of [d];
    [converts t u], a user-defined conversion from [t] to [u]. *)
Record world := mkworld { w_derives : nat -> nat -> bool; w_converts : ty -> ty -> bool }.

(** An expression: lvalue or not, [const] or not, its type. *)
Record arg := mkarg { a_lvalue : bool; a_const : bool; a_type : ty }.

(** * Parameters *)

Inductive pat := Exactly (t : ty) | Any | AnyArray | AnyRange.
Inductive ref := by_value | lref | rref | forwarding.
Record param := mkparam { p_const : bool; p_ref : ref; p_pat : pat }.

(** The type of a parameter after deduction. *)
Inductive concrete := CVal (t : ty) | CL (c : bool) (t : ty) | CR (c : bool) (t : ty).

(** [temp.deduct.call] *)
Definition deduce (p : param) (a : arg) : option concrete :=
  match
    match p_pat p with
    | Exactly u => Some (u, p_const p)
    | Any => Some (a_type a, p_const p || a_const a)
    | AnyArray => match a_type a with Array _ _ => Some (a_type a, p_const p || a_const a) | _ => None end
    | AnyRange => match a_type a with Range _ => Some (a_type a, p_const p) | _ => None end
    end
  with
  | None => None
  | Some (u, c) =>
      match p_ref p with
      | by_value => Some (CVal u)
      | lref => Some (CL c u)
      | rref => Some (CR c u)
      | forwarding => Some (if a_lvalue a then CL c u else CR c u)
      end
  end.

(** * Conversions *)

Inductive rank := exact_match | promotion | conversion | user_defined.
Definition rank_lt (a b : rank) : bool :=
  match a, b with
  | exact_match, (promotion | conversion | user_defined) => true
  | promotion, (conversion | user_defined) => true
  | conversion, user_defined => true
  | _, _ => false
  end.
Definition rank_eqb (a b : rank) : bool := negb (rank_lt a b) && negb (rank_lt b a).

Definition derives (W : world) (t u : ty) : bool :=
  match t, u with Class d, Class b => w_derives W d b | _, _ => false end.

(** [over.best.ics]: how [t] becomes [u] *)
Definition convert (W : world) (t u : ty) : option rank :=
  if ty_eqb t u then Some exact_match
  else match t, u with
       | Arith a, Arith b => Some (if promotes a b then promotion else conversion)
       | _, _ => if derives W t u then Some conversion
                 else if w_converts W t u then Some user_defined else None
       end.

(** What is known of a conversion: its rank, the type it ends with, the reference that is bound. *)
Record ics := mkics { i_rank : rank; i_type : ty; i_ref : option (bool * bool) }.   (* (is &&, is const) *)

Definition related (W : world) (t u : ty) : bool := ty_eqb t u || derives W t u.
(** [dcl.init.ref]: a reference to the same type or a base is bound directly, others to a temporary. *)
Definition sequence (W : world) (a : arg) (p : concrete) : option ics :=
  let t := a_type a in
  match p with
  | CVal u => match convert W t u with Some r => Some (mkics r u None) | None => None end
  | CL c u =>
      if related W t u then
        if implb (a_const a) c && (a_lvalue a || c)
        then match convert W t u with Some r => Some (mkics r u (Some (false, c))) | None => None end
        else None
      else if c then match convert W t u with Some r => Some (mkics r u (Some (false, true))) | None => None end
      else None
  | CR c u =>
      if related W t u then
        if implb (a_const a) c && negb (a_lvalue a)
        then match convert W t u with Some r => Some (mkics r u (Some (true, c))) | None => None end
        else None
      else match convert W t u with Some r => Some (mkics r u (Some (true, c))) | None => None end
  end.

(** [over.ics.rank] *)
Definition ics_better (W : world) (i j : ics) : bool :=
  rank_lt (i_rank i) (i_rank j)
  || (rank_eqb (i_rank i) (i_rank j) && negb (rank_eqb (i_rank i) user_defined)
      && (derives W (i_type i) (i_type j)
          || match i_ref i, i_ref j with
             | Some (ri, ci), Some (rj, cj) =>
                 ty_eqb (i_type i) (i_type j)
                 && (if Bool.eqb ri rj then negb ci && cj else ri)
             | _, _ => false
             end)).

(** * The best candidate *)

Record cand := mkcand {
  c_param : param;
  c_mutable : bool;     (* the object it is called on must not be const *)
  c_guide : bool;       (* a deduction guide *)
  c_copy : bool }.      (* the copy deduction candidate *)

Definition is_template (c : cand) : bool := match p_pat (c_param c) with Exactly _ => false | _ => true end.

(** [temp.deduct.partial]: [p] is at least as specialized as [q] *)
Definition pat_le (p q : pat) : bool :=
  match q, p with Any, _ => true | AnyArray, AnyArray => true | AnyRange, AnyRange => true | _, _ => false end.
Definition is_ref (r : ref) : bool := match r with by_value => false | _ => true end.
Definition is_lref (r : ref) : bool := match r with lref => true | _ => false end.
Definition at_least (p q : param) : bool :=
  pat_le (p_pat p) (p_pat q)
  && negb (pat_le (p_pat q) (p_pat p) && is_ref (p_ref p) && is_ref (p_ref q)
           && (if is_lref (p_ref q) && negb (is_lref (p_ref p)) then true
               else if is_lref (p_ref p) && negb (is_lref (p_ref q)) then false
               else p_const q && negb (p_const p))).
Definition more_specialized (p q : param) : bool := at_least p q && negb (at_least q p).

(** The conversion of the argument, if the candidate is viable; [oc], the object it is called on is const. *)
Definition viable (W : world) (oc : bool) (a : arg) (c : cand) : option ics :=
  if oc && c_mutable c then None
  else match deduce (c_param c) a with Some p => sequence W a p | None => None end.

(** [over.match.best] *)
Definition tie_break (h g : cand) : bool :=
  if negb (is_template h) && is_template g then true
  else if is_template h && negb (is_template g) then false
  else if is_template h && is_template g && more_specialized (c_param h) (c_param g) then true
  else if is_template h && is_template g && more_specialized (c_param g) (c_param h) then false
  else if c_guide h && negb (c_guide g) then true
  else if c_guide g && negb (c_guide h) then false
  else c_copy h && negb (c_copy g).
Definition better (W : world) (h g : cand) (i j : ics) : bool :=
  let object_better := c_mutable h && negb (c_mutable g) in
  let object_worse := c_mutable g && negb (c_mutable h) in
  negb object_worse && negb (ics_better W j i) && (object_better || ics_better W i j || tie_break h g).

Fixpoint best (W : world) (before after : list (nat * cand * ics)) : list nat :=
  match after with
  | [] => []
  | (n, c, i) :: after' =>
      (if forallb (fun x => match x with (_, d, j) => better W c d i j end) (before ++ after') then [n] else [])
      ++ best W (before ++ [(n, c, i)]) after'
  end.
Fixpoint viables (W : world) (oc : bool) (a : arg) (n : nat) (cs : list cand) : list (nat * cand * ics) :=
  match cs with
  | [] => []
  | c :: cs' =>
      match viable W oc a c with Some i => [(n, c, i)] | None => [] end ++ viables W oc a (S n) cs'
  end.
(** The index of the function that is called; none if there is no viable one or the call is ambiguous. *)
Definition resolve (W : world) (oc : bool) (a : arg) (cs : list cand) : option nat :=
  match best W [] (viables W oc a 0 cs) with [n] => Some n | _ => None end.

(** * match.hpp *)

(** Call operators of handlers: lambdas that take [T], [T&], [const T&], ..., [auto], [auto&], [const auto&], [auto&&]. *)
Definition takes (p : param) : cand := mkcand p false false false.
Definition mutable (c : cand) : cand := mkcand (c_param c) true (c_guide c) (c_copy c).

(** match.hpp:31-48: [func_overload<R, Arg>] for a function that takes [p] *)
Definition forward_arg (p : param) : param :=
  match p_ref p with by_value => mkparam true lref (p_pat p) | _ => p end.
Definition func_overload (p : param) : cand := takes (forward_arg p).

Section Match.
Variables V R : Type.

(** What the program does when a handler is called with a value: the result, what it makes of the value
    (if it can write to it), its own new state. *)
Record handler := mkhandler {
  h_cand : cand;
  h_returns : bool * ty;                      (* a reference?, the type *)
  h_state : Z;
  h_run : V -> Z -> R * V * Z }.

(** The held alternative; none if it is valueless. *)
Record variant := mkvariant { v_alts : list ty; v_held : option (nat * V) }.

(** Values converted from one type to another; the whole with a part of it (a base) replaced. *)
Variable conv : ty -> ty -> V -> V.
Variable put_back : ty -> ty -> V -> V -> V.

Inductive matched :=
| Ill                                          (* the program does not compile *)
| Thrown (v : variant) (hs : list handler)     (* [std::bad_variant_access] *)
| Called (n : nat) (x : V) (r : R) (v : variant) (hs : list handler).

Definition ret_eqb (a b : bool * ty) : bool := Bool.eqb (fst a) (fst b) && ty_eqb (snd a) (snd b).

(** [std::visit]: for every alternative the call resolves, all with the same type *)
Definition visitable (W : world) (c : bool) (alts : list ty) (hs : list handler) : bool :=
  forallb (fun t =>
    match resolve W false (mkarg true c t) (map h_cand hs) with
    | Some n =>
        match nth_error hs n with
        | Some h =>
            match alts with
            | [] => false
            | t0 :: _ =>
                match resolve W false (mkarg true c t0) (map h_cand hs) with
                | Some m => match nth_error hs m with Some h0 => ret_eqb (h_returns h0) (h_returns h) | None => false end
                | None => false
                end
            end
        | None => false
        end
    | None => false
    end) alts.

(** The value the parameter is bound to or initialized with, and whether what is written to it stays. *)
Definition passed (W : world) (t : ty) (p : concrete) (x : V) : V :=
  match p with CVal u | CL _ u | CR _ u => if ty_eqb t u then x else conv t u x end.
Definition after (W : world) (t : ty) (p : concrete) (x y : V) : V :=
  match p with
  | CL false u => if ty_eqb t u then y else if related W t u then put_back t u x y else x
  | _ => x
  end.

(** match.hpp:53-57. The variant is an lvalue inside, whatever it was outside ([std::forward] is not applied);
    the handlers are copied or moved into the [overloader], which is not const; [match] returns by [auto]. *)
Definition match_ (W : world) (c : bool) (v : variant) (hs : list handler) : matched :=
  if negb (visitable W c (v_alts v) hs) then Ill
  else
    match v_held v with
    | None => Thrown v hs
    | Some (k, x) =>
        match nth_error (v_alts v) k with
        | None => Ill
        | Some t =>
            match resolve W false (mkarg true c t) (map h_cand hs) with
            | None => Ill
            | Some n =>
                match nth_error hs n with
                | None => Ill
                | Some h =>
                    match deduce (c_param (h_cand h)) (mkarg true c t) with
                    | None => Ill
                    | Some p =>
                        match h_run h (passed W t p x) (h_state h) with
                        | (r, y, _) => Called n (passed W t p x) r (mkvariant (v_alts v) (Some (k, after W t p x y))) hs
                        end
                    end
                end
            end
        end
    end.

(** The type of a call of [match]: [auto] drops the reference. *)
Definition match_type (W : world) (c : bool) (alts : list ty) (hs : list handler) : option (bool * ty) :=
  if visitable W c alts hs then
    match alts with
    | t :: _ =>
        match resolve W false (mkarg true c t) (map h_cand hs) with
        | Some n => match nth_error hs n with Some h => Some (false, snd (h_returns h)) | None => None end
        | None => None
        end
    | [] => None
    end
  else None.
End Match.

Arguments h_cand {V R}. Arguments h_returns {V R}. Arguments h_state {V R}. Arguments h_run {V R}.
Arguments mkhandler {V R}. Arguments v_alts {V}. Arguments v_held {V}. Arguments mkvariant {V}.
Arguments Ill {V R}. Arguments Thrown {V R}. Arguments Called {V R}.
Arguments match_ {V R}. Arguments visitable {V R}. Arguments match_type {V R}. Arguments passed {V}. Arguments after {V}.

(** * range.hpp *)

(** What a type has for [range]: its member types, what its members return. Iterator types are numbers;
    an iterator is its type and a position. *)
Record shape := mkshape {
  s_iterator : option nat;                    (* [T::iterator] *)
  s_const_iterator : option nat;
  s_begin : bool -> option nat;               (* the type of [begin()], [end()] of a T that is const or not *)
  s_cbegin : option nat }.                    (* of [cbegin()], [cend()] *)

(** range.hpp:79-90 and the guides that the constructors stand for: [range(Iterator, Iterator)] takes two
    arguments, from the templates [Iterator] cannot be deduced, copy and move constructor, copy deduction candidate *)
Definition guides : list cand :=
  [mkcand (mkparam false lref Any) false true false;
   mkcand (mkparam true lref Any) false true false;
   mkcand (mkparam false lref AnyArray) false true false;
   mkcand (mkparam true lref AnyArray) false true false;
   mkcand (mkparam true lref AnyRange) false false false;
   mkcand (mkparam false rref AnyRange) false false false;
   mkcand (mkparam false by_value AnyRange) false false true].

Section Guides.
Variables (sh : ty -> shape) (pointer : bool -> ty -> nat).   (* [const]?, element *)
(** The iterator type that a guide gives, if its right side is a type. *)
Definition guide_type (n : nat) (a : arg) : option nat :=
  match n with
  | 0 => s_iterator (sh (a_type a))
  | 1 => s_const_iterator (sh (a_type a))
  | 2 => match a_type a with Array t _ => Some (pointer (a_const a) t) | _ => None end
  | 3 => match a_type a with Array t _ => Some (pointer true t) | _ => None end
  | _ => match a_type a with Range i => Some i | _ => None end
  end.
(** A guide without a type on its right side is no candidate. *)
Definition usable_guides (a : arg) : list (nat * cand) :=
  filter (fun x => match guide_type (fst x) a with Some _ => true | None => false end) (combine (seq 0 (length guides)) guides).
Definition deduced (W : world) (a : arg) : option nat :=
  let us := usable_guides a in
  match resolve W false a (map snd us) with
  | Some k => match nth_error us k with Some (n, _) => guide_type n a | None => None end
  | None => None
  end.

(** range.hpp:30-63, constructors with one argument of [range<i>]: containers, arrays, copy and move *)
Definition constructors (i : nat) : list cand :=
  [mkcand (mkparam false lref Any) false false false;
   mkcand (mkparam true lref Any) false false false;
   mkcand (mkparam false lref AnyArray) false false false;
   mkcand (mkparam true lref AnyArray) false false false;
   mkcand (mkparam true lref (Exactly (Range i))) false false false;
   mkcand (mkparam false rref (Exactly (Range i))) false false false].
(** Conversions of iterators, by brace initialization. *)
Variable iter_converts : nat -> nat -> bool.
Inductive made := members | const_members | decays | copies.
(** How [range<i>] is made of the argument; none if the program does not compile. *)
Definition construct (W : world) (i : nat) (a : arg) : option made :=
  let from (k : option nat) (m : made) := match k with Some j => if iter_converts j i then Some m else None | None => None end in
  match resolve W false a (constructors i) with
  | Some 0 => from (s_begin (sh (a_type a)) (a_const a)) members
  | Some 1 => from (s_cbegin (sh (a_type a))) const_members
  | Some 2 | Some 3 => match a_type a with Array t _ => from (Some (pointer (a_const a) t)) decays | _ => None end
  | Some _ => Some copies
  | None => None
  end.
End Guides.

(** The members of a range: what [for (auto& x : r)] visits, and [size()] (range.hpp:65-88). A position is an index
    into the elements; [None] is undefined behaviour: an increment or read past the end. *)
Fixpoint visit {A} (fuel : nat) (xs : list A) (first last : nat) : option (list A) :=
  if Nat.eqb first last then Some []
  else
    match fuel with
    | O => None
    | S f =>
        match nth_error xs first with
        | Some x => match visit f xs (S first) last with Some ys => Some (x :: ys) | None => None end
        | None => None
        end
    end.
(** [std::distance] of random access iterators, converted to [std::size_t] *)
Definition range_size (first last : nat) : Z := ((Z.of_nat last - Z.of_nat first) mod 2 ^ 64)%Z.
