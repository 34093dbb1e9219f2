(** kl/split.hpp, kl/stream_join.hpp and parse_index of kl/resource_op.hpp.
    Text is a list of bytes, iterators are indices into it; reading outside
    a buffer is [UB]. *)
From Coq Require Import List NArith Arith Bool.
From Verif Require Import Base.
Import ListNotations.
Local Open Scope outcome_scope.

Definition text := list N.

(** The inner loop of [std::find_first_of]: is [c] one of the delimiters. *)
Fixpoint any_of (c : N) (delims : text) : bool :=
  match delims with
  | [] => false
  | d :: delims' => if N.eqb c d then true else any_of c delims'
  end.

(** [std::find_first_of(first, last, s_first, s_last)]; [n] is [last - first]. *)
Fixpoint find_first_of (str delims : text) (n first : nat) : outcome nat :=
  match n with
  | O => Ok first
  | S n' =>
      c <- rd str first ;;
      if any_of c delims then Ok first else find_first_of str delims n' (first + 1)
  end.

(** split.hpp:11-24 [for_each_token] with the calls of [binary_op] collected.
    Each round moves [first] forward, so [fuel] above the length never runs out;
    running out is [UB], which the theorems exclude. *)
Fixpoint for_each_token (fuel : nat) (str delims : text) (first last : nat)
  : outcome (list (nat * nat)) :=
  match fuel with
  | O => UB
  | S fuel' =>
      if Nat.eqb first last then Ok []
      else
        pos <- find_first_of str delims (last - first) first ;;
        if Nat.eqb pos last then Ok [(first, pos)]
        else
          rest <- for_each_token fuel' str delims (pos + 1) last ;;
          Ok ((first, pos) :: rest)
  end.

(** [std::string(first, last)]. *)
Definition make_string (str : text) (p : nat * nat) : text :=
  firstn (snd p - fst p) (skipn (fst p) str).

(** split.hpp:26-41 [split] on [std::string] arguments. *)
Definition split (str delims : text) (skip_empty : bool) : outcome (list text) :=
  tokens <- for_each_token (S (List.length str)) str delims 0 (List.length str) ;;
  Ok (map (make_string str)
        (filter (fun p => (negb (Nat.eqb (fst p) (snd p)) || negb skip_empty)%bool) tokens)).

(** A string literal argument is a [const char[N]]: [std::cend] is past its
    terminator (split.hpp:30-35 with [String] or [Delimiters] an array). *)
Definition literal (s : text) : text := s ++ [0%N].

(* ------------------------------------------------------------------ *)

Section join.
Variable A : Type.
Variable fmt : A -> text.  (** what [os << x] appends *)

(** stream_join.hpp:11-49: streaming a [stream_joiner]. *)
Fixpoint join_loop (os : text) (delim : text) (i : list A) : text :=
  match i with
  | [] => os
  | x :: i' => join_loop (os ++ delim ++ fmt x) delim i'
  end.

Definition stream_join (os delim empty : text) (xs : list A) : text :=
  match xs with
  | [] => os ++ empty
  | x :: r => join_loop (os ++ fmt x) delim r
  end.

(** stream_join.hpp:28-31: the defaults, [", "] and ["."]. *)
Definition default_delim : text := [44%N; 32%N].
Definition default_empty : text := [46%N].

(** stream_join.hpp:59-107 [outstream_joiner]; the stream it points to is the
    first component. *)
Record joiner := mkjoiner { jdelim : text; jfirst : bool }.

Definition make_joiner (delim : text) : joiner := mkjoiner delim true.

(** stream_join.hpp:92-100 [operator=(const T&)]; [*], [++] do nothing. *)
Definition joiner_assign (st : text * joiner) (v : A) : text * joiner :=
  let '(os, j) := st in
  let os := if jfirst j then os else os ++ jdelim j in
  (os ++ fmt v, mkjoiner (jdelim j) false).

(** [std::copy(xs.begin(), xs.end(), j)]: works on a copy of [j] and returns it. *)
Definition copy_to (os : text) (j : joiner) (xs : list A) : text * joiner :=
  fold_left joiner_assign xs (os, j).

End join.
Arguments join_loop {A} fmt os delim i.
Arguments stream_join {A} fmt os delim empty xs.
Arguments joiner_assign {A} fmt st v.
Arguments copy_to {A} fmt os j xs.

(* ------------------------------------------------------------------ *)

Definition is_digit (c : N) : bool := ((48 <=? c) && (c <=? 57))%N.

(** [std::from_chars] for [std::size_t], base 10: consumes the longest run of
    digits.  Returns the unread rest and the number, [None] when it does not fit. *)
Fixpoint digits_run (s : text) (acc : option N) : text * option N :=
  match s with
  | [] => ([], acc)
  | c :: s' =>
      if is_digit c then
        digits_run s' (match acc with
                       | Some v => let v' := (10 * v + (c - 48))%N in
                                   if (v' <? 18446744073709551616)%N then Some v' else None
                       | None => None
                       end)
      else (s, acc)
  end.

Inductive from_chars_result :=
| FcInvalid
| FcOutOfRange
| FcOk (v : N) (rest : text).

Definition from_chars (s : text) : from_chars_result :=
  match s with
  | [] => FcInvalid
  | c :: _ =>
      if is_digit c then
        match digits_run s (Some 0%N) with
        | (rest, Some v) => FcOk v rest
        | (_, None) => FcOutOfRange
        end
      else FcInvalid
  end.

(** resource_op.hpp:471-485 [parse_index]. *)
Definition parse_index (segment : text) : option N :=
  match segment with
  | [] => None
  | _ => match from_chars segment with
         | FcOk v [] => Some v
         | _ => None
         end
  end.
