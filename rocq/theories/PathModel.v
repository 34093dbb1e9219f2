(** Model of include/kl/path.hpp and src/path.cpp.

    Characters are [N] codes.  [boost::container::small_vector] is a list.
    [value_.reserve] (path.cpp:15) has no observable effect and is left out. *)
From Coq Require Import List NArith Arith Bool.
From Verif Require Import Base.
Import ListNotations.
Local Open Scope outcome_scope.

Notation str := (list N) (only parsing).

Definition ch_slash : N := 47.
Definition ch_dot : N := 46.
Definition ch_percent : N := 37.

(** path.hpp:13-17 [path_segment]. *)
Record path_segment := mkseg { seg_offset : nat; seg_length : nat }.

(** path.hpp:135-136, the data members of [path]. *)
Record path := mkpath { value_ : str; segments_ : list path_segment }.

(** [std::string_view::substr(pos, n)]: throws when [pos > size].  The callers
    below are noexcept, so this would terminate the program. *)
Definition substr (s : str) (pos n : nat) : outcome str :=
  if Nat.ltb (length s) pos then Throws else Ok (firstn n (skipn pos s)).

(** [std::string_view::substr(pos)]. *)
Definition substr_from (s : str) (pos : nat) : outcome str :=
  if Nat.ltb (length s) pos then Throws else Ok (skipn pos s).

(** path.hpp:21-26 [detail::path_segment_at]; [segments] is the array the
    pointer points into and [base] the pointer's position in it. *)
Definition path_segment_at (value : str) (segments : list path_segment)
    (base i : nat) : outcome str :=
  seg <- rd segments (base + i) ;;
  substr value (seg_offset seg) (seg_length seg).

(** path.hpp:30-75 [path_view]: pointer to the string, pointer into the segment
    array ([pv_base] elements after its start) and a count.  The default
    constructed view (path.hpp:33) has null pointers; [pv_null] records that. *)
Record path_view := mkview {
  pv_null : bool;
  pv_value : str;
  pv_segments : list path_segment;
  pv_base : nat;
  pv_size : nat }.

(** path.hpp:33 default constructor. *)
Definition view_default : path_view := mkview true [] [] 0 0.

(** path.hpp:35-36 [empty], [size]. *)
Definition view_size (v : path_view) : nat := pv_size v.
Definition view_empty (v : path_view) : bool := Nat.eqb (view_size v) 0.

(** path.hpp:38-41 [operator\[\]].  Dereferencing the null string is UB. *)
Definition view_at (v : path_view) (i : nat) : outcome str :=
  if pv_null v then UB
  else path_segment_at (pv_value v) (pv_segments v) (pv_base v) i.

(** path.hpp:43 [front]. *)
Definition view_front (v : path_view) : outcome str := view_at v 0.

(** path.hpp:44-47 [drop_front].  Forming a pointer beyond the array or
    decrementing a zero size is out of contract: UB. *)
Definition drop_front (v : path_view) : outcome path_view :=
  if pv_null v then UB
  else match pv_size v with
       | O => UB
       | S n => Ok (mkview false (pv_value v) (pv_segments v) (pv_base v + 1) n)
       end.

(** path.hpp:49-52 [drop_back]. *)
Definition drop_back (v : path_view) : outcome path_view :=
  if pv_null v then UB
  else match pv_size v with
       | O => UB
       | S n => Ok (mkview false (pv_value v) (pv_segments v) (pv_base v) n)
       end.

(** path.hpp:54-62 [prefix].  The assertion is modelled as UB when violated. *)
Definition view_prefix (v : path_view) (count : nat) : outcome str :=
  if Nat.ltb (pv_size v) count then UB
  else match count with
       | O => Ok []
       | S c =>
           if pv_null v then UB
           else
             seg <- rd (pv_segments v) (pv_base v + c) ;;
             substr (pv_value v) 0 (seg_offset seg + seg_length seg)
       end.

(** path.hpp:110-111 [empty], [size]. *)
Definition path_size (p : path) : nat := length (segments_ p).
Definition path_empty (p : path) : bool := Nat.eqb (path_size p) 0.

(** path.hpp:112-115 [view]. *)
Definition path_to_view (p : path) : path_view :=
  mkview false (value_ p) (segments_ p) 0 (length (segments_ p)).

(** path.hpp:117-120 [operator\[\]]. *)
Definition path_at (p : path) (i : nat) : outcome str :=
  path_segment_at (value_ p) (segments_ p) 0 i.

(** path.hpp:122-127 [joined]. *)
Definition joined (p : path) (offset : nat) : outcome str :=
  if Nat.leb (length (segments_ p)) offset then Ok []
  else
    seg <- rd (segments_ p) offset ;;
    substr_from (value_ p) (seg_offset seg).

(** Outcome of a member function that may throw [path_parse_error]: the state
    of the object is kept in both cases. *)
Inductive presult := POk (p : path) | PThrow (p : path) | PUB.

(** path.cpp:48-52 [clear]. *)
Definition clear (p : path) : path := mkpath [] [].

(** path.cpp:54-63 [from_xdigit]; [None] is -1. *)
Definition from_xdigit (ch : N) : option N :=
  if (N.leb 48 ch && N.leb ch 57)%bool then Some (ch - 48)%N
  else if (N.leb 65 ch && N.leb ch 70)%bool then Some (10 + (ch - 65))%N
  else if (N.leb 97 ch && N.leb ch 102)%bool then Some (10 + (ch - 97))%N
  else None.

(** path.cpp:65-73 [pop_segment]. *)
Definition pop_segment (p : path) : path :=
  match rev (segments_ p) with
  | [] => p
  | last :: front =>
      let offset := seg_offset last in
      mkpath (firstn (if Nat.eqb offset 0 then offset else offset - 1) (value_ p))
             (rev front)
  end.

(** path.cpp:82-104, the decoding loop; [value] is the growing [value_].
    [fuel] bounds the iterations (each one advances [i]); running out of it is
    reported as UB and never happens with the fuel given below. *)
Inductive lresult := LOk (v : str) | LThrow (v : str) | LUB.

Fixpoint decode_loop (fuel : nat) (segment : str) (i : nat) (value : str) : lresult :=
  match fuel with
  | O => LUB
  | S fuel' =>
      if Nat.ltb i (length segment) then
        match rd segment i with
        | Ok c =>
            if negb (N.eqb c ch_percent) then
              decode_loop fuel' segment (i + 1) (value ++ [c])
            else if Nat.leb (length segment) (i + 2) then LThrow value
            else
              match rd segment (i + 1), rd segment (i + 2) with
              | Ok h, Ok l =>
                  match from_xdigit h, from_xdigit l with
                  | Some hi, Some lo =>
                      let ch := N.lor (N.shiftl hi 4) lo in
                      if N.eqb ch ch_slash then LThrow value
                      else decode_loop fuel' segment (i + 3) (value ++ [ch])
                  | _, _ => LThrow value
                  end
              | _, _ => LUB
              end
        | _ => LUB
        end
      else LOk value
  end.

(** path.cpp:75-107 [push_decoded_segment]. *)
Definition push_decoded_segment (p : path) (segment : str) : presult :=
  let value := match value_ p with [] => value_ p | _ => value_ p ++ [ch_slash] end in
  let offset := length value in
  match decode_loop (S (length segment)) segment 0 value with
  | LOk v => POk (mkpath v (segments_ p ++ [mkseg offset (length v - offset)]))
  | LThrow v => PThrow (mkpath v (segments_ p))
  | LUB => PUB
  end.

(** [std::string_view::find('/')]; [None] is npos. *)
Fixpoint find_slash (s : str) : option nat :=
  match s with
  | [] => None
  | c :: t => if N.eqb c ch_slash then Some 0 else option_map S (find_slash t)
  end.

Definition str_eqb (a b : str) : bool :=
  if list_eq_dec N.eq_dec a b then true else false.

(** path.cpp:19-45, the loop of [set]; one unit of fuel per iteration (each
    iteration removes at least one character). *)
Fixpoint set_loop (fuel : nat) (value : str) (p : path) : presult :=
  match fuel with
  | O => PUB
  | S fuel' =>
      let pos := find_slash value in
      let len := match pos with None => length value | Some n => n end in
      let segment := firstn len value in
      let r :=
        if negb (Nat.eqb (length segment) 0) then
          if str_eqb segment [ch_dot] then POk p
          else if str_eqb segment [ch_dot; ch_dot] then POk (pop_segment p)
          else push_decoded_segment p segment
        else POk p in
      match r with
      | POk p' =>
          match pos with
          | None => POk p'
          | Some n => set_loop fuel' (skipn (n + 1) value) p'
          end
      | other => other
      end
  end.

(** path.cpp:8-46 [path::set]. *)
Definition path_set (p : path) (value : str) : presult :=
  let p := clear p in
  if (Nat.eqb (length value) 0 || str_eqb value [ch_slash])%bool then POk p
  else
    let value :=
      match value with
      | c :: t => if N.eqb c ch_slash then t else value
      | [] => value
      end in
    set_loop (S (length value)) value p.

(** path.hpp:100-104, the constructors. *)
Definition path_default : path := mkpath [] [].
Definition path_make (value : str) : presult := path_set path_default value.

(** Views obtainable from a path through path.hpp:44-52 and 112-115: [b]
    segments were dropped in front and [n] are left. *)
Inductive view_of (p : path) : nat -> nat -> path_view -> Prop :=
| view_start : view_of p 0 (path_size p) (path_to_view p)
| view_front_dropped b n v v' :
    view_of p b (S n) v -> drop_front v = Ok v' -> view_of p (b + 1) n v'
| view_back_dropped b n v v' :
    view_of p b (S n) v -> drop_back v = Ok v' -> view_of p b n v'.
