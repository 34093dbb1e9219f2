(** Scalars of YAML: how yaml-cpp (0.7 and later) turns numbers and booleans into
    text and back.  kl/yaml.hpp:476-491 and 528-542 leave this to [YAML::Node{value}]
    and [value.as<Arithmetic>()], that is to yaml-cpp's [convert] templates
    (node/convert.h and convert.cpp), which use a [std::stringstream] in the "C"
    locale.  Those are not in /repo; what they do is taken from their
    documentation and source.  [char] itself, which is streamed as a character, is
    not modelled. *)
From Coq Require Import List NArith ZArith Arith Bool.
From Verif Require Import Base PathModel EnumModel.
Import ListNotations.

Local Notation str := (list N) (only parsing).
Local Open Scope N_scope.

(* ------------------------------------------------------------------ *)
(** ** Writing *)

(** [stream << n]: the decimal digits, least significant first put in front. *)
Fixpoint dec_digits (fuel : nat) (n : N) (acc : str) : str :=
  match fuel with
  | O => acc
  | S f => if n <? 10 then (48 + n) :: acc else dec_digits f (n / 10) ((48 + n mod 10) :: acc)
  end.

Definition nat_text (n : N) : str := dec_digits (S (N.to_nat (N.log2 n))) n [].

Definition int_text (z : Z) : str :=
  if (z <? 0)%Z then 45 :: nat_text (Z.abs_N z) else nat_text (Z.abs_N z).

(** [convert<bool>::encode] *)
Definition bool_text (b : bool) : str := if b then [116; 114; 117; 101] else [102; 97; 108; 115; 101].

(* ------------------------------------------------------------------ *)
(** ** Reading *)

(** [isspace], for [stream >> std::ws]. *)
Definition is_space (c : N) : bool := (c =? 32) || ((9 <=? c) && (c <=? 13)).

Definition xdigit (c : N) : option N :=
  if (48 <=? c) && (c <=? 57) then Some (c - 48)
  else if (97 <=? c) && (c <=? 102) then Some (c - 87)
  else if (65 <=? c) && (c <=? 70) then Some (c - 55)
  else None.

Definition digit (base c : N) : option N :=
  match xdigit c with Some d => if d <? base then Some d else None | None => None end.

(** The digits of a number and what follows them; [None] without a digit. *)
Fixpoint get_digits (base : N) (s : str) (acc : N) : N * str :=
  match s with
  | c :: s' => match digit base c with Some d => get_digits base s' (acc * base + d) | None => (acc, s) end
  | [] => (acc, [])
  end.

Definition get_number (base : N) (s : str) : option (N * str) :=
  match s with
  | c :: _ => match digit base c with Some _ => Some (get_digits base s 0) | None => None end
  | [] => None
  end.

(** [num_get] without [std::ios::dec]: the prefix tells the base, as in C++. *)
Definition get_unsigned (s : str) : option (N * str) :=
  match s with
  | [] => None
  | c :: s' =>
      if c =? 48 then
        match s' with
        | [] => Some (0, [])
        | x :: s'' => if (x =? 120) || (x =? 88) then get_number 16 s'' else get_number 8 s
        end
      else get_number 10 s
  end.

Definition get_signed (s : str) : option (Z * str) :=
  match s with
  | [] => None
  | c :: s' =>
      match get_unsigned (if (c =? 45) || (c =? 43) then s' else s) with
      | Some (n, r) => Some (if c =? 45 then (- Z.of_N n)%Z else Z.of_N n, r)
      | None => None
      end
  end.

(** [convert<type>::decode] for an integer type: no minus for an unsigned one, out
    of range is a failure, and nothing but white space may follow.  The two
    one-byte types are read as [int] and compared with their limits. *)
Definition text_int (t : ity) (s : str) : option Z :=
  if negb (isigned t) && (hd 0 s =? 45) then None
  else
    match get_signed s with
    | Some (z, r) =>
        if (ity_min t <=? z)%Z && (z <=? ity_max t)%Z && forallb is_space r then Some z else None
    | None => None
    end.

Definition is_lower (c : N) : bool := (97 <=? c) && (c <=? 122).
Definition is_upper (c : N) : bool := (65 <=? c) && (c <=? 90).
Definition to_lower (c : N) : N := if is_upper c then c + 32 else c.

(** convert.cpp [IsFlexibleCase]: lower case, UPPER CASE or Capitalized. *)
Definition flexible_case (s : str) : bool :=
  match s with
  | [] => true
  | c :: rest => forallb is_lower s || (is_upper c && (forallb is_lower rest || forallb is_upper rest))
  end.

(** [convert<bool>::decode] with its table: y/n, yes/no, true/false, on/off. *)
Definition true_names : list str := [[121]; [121; 101; 115]; [116; 114; 117; 101]; [111; 110]].
Definition false_names : list str := [[110]; [110; 111]; [102; 97; 108; 115; 101]; [111; 102; 102]].

Fixpoint bool_search (trues falses : list str) (low : str) : option bool :=
  match trues, falses with
  | t :: trues', f :: falses' =>
      if str_eqb t low then Some true else if str_eqb f low then Some false else bool_search trues' falses' low
  | _, _ => None
  end.

Definition text_bool (s : str) : option bool :=
  if flexible_case s then bool_search true_names false_names (map to_lower s) else None.

(** Floating point numbers are given by their bits.  What the stream writes for
    one with [max_digits10] digits (or [.nan], [.inf], [-.inf]), and what it reads,
    are left open. *)
Record fptext := mkfptext {
  dbl_text : N -> str; text_dbl : str -> option N;
  flt_text : N -> str; text_flt : str -> option N
}.
