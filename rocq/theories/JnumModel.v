(** How [kl::json] reads a number that is a double: [rapidjson::Reader::ParseNumber]
    of the RapidJSON that external/CMakeLists.txt:9-10 pins, without
    [kParseFullPrecisionFlag] (json.hpp:863 passes no flags), on a 64 bit machine.
    Double arithmetic is IEEE binary64, rounding to nearest (SpecFloat).

    [JtextModel.number] finds where the numeral ends and takes [strtod] as a
    parameter; [read_number] here is that parameter: it gets the bytes of a numeral.

    Simplified: the C++ variables [exp] and [expFrac] are of type [int] and integers
    here.  For texts shorter than 2^31 bytes they do not overflow. *)
From Coq Require Import List ZArith NArith Bool SpecFloat.
From Verif Require Import Base FloatModel SerialModel JtextModel.
Import ListNotations.
Local Open Scope list_scope.
Local Open Scope Z_scope.

Local Notation str := (list N) (only parsing).
Local Notation dbl := spec_float (only parsing).

Definition dmul (x y : dbl) : dbl := SFmul (f_prec binary64) (f_emax binary64) x y.
Definition ddiv (x y : dbl) : dbl := SFdiv (f_prec binary64) (f_emax binary64) x y.
Definition dadd (x y : dbl) : dbl := SFadd (f_prec binary64) (f_emax binary64) x y.
Definition dint (z : Z) : dbl := from_int binary64 z.

(** [std::numeric_limits<double>::max()] *)
Definition dbl_max : dbl := S754_finite false 9007199254740991 971.

Definition digit_of (c : N) : Z := Z.of_N (c - 48).

(** [internal::Pow10]: the table of the literals 1e+0 to 1e+308. *)
Definition pow10 (n : Z) : outcome dbl := if (0 <=? n) && (n <=? 308) then Ok (dint (10 ^ n)) else UB.

(** [internal::FastPath] *)
Definition fast_path (d : dbl) (e : Z) : outcome dbl :=
  if e <? -308 then Ok (S754_zero false)
  else if 0 <=? e then obind (pow10 e) (fun p => Ok (dmul d p))
  else obind (pow10 (- e)) (fun p => Ok (ddiv d p)).

(** [internal::StrtodNormalPrecision] *)
Definition strtod_normal (d : dbl) (p : Z) : outcome dbl :=
  if p <? -308 then obind (fast_path d (-308)) (fun d' => fast_path d' (p + 308))
  else fast_path d p.

(** The integer part: the number in [i] or [i64], [significandDigit], and the rest,
    which starts with a digit if the next one does not fit. *)
Definition int_start (minus : bool) (s : str) : N * Z * str :=
  if N.eqb (peek s) 48 then (0%N, 0, tl s)
  else
    let '(i, s1) :=
      if minus then int_loop 214748364 56 (peek s - 48) (tl s) else int_loop 429496729 53 (peek s - 48) (tl s) in
    let '(i, s2) :=
      if at_digit s1 then
        if minus then int_loop 922337203685477580 56 i s1 else int_loop 1844674407370955161 53 i s1
      else (i, s1) in
    (i, Z.of_nat (length s) - 1 - Z.of_nat (length s2), s2).

(** Force double for big integer. *)
Fixpoint int_more (d : dbl) (s : str) : dbl * str :=
  match s with
  | c :: s' => if is_digit c then int_more (dadd (dmul d (dint 10)) (dint (digit_of c))) s' else (d, s)
  | [] => (d, [])
  end.

(** Digits of the fraction that go into [i64]. *)
Fixpoint frac_exact (i : N) (sd ef : Z) (s : str) : N * Z * Z * str :=
  match s with
  | c :: s' =>
      if is_digit c then
        if N.ltb (2 ^ 53 - 1) i then (i, sd, ef, s)
        else
          let i' := (i * 10 + (c - 48))%N in
          frac_exact i' (if N.eqb i' 0 then sd else sd + 1) (ef - 1) s'
      else (i, sd, ef, s)
  | [] => (i, sd, ef, [])
  end.

(** The other digits of the fraction; from 17 digits on they are dropped. *)
Fixpoint frac_more (d : dbl) (sd ef : Z) (s : str) : dbl * Z * str :=
  match s with
  | c :: s' =>
      if is_digit c then
        if sd <? 17 then
          let d' := dadd (dmul d (dint 10)) (dint (digit_of c)) in
          frac_more d' (if SFltb (S754_zero false) d' then sd + 1 else sd) (ef - 1) s'
        else frac_more d sd ef s'
      else (d, ef, s)
  | [] => (d, ef, [])
  end.

(** The digits of the exponent after the first; [None] is [kParseErrorNumberTooBig]. *)
Fixpoint exp_pos (max e : Z) (s : str) : option Z :=
  match s with
  | c :: s' =>
      if is_digit c then
        let e' := e * 10 + digit_of c in
        if max <? e' then None else exp_pos max e' s'
      else Some e
  | [] => Some e
  end.
Fixpoint exp_neg (max e : Z) (s : str) : Z :=
  match s with
  | c :: s' =>
      if is_digit c then
        let e' := e * 10 + digit_of c in
        if max <? e' then e' else exp_neg max e' s'
      else e
  | [] => e
  end.

(** The exponent, given [expFrac] and the text from the [e] on. *)
Definition exp_part (ef : Z) (s : str) : option Z :=
  if N.eqb (peek s) 101 || N.eqb (peek s) 69 then
    let s1 := tl s in
    let minus := N.eqb (peek s1) 45 in
    let s2 := if minus || N.eqb (peek s1) 43 then tl s1 else s1 in
    let e := digit_of (peek s2) in
    if minus then Some (- exp_neg (Z.quot (ef + 2147483639) 10) e (tl s2))
    else exp_pos (308 - ef) e (tl s2)
  else Some 0.

(** The significand [d], [expFrac], and the text from the [e] on. *)
Definition significand (minus : bool) (s : str) : dbl * Z * str :=
  let '(i, sd, s1) := int_start minus s in
  if at_digit s1 then
    let '(d, s2) := int_more (dint (Z.of_N i)) s1 in
    if N.eqb (peek s2) 46 then frac_more d sd 0 (tl s2) else (d, 0, s2)
  else if N.eqb (peek s1) 46 then
    let '(i, sd, ef, s2) := frac_exact i sd 0 (tl s1) in
    frac_more (dint (Z.of_N i)) sd ef s2
  else (dint (Z.of_N i), 0, s1).

(** The bits of the double a numeral is read as; [None] is [kParseErrorNumberTooBig]. *)
Definition read_number (s : str) : outcome (option N) :=
  let minus := N.eqb (peek s) 45 in
  let '(d, ef, s1) := significand minus (if minus then tl s else s) in
  match exp_part ef s1 with
  | None => Ok None
  | Some e =>
      obind (strtod_normal d (e + ef)) (fun d' =>
        if SFltb dbl_max d' then Ok None
        else Ok (Some (encode binary64 (if minus then SFopp d' else d'))))
  end.

(** The conversions of a document whose numbers are read like this. *)
Definition normal_precision (write : N -> str) : dconv :=
  mkdconv write (fun s => match read_number s with Ok r => r | _ => None end).
