(** The floating point numbers of json.hpp: [float] and [double] are the IEEE 754
    formats binary32 and binary64, given by their bits, and [static_cast] rounds to
    nearest, ties to even.  The arithmetic is that of the standard library's
    [SpecFloat], which is executable and uses no axioms.

    Not modelled: the payload of a NaN, and that a cast to [float] of a number
    outside its range is undefined; it gives an infinity here, as it does with IEEE
    arithmetic. *)
From Coq Require Import ZArith NArith Bool SpecFloat.
From Verif Require Import SerialModel.
Local Open Scope Z_scope.

(** Width of the fraction and of the exponent. *)
Record format := mkformat { f_mw : Z; f_ew : Z }.
Definition binary32 := mkformat 23 8.
Definition binary64 := mkformat 52 11.

Definition f_prec (F : format) : Z := f_mw F + 1.
Definition f_emax (F : format) : Z := 2 ^ (f_ew F - 1).

(** The number with the given bits. *)
Definition decode (F : format) (bits : N) : spec_float :=
  let b := Z.of_N bits in
  let m := b mod 2 ^ f_mw F in
  let e := (b / 2 ^ f_mw F) mod 2 ^ f_ew F in
  let s := Z.odd (b / 2 ^ (f_mw F + f_ew F)) in
  if e =? 0 then
    match m with Zpos p => S754_finite s p (emin (f_prec F) (f_emax F)) | _ => S754_zero s end
  else if e =? 2 ^ f_ew F - 1 then
    if m =? 0 then S754_infinity s else S754_nan
  else
    match m + 2 ^ f_mw F with
    | Zpos p => S754_finite s p (e + emin (f_prec F) (f_emax F) - 1)
    | _ => S754_nan
    end.

Definition sign_bit (F : format) (s : bool) : Z := if s then 2 ^ (f_mw F + f_ew F) else 0.

(** The bits of a number; a NaN is the quiet one with no other bit set. *)
Definition encode (F : format) (f : spec_float) : N :=
  Z.to_N
    match f with
    | S754_zero s => sign_bit F s
    | S754_infinity s => sign_bit F s + (2 ^ f_ew F - 1) * 2 ^ f_mw F
    | S754_nan => (2 ^ f_ew F - 1) * 2 ^ f_mw F + 2 ^ (f_mw F - 1)
    | S754_finite s m e =>
        sign_bit F s +
        (if Zpos m <? 2 ^ f_mw F then Zpos m
         else (e - emin (f_prec F) (f_emax F) + 1) * 2 ^ f_mw F + (Zpos m - 2 ^ f_mw F))
    end.

Definition signed (s : bool) (m : positive) : Z := if s then Zneg m else Zpos m.

(** [static_cast] between floating point types, and from an integer type. *)
Definition convert (F : format) (f : spec_float) : spec_float :=
  match f with
  | S754_finite s m e => binary_normalize (f_prec F) (f_emax F) (signed s m) e s
  | _ => f
  end.
Definition from_int (F : format) (z : Z) : spec_float := binary_normalize (f_prec F) (f_emax F) z 0 false.

(** The conversions JSON uses (json.hpp:611-762). *)
Definition ieee : fpconv :=
  mkfpconv (fun z => encode binary64 (from_int binary64 z))
           (fun b => encode binary64 (convert binary64 (decode binary32 b)))
           (fun b => encode binary32 (convert binary32 (decode binary64 b))).
