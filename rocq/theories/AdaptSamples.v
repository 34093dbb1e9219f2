(** Values for the examples of AdaptProps.v. *)
From Coq Require Import List NArith ZArith Bool.
From Verif Require Import Base BinModel BinSpec AdaptModel AdaptSpec.
Import ListNotations.

Definition u8 : ty := TInt Native false 1.

(** [struct token { uint8_t tag; std::string text; }]: the tag 1 is answered
    with an exception, 2 with notify_error. *)
Definition token_read (old : val) : prog :=
  PExtract (UStd u8) (VInt 0)
    (fun tag => PLook (fun e _ _ =>
       if e then PRet old
       else match tag with
            | VInt 1 => PThrow old
            | VInt 2 => PNotify (PRet old)
            | _ => PExtract (UStd TStr) (VStr []) (fun s => PRet (VPair tag s)) (fun _ => PThrow old)
            end))
    (fun _ => PThrow old).

Definition token_write (v : val) : wprog :=
  match v with
  | VPair tag s => WInsert (UStd u8) tag (WInsert (UStd TStr) s WRet WThrow) WThrow
  | _ => WRet
  end.

Definition token : uty := UUser (VPair (VInt 0) (VStr [])) token_read token_write.
Definition tok (z : Z) (s : list N) : val := VPair (VInt z) (VStr s).

(** A length in front of a payload, patched in afterwards: it writes zeros, the
    payload, goes back and writes the length. *)
Definition framed_write (v : val) : wprog :=
  match v with
  | VStr s =>
      WLook (fun _ _ p0 => WRaw [0%N] (WRaw s (WLook (fun e _ p1 =>
        if e then WRet
        else WSkip (Z.of_N p0 - Z.of_N p1) (WRaw [((p1 - p0 - 1) mod 256)%N] (WSkip (Z.of_N p1 - Z.of_N p0 - 1) WRet))))))
  | _ => WRet
  end.

(** Reads a member into an object it already has with [r >> x]. *)
Definition reuse_read (old : val) : prog := PExtract (UStd TStr) old (fun v => PRet v) (fun v => PThrow v).
Definition reuse : uty := UUser (VStr []) reuse_read (fun v => WInsert (UStd TStr) v WRet WThrow).

(** Like tests/binary_rw_test.cpp:771-776, with a string last. *)
Definition test_struct : ty := TRec [TRaw false 16; TInt Native true 4; TStr].
