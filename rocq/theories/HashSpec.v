(** The published hash functions. *)
From Coq Require Import List NArith ZArith Arith.
Import ListNotations.
Local Open Scope N_scope.

Definition octets (s : list N) : Prop := Forall (fun b => b < 256) s.
Definition ascii (s : list N) : Prop := Forall (fun b => b < 128) s.

Definition mask32 (n : N) : N := N.land n 4294967295.

(** 32-bit FNV-1a: xor a byte, multiply by the prime. *)
Fixpoint fnv (hash : N) (s : list N) : N :=
  match s with
  | [] => hash
  | b :: s' => fnv ((N.lxor hash b * 16777619) mod 2 ^ 32) s'
  end.

(** Hsieh's SuperFastHash over unsigned bytes, block by block. *)
Definition word16 (a b : N) : N := a + 256 * b.

Definition add32 (a b : N) : N := (a + b) mod 2 ^ 32.
Definition shl32 (a n : N) : N := (a * 2 ^ n) mod 2 ^ 32.

Definition avalanche (h : N) : N :=
  let h := N.lxor h (shl32 h 3) in
  let h := add32 h (h / 2 ^ 5) in
  let h := N.lxor h (shl32 h 4) in
  let h := add32 h (h / 2 ^ 17) in
  let h := N.lxor h (shl32 h 25) in
  add32 h (h / 2 ^ 6).

Fixpoint sfh (h : N) (s : list N) : N :=
  match s with
  | a :: b :: c :: d :: s' =>
      let h := add32 h (word16 a b) in
      let tmp := N.lxor (shl32 (word16 c d) 11) h in
      let h := N.lxor (shl32 h 16) tmp in
      sfh (add32 h (h / 2 ^ 11)) s'
  | [a; b; c] =>
      let h := add32 h (word16 a b) in
      let h := N.lxor h (shl32 h 16) in
      let h := N.lxor h (shl32 c 18) in
      add32 h (h / 2 ^ 11)
  | [a; b] =>
      let h := add32 h (word16 a b) in
      let h := N.lxor h (shl32 h 11) in
      add32 h (h / 2 ^ 17)
  | [a] =>
      let h := add32 h a in
      let h := N.lxor h (shl32 h 10) in
      add32 h (h / 2 ^ 1)
  | [] => h
  end.

Definition super_fast_hash (s : list N) : N :=
  match s with
  | [] => 0
  | _ => avalanche (sfh (N.of_nat (length s) mod 2 ^ 32) s)
  end.

(** ** With signed bytes *)

(** FNV-1a where bytes count as numbers from -128 to 127, in two's complement. *)
Definition signed (b : N) : Z := if b <? 128 then Z.of_N b else (Z.of_N b - 256)%Z.
Fixpoint fnv_signed (hash : Z) (s : list N) : Z :=
  match s with
  | [] => hash
  | b :: s' => fnv_signed ((Z.lxor hash (signed b) * 16777619) mod 2 ^ 32)%Z s'
  end.

(** SuperFastHash as published: the byte that is left over counts as signed, the others do not. *)
Definition sext (b : N) : N := if b <? 128 then b else 2 ^ 32 - (256 - b).
Fixpoint sfh_signed (h : N) (s : list N) : N :=
  match s with
  | a :: b :: c :: d :: s' =>
      let h := add32 h (word16 a b) in
      let tmp := N.lxor (shl32 (word16 c d) 11) h in
      let h := N.lxor (shl32 h 16) tmp in
      sfh_signed (add32 h (h / 2 ^ 11)) s'
  | [a; b; c] =>
      let h := add32 h (word16 a b) in
      let h := N.lxor h (shl32 h 16) in
      let h := N.lxor h (shl32 (sext c) 18) in
      add32 h (h / 2 ^ 11)
  | [a] =>
      let h := add32 h (sext a) in
      let h := N.lxor h (shl32 h 10) in
      add32 h (h / 2 ^ 1)
  | _ => sfh h s
  end.
Definition published_hash (s : list N) : N :=
  match s with
  | [] => 0
  | _ => avalanche (sfh_signed (N.of_nat (length s) mod 2 ^ 32) s)
  end.

(** In every pair of bytes, the second is lost if the first is not ASCII. *)
Fixpoint smeared (s : list N) : list N :=
  match s with
  | a :: b :: s' => a :: (if a <? 128 then b else 255) :: smeared s'
  | _ => s
  end.

(** A negative byte is shifted: second in its pair, or third of three left over. *)
Definition shifted (s : list N) : Prop :=
  exists i b, nth_error s i = Some b /\ 128 <= b /\ (Nat.odd i = true \/ (S i = length s /\ (length s mod 4 = 3)%nat)).
