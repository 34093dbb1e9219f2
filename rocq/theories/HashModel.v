(** kl/hash.hpp.  Text is a list of bytes; [char] is signed (x86-64 and
    AArch64 Darwin/Windows ABIs), so bytes above 127 are negative. *)
From Coq Require Import List NArith ZArith Arith Bool.
From Verif Require Import Base.
Import ListNotations.
Local Open Scope outcome_scope.
Local Open Scope N_scope.

Definition u32 (n : N) : N := n mod 4294967296.

(** [static_cast<uint32_t>(c)] for a signed [char]. *)
Definition char_u32 (b : N) : N := if b <? 128 then b else b + 4294967040.

(** hash.hpp:10-16 [fnv1a(data, length)]. *)
Definition fnv1a (data : list N) : N :=
  fold_left (fun hash c => u32 (N.lxor hash (char_u32 c) * 16777619)) data 2166136261.

(** hash.hpp:18-23 [fnv1a(const char (&)[N])]: the array with its terminator. *)
Definition fnv1a_array (arr : list N) : outcome N :=
  match rev arr with
  | [] => UB
  | c :: _ => if c =? 0 then Ok (fnv1a (firstn (List.length arr - 1) arr)) else Throws
  end.

(** hash.hpp:25-28 [fnv1a(const std::string&)] and 32-35 [operator""_h]. *)
Definition fnv1a_string (s : list N) : N := fnv1a s.

(** [c << n] on a [char] promoted to [int].  Shifting a negative value is
    undefined before C++20 ([strict]); from C++20 it is modular. *)
Definition shl_char (strict : bool) (b n : N) : outcome Z :=
  if b <? 128 then Ok (Z.of_N (N.shiftl b n))
  else if strict then UB
  else Ok (Z.shiftl (Z.of_N b - 256) (Z.of_N n)).

(** [char] as a number. *)
Definition char_z (b : N) : Z := if b <? 128 then Z.of_N b else (Z.of_N b - 256)%Z.

(** hash.hpp:40-43 [get16bits(data + i)]. *)
Definition get16bits (strict : bool) (data : list N) (i : nat) : outcome N :=
  d0 <- rd data i ;;
  d1 <- rd data (i + 1) ;;
  hi <- shl_char strict d1 8 ;;
  Ok (Z.to_N (Z.lor (char_z d0) hi mod 65536)).

(** The body of the main loop, hash.hpp:57-64. *)
Definition hsieh_round (strict : bool) (data : list N) (i : nat) (hash : N) : outcome N :=
  a <- get16bits strict data i ;;
  let hash := u32 (hash + a) in
  b <- get16bits strict data (i + 2) ;;
  let tmp := N.lxor (N.shiftl b 11) hash in
  let hash := N.lxor (u32 (N.shiftl hash 16)) tmp in
  Ok (u32 (hash + N.shiftr hash 11)).

Fixpoint hsieh_loop (strict : bool) (data : list N) (n i : nat) (hash : N) : outcome N :=
  match n with
  | O => Ok hash
  | S n' => h <- hsieh_round strict data i hash ;; hsieh_loop strict data n' (i + 4) h
  end.

(** hash.hpp:67-86: the end cases. *)
Definition hsieh_tail (strict : bool) (data : list N) (i rem : nat) (hash : N) : outcome N :=
  match rem with
  | 3%nat =>
      a <- get16bits strict data i ;;
      let hash := u32 (hash + a) in
      let hash := N.lxor hash (u32 (N.shiftl hash 16)) in
      c <- rd data (i + 2) ;;
      s <- shl_char strict c 18 ;;
      let hash := N.lxor hash (Z.to_N (s mod 4294967296)) in
      Ok (u32 (hash + N.shiftr hash 11))
  | 2%nat =>
      a <- get16bits strict data i ;;
      let hash := u32 (hash + a) in
      let hash := N.lxor hash (u32 (N.shiftl hash 11)) in
      Ok (u32 (hash + N.shiftr hash 17))
  | 1%nat =>
      c <- rd data i ;;
      let hash := u32 (hash + char_u32 c) in
      let hash := N.lxor hash (u32 (N.shiftl hash 10)) in
      Ok (u32 (hash + N.shiftr hash 1))
  | _ => Ok hash
  end.

(** hash.hpp:88-94: the final mixing. *)
Definition hsieh_final (hash : N) : N :=
  let hash := N.lxor hash (u32 (N.shiftl hash 3)) in
  let hash := u32 (hash + N.shiftr hash 5) in
  let hash := N.lxor hash (u32 (N.shiftl hash 4)) in
  let hash := u32 (hash + N.shiftr hash 17) in
  let hash := N.lxor hash (u32 (N.shiftl hash 25)) in
  u32 (hash + N.shiftr hash 6).

(** hash.hpp:47-97 [hsieh]; [data] is not null. *)
Definition hsieh (strict : bool) (data : list N) : outcome N :=
  let length := List.length data in
  match length with
  | O => Ok 0
  | _ =>
      let blocks := Nat.div length 4 in
      h <- hsieh_loop strict data blocks 0 (u32 (N.of_nat length)) ;;
      h <- hsieh_tail strict data (4 * blocks) (Nat.modulo length 4) h ;;
      Ok (hsieh_final h)
  end.
