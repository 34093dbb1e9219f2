(** Model of src/base64.cpp.

    Bytes and chars are [N] (below 256).  Output strings/vectors are sized up
    front and written through a cursor, exactly as in the code, so an overrun
    would show up as [UB]. *)
From Coq Require Import List NArith Bool.
From Verif Require Import Base.
Import ListNotations.
Local Open Scope N_scope.
Local Open Scope outcome_scope.

(** src/base64.cpp:18-21 [base64_alphabet], [base64url_alphabet] (as ASCII codes). *)
Definition range_codes (first : N) (count : nat) : list N :=
  map (fun i => first + N.of_nat i) (seq 0 count).
Definition alphabet_common : list N :=
  range_codes 65 26 ++ range_codes 97 26 ++ range_codes 48 10.
Definition base64_alphabet : list N := alphabet_common ++ [43; 47].
Definition base64url_alphabet : list N := alphabet_common ++ [45; 95].

(** src/base64.cpp:23-31 [base64_lookup].  The index is masked to 6 bits, so
    it is always inside the 64-character array; [rd] still checks it. *)
Definition base64_lookup (url : bool) (c : N) : outcome N :=
  let i := N.to_nat (N.land c 0x3F) in
  if url then rd base64url_alphabet i else rd base64_alphabet i.

(** [std::byte] left shift: result truncated to 8 bits. *)
Definition byte_shl (b n : N) : N := N.land (N.shiftl b n) 0xFF.

(** src/base64.cpp:56-64, the loop over full 3-byte groups; [src] is the
    offset of the [src] pointer, [n] the remaining iterations. *)
Fixpoint encode_loop (url : bool) (s : list N) (n : nat) (src : nat)
    (dst : list N * nat) : outcome (nat * (list N * nat)) :=
  match n with
  | O => Ok (src, dst)
  | S n' =>
      s0 <- rd s src ;;
      s1 <- rd s (src + 1) ;;
      s2 <- rd s (src + 2) ;;
      c0 <- base64_lookup url (N.shiftr s0 2) ;;
      dst <- wr dst c0 ;;
      c1 <- base64_lookup url (N.lor (byte_shl (N.land s0 3) 4) (N.shiftr s1 4)) ;;
      dst <- wr dst c1 ;;
      c2 <- base64_lookup url (N.lor (byte_shl s1 2) (N.shiftr s2 6)) ;;
      dst <- wr dst c2 ;;
      c3 <- base64_lookup url s2 ;;
      dst <- wr dst c3 ;;
      encode_loop url s n' (src + 3) dst
  end.

(** src/base64.cpp:66-86, the tail of 1 or 2 bytes. *)
Definition encode_tail (url : bool) (s : list N) (tail_size : nat) (src : nat)
    (dst : list N * nat) : outcome (list N * nat) :=
  if Nat.ltb 0 tail_size then
    s0 <- rd s src ;;
    c0 <- base64_lookup url (N.shiftr s0 2) ;;
    dst <- wr dst c0 ;;
    dst <- (if Nat.eqb tail_size 2 then
              s1 <- rd s (src + 1) ;;
              c1 <- base64_lookup url (N.lor (byte_shl (N.land s0 3) 4) (N.shiftr s1 4)) ;;
              dst <- wr dst c1 ;;
              c2 <- base64_lookup url (byte_shl s1 2) ;;
              wr dst c2
            else
              c1 <- base64_lookup url (byte_shl (N.land s0 3) 4) ;;
              dst <- wr dst c1 ;;
              if url then Ok dst else wr dst 61) ;;
    if url then Ok dst else wr dst 61
  else Ok dst.

(** src/base64.cpp:33-89 [base64_encode_impl]. *)
Definition base64_encode_impl (url : bool) (s : list N) : outcome (list N) :=
  let full_quad := Nat.div (length s) 3 in
  let tail_size := (length s - full_quad * 3)%nat in
  let out_tail_size :=
    if Nat.eqb tail_size 0 then 0%nat
    else if url then (tail_size + 1)%nat else 4%nat in
  let ret := repeat 0 (4 * full_quad + out_tail_size)%nat in
  '(src, dst) <- encode_loop url s full_quad 0 (ret, 0%nat) ;;
  dst <- encode_tail url s tail_size src dst ;;
  Ok (fst dst).

(** src/base64.cpp:91 [bad_base64_char]. *)
Definition bad_base64_char : N := N.shiftl 1 24.

(** src/base64.cpp:93-107 [base64_decode_value]. *)
Definition base64_decode_value (url : bool) (c : N) : N :=
  if (65 <=? c) && (c <=? 90) then c - 65
  else if (97 <=? c) && (c <=? 122) then 26 + c - 97
  else if (48 <=? c) && (c <=? 57) then 52 + c - 48
  else if c =? (if url then 45 else 43) then 62
  else if c =? (if url then 95 else 47) then 63
  else bad_base64_char.

(** src/base64.cpp:109-119 [make_base64_decode_table] (uint32 arithmetic). *)
Definition make_base64_decode_table (url : bool) (shift : N) : list N :=
  map (fun i =>
         let value := base64_decode_value url (N.of_nat i) in
         if value =? bad_base64_char then value
         else N.land (N.shiftl value shift) 0xFFFFFFFF)
      (seq 0 256).

(** src/base64.cpp:121-128 [base64_decode_table], [base64_decode_lookup];
    the cast to unsigned char is [mod 256]. *)
Definition base64_decode_lookup (url : bool) (shift : N) (c : N) : outcome N :=
  rd (make_base64_decode_table url shift) (N.to_nat (N.modulo c 256)).

(** src/base64.cpp:130-133 [is_base64]. *)
Definition is_base64 (value : N) : bool := value <=? 0x3F.

(** src/base64.cpp:150-154, counting '=' from the end. *)
Fixpoint count_leading_eqs (rev_str : list N) : nat :=
  match rev_str with
  | c :: t => if c =? 61 then S (count_leading_eqs t) else O
  | [] => O
  end.

(** src/base64.cpp:178-196, the loop over full quadruples.  [Ok None] is the
    early return of nullopt. *)
Fixpoint decode_loop (url : bool) (str : list N) (n : nat) (src : nat)
    (dst : list N * nat) : outcome (option (nat * (list N * nat))) :=
  match n with
  | O => Ok (Some (src, dst))
  | S n' =>
      s0 <- rd str src ;;
      s1 <- rd str (src + 1) ;;
      s2 <- rd str (src + 2) ;;
      s3 <- rd str (src + 3) ;;
      v0 <- base64_decode_lookup url 18 s0 ;;
      v1 <- base64_decode_lookup url 12 s1 ;;
      v2 <- base64_decode_lookup url 6 s2 ;;
      v3 <- base64_decode_lookup url 0 s3 ;;
      let decoded := N.lor (N.lor (N.lor v0 v1) v2) v3 in
      if bad_base64_char <=? decoded then Ok None
      else
        dst <- wr dst (N.land (N.shiftr decoded 16) 0xFF) ;;
        dst <- wr dst (N.land (N.shiftr decoded 8) 0xFF) ;;
        dst <- wr dst (N.land decoded 0xFF) ;;
        decode_loop url str n' (src + 4) dst
  end.

(** src/base64.cpp:198-222, the tail.  [lookup] is [base64_decode_lookup] with
    shift 0; shifts are uint32, the cast to std::byte keeps 8 bits.  (All
    lookups are evaluated first here; the code's short-circuit order is not
    observable.) *)
Definition decode_tail (url : bool) (str : list N) (tail_size : nat) (src : nat)
    (dst : list N * nat) : outcome (option (list N * nat)) :=
  if Nat.eqb tail_size 3 then
    s0 <- rd str src ;;
    s1 <- rd str (src + 1) ;;
    s2 <- rd str (src + 2) ;;
    v0 <- base64_decode_lookup url 0 s0 ;;
    v1 <- base64_decode_lookup url 0 s1 ;;
    v2 <- base64_decode_lookup url 0 s2 ;;
    if negb (is_base64 v0) || negb (is_base64 v1) || negb (is_base64 v2) then Ok None
    else
      dst <- wr dst (N.land (N.lor (N.shiftl v0 2) (N.shiftr v1 4)) 0xFF) ;;
      dst <- wr dst (N.land (N.lor (N.shiftl v1 4) (N.shiftr v2 2)) 0xFF) ;;
      Ok (Some dst)
  else if Nat.eqb tail_size 2 then
    s0 <- rd str src ;;
    s1 <- rd str (src + 1) ;;
    v0 <- base64_decode_lookup url 0 s0 ;;
    v1 <- base64_decode_lookup url 0 s1 ;;
    if negb (is_base64 v0) || negb (is_base64 v1) then Ok None
    else
      dst <- wr dst (N.land (N.lor (N.shiftl v0 2) (N.shiftr v1 4)) 0xFF) ;;
      Ok (Some dst)
  else Ok (Some dst).

(** src/base64.cpp:135-225 [base64_decode_impl].  The vector is created with
    [ret_size] zero bytes; besides the result we return how many bytes were
    written, so that "every byte was written" can be stated. *)
Definition base64_decode_run (url : bool) (str : list N)
    : outcome (option (list N * nat)) :=
  if negb url && negb (Nat.eqb (Nat.div (length str) 4 * 4) (length str)) then Ok None
  else
    let num_eqs := count_leading_eqs (rev str) in
    if Nat.ltb 2 num_eqs then Ok None
    else
      let str := if Nat.ltb 0 num_eqs then firstn (length str - num_eqs) str else str in
      let full_quad := Nat.div (length str) 4 in
      let tail_size := (length str - full_quad * 4)%nat in
      if Nat.eqb tail_size 1 then Ok None
      else
        let ret_size :=
          (full_quad * 3 + (if Nat.eqb tail_size 0 then 0 else tail_size - 1))%nat in
        let ret := repeat 0 ret_size in
        r <- decode_loop url str full_quad 0 (ret, 0%nat) ;;
        match r with
        | None => Ok None
        | Some (src, dst) => decode_tail url str tail_size src dst
        end.

Definition base64_decode_impl (url : bool) (str : list N) : outcome (option (list N)) :=
  r <- base64_decode_run url str ;; Ok (option_map fst r).

(** src/base64.cpp:229-247, the public functions (declared in
    include/kl/base64.hpp:10-16). *)
Definition base64_encode (s : list N) : outcome (list N) := base64_encode_impl false s.
Definition base64url_encode (s : list N) : outcome (list N) := base64_encode_impl true s.
Definition base64_decode (str : list N) : outcome (option (list N)) := base64_decode_impl false str.
Definition base64url_decode (str : list N) : outcome (option (list N)) := base64_decode_impl true str.
