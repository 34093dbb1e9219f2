(** What RFC 4648 says, in terms of bits.  Independent of the model. *)
From Coq Require Import Ascii String List NArith Arith Bool.
Import ListNotations.
Local Open Scope list_scope.
Local Open Scope N_scope.

(** Text literal to character codes. *)
Definition codes (s : string) : list N := map N_of_ascii (list_ascii_of_string s).

(** The two alphabets of RFC 4648, tables 1 and 2. *)
Definition rfc_alphabet (url : bool) : list N :=
  codes (if url
         then "ABCDEFGHIJKLMNOPQRSTUVWXYZabcdefghijklmnopqrstuvwxyz0123456789-_"
         else "ABCDEFGHIJKLMNOPQRSTUVWXYZabcdefghijklmnopqrstuvwxyz0123456789+/").

Definition pad_char : N := 61. (* '=' *)

Definition is_byte (b : N) : Prop := b < 256.

(** The [w] lowest bits of [n], most significant first. *)
Fixpoint bits (w : nat) (n : N) : list bool :=
  match w with
  | O => []
  | S w' => N.testbit n (N.of_nat w') :: bits w' n
  end.

(** The number denoted by a bit string, most significant bit first. *)
Definition value (l : list bool) : N :=
  fold_left (fun (acc : N) (b : bool) => 2 * acc + (if b then 1 else 0)) l 0.

(** Bit string of a byte string. *)
Definition byte_bits (s : list N) : list bool := flat_map (bits 8) s.

(** Cut a bit string in groups of 6; the last group is filled with zero bits. *)
Fixpoint sextets (l : list bool) : list (list bool) :=
  match l with
  | [] => []
  | a :: b :: c :: d :: e :: f :: t => [a; b; c; d; e; f] :: sextets t
  | l => [firstn 6 (l ++ repeat false 6)]
  end.

(** Cut a bit string in groups of 8; an incomplete last group is dropped. *)
Fixpoint octets (l : list bool) : list (list bool) :=
  match l with
  | a :: b :: c :: d :: e :: f :: g :: h :: t => [a; b; c; d; e; f; g; h] :: octets t
  | _ => []
  end.

Definition alpha_char (url : bool) (v : N) : N := nth (N.to_nat v) (rfc_alphabet url) 0.

(** RFC 4648 encoding: padded to a multiple of four, except for the URL variant. *)
Definition rfc_encode (url : bool) (s : list N) : list N :=
  let body := map (fun g => alpha_char url (value g)) (sextets (byte_bits s)) in
  if url then body
  else body ++ repeat pad_char (((4 - length body mod 4) mod 4)%nat).

(** Position of a character in an alphabet. *)
Fixpoint index_of (c : N) (l : list N) : option N :=
  match l with
  | [] => None
  | h :: t => if N.eqb h c then Some 0 else option_map N.succ (index_of c t)
  end.

Definition char_value (url : bool) (c : N) : N :=
  match index_of c (rfc_alphabet url) with Some v => v | None => 0 end.

(** The bytes denoted by a text made of alphabet characters only. *)
Definition rfc_decode_body (url : bool) (body : list N) : list N :=
  map value (octets (flat_map (fun c => bits 6 (char_value url c)) body)).

(** The texts the decoders are documented to accept: [body] followed by [pad]
    times '='. *)
Definition accepted (url : bool) (body : list N) (pad : nat) : Prop :=
  Forall (fun c => In c (rfc_alphabet url)) body
  /\ (pad <= 2)%nat
  /\ (if url then Nat.modulo (length body) 4 <> 1%nat
      else Nat.modulo (length body + pad) 4 = 0%nat).

(** The bits a text carries, and those that do not make up a whole byte. *)
Definition body_bits (url : bool) (body : list N) : list bool :=
  flat_map (fun c => bits 6 (char_value url c)) body.
Definition unused_bits (url : bool) (body : list N) : list bool :=
  skipn (8 * (length (body_bits url body) / 8)) (body_bits url body).
Definition canonical_text (url : bool) (body : list N) : Prop :=
  Forall (fun b => b = false) (unused_bits url body).
