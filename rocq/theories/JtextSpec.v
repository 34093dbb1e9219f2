(** JSON texts and what they mean, after RFC 8259, over bytes; UTF-8 after RFC 3629.
    Independent of the reader and the writer. *)
From Coq Require Import String List NArith ZArith Arith Bool.
From Verif Require Import ScalarSpec SerialModel JtextModel.
Import ListNotations.
Local Open Scope list_scope.
Local Open Scope N_scope.

Local Notation str := (list N) (only parsing).

(** ws *)
Definition blank (c : N) : Prop := c = 32 \/ c = 9 \/ c = 10 \/ c = 13.
Definition blanks (s : str) : Prop := Forall blank s.

(* ------------------------------------------------------------------ numbers *)

Definition digits (s : str) : Prop := s <> [] /\ Forall (fun c => 48 <= c <= 57) s.

(** [ minus ] int *)
Definition whole (s : str) (z : Z) : Prop :=
  exists body n, numeral 10 body n /\ (forall s', body = 48 :: s' -> s' = []) /\
    ((s = body /\ z = Z.of_N n) \/ (s = 45 :: body /\ z = (- Z.of_N n)%Z)).
Definition fraction (s : str) : Prop := exists ds, s = 46 :: ds /\ digits ds.
Definition exponent (s : str) : Prop :=
  exists e sign ds, s = e :: sign ++ ds /\ (e = 101 \/ e = 69) /\ (sign = [] \/ sign = [43] \/ sign = [45]) /\ digits ds.

(** The integers a document can hold: those of [int64_t] and [uint64_t]. *)
Definition held (z : Z) : Prop := (- 2 ^ 63 <= z < 2 ^ 64)%Z.

(** A number that is a double in a document. *)
Definition real (s : str) : Prop :=
  exists i z f e, s = i ++ f ++ e /\ whole i z /\ (f = [] \/ fraction f) /\ (e = [] \/ exponent e) /\
    (f <> [] \/ e <> [] \/ ~ held z).

(* ------------------------------------------------------------------ strings *)

(** UTF-8 of a code point. *)
Definition utf8_of (cp : N) (s : str) : Prop :=
  (cp < 128 /\ s = [cp]) \/
  (128 <= cp < 2048 /\ s = [192 + cp / 64; 128 + cp mod 64]) \/
  (2048 <= cp < 65536 /\ s = [224 + cp / 4096; 128 + cp / 64 mod 64; 128 + cp mod 64]) \/
  (65536 <= cp < 1114112 /\ s = [240 + cp / 262144; 128 + cp / 4096 mod 64; 128 + cp / 64 mod 64; 128 + cp mod 64]).
Definition surrogate (cp : N) : Prop := 55296 <= cp < 57344.
Inductive utf8 : str -> Prop :=
| U_nil : utf8 []
| U_char cp c s : utf8_of cp c -> ~ surrogate cp -> utf8 s -> utf8 (c ++ s).

(** Four hexadecimal digits. *)
Definition hex_quad (n : N) (s : str) : Prop := length s = 4%nat /\ numeral 16 s n.

(** The characters [s] between the quotation marks mean the bytes [m]. *)
Inductive characters : str -> str -> Prop :=
| C_nil : characters [] []
| C_plain c m s : 32 <= c -> c <> 34 -> c <> 92 -> characters m s -> characters (c :: m) (c :: s)
| C_escape c e m s :
    In (c, e) [(34, 34); (92, 92); (47, 47); (8, 98); (12, 102); (10, 110); (13, 114); (9, 116)] ->
    characters m s -> characters (c :: m) (92 :: e :: s)
| C_code cp h c m s : hex_quad cp h -> ~ surrogate cp -> utf8_of cp c -> characters m s ->
    characters (c ++ m) (92 :: 117 :: h ++ s)
| C_pair hi lo h h' c m s : hex_quad hi h -> hex_quad lo h' -> 55296 <= hi < 56320 -> 56320 <= lo < 57344 ->
    utf8_of (65536 + (hi - 55296) * 1024 + (lo - 56320)) c -> characters m s ->
    characters (c ++ m) (92 :: 117 :: h ++ 92 :: 117 :: h' ++ s).

Definition string_of (m s : str) : Prop := exists t, s = 34 :: t ++ [34] /\ characters m t.

(* ------------------------------------------------------------------ values *)

Section Values.
(** The double a numeral stands for. *)
Variable reads : str -> option N.

Inductive denotes : json -> str -> Prop :=
| D_null : denotes JNull (codes "null"%string)
| D_true : denotes (JBool true) (codes "true"%string)
| D_false : denotes (JBool false) (codes "false"%string)
| D_int z s : whole s z -> held z -> denotes (JInt z) s
| D_dbl b s : real s -> reads s = Some b -> denotes (JDbl b) s
| D_str m s : string_of m s -> denotes (JStr m) s
| D_arr_empty w : blanks w -> denotes (JArr []) (91 :: w ++ [93])
| D_arr js s : array_text js s -> denotes (JArr js) (91 :: s ++ [93])
| D_obj_empty w : blanks w -> denotes (JObj []) (123 :: w ++ [125])
| D_obj ms s : object_text ms s -> denotes (JObj ms) (123 :: s ++ [125])
with array_text : list json -> str -> Prop :=
| E_one j w s w' : blanks w -> denotes j s -> blanks w' -> array_text [j] (w ++ s ++ w')
| E_more j js w s w' s' : blanks w -> denotes j s -> blanks w' -> array_text js s' -> array_text (j :: js) (w ++ s ++ w' ++ 44 :: s')
with object_text : list (str * json) -> str -> Prop :=
| M_one k j w n w1 w2 s w' : blanks w -> string_of k n -> blanks w1 -> blanks w2 -> denotes j s -> blanks w' ->
    object_text [(k, j)] (w ++ n ++ w1 ++ 58 :: w2 ++ s ++ w')
| M_more k j ms w n w1 w2 s w' s' : blanks w -> string_of k n -> blanks w1 -> blanks w2 -> denotes j s -> blanks w' -> object_text ms s' ->
    object_text ((k, j) :: ms) (w ++ n ++ w1 ++ 58 :: w2 ++ s ++ w' ++ 44 :: s').

(** A text with one value. *)
Definition document (j : json) (s : str) : Prop :=
  exists w v w', s = w ++ v ++ w' /\ blanks w /\ denotes j v /\ blanks w'.

End Values.

(** Bytes of a byte order mark, in order; all of them in a correct text. *)
Definition mark (s : str) : Prop :=
  exists a b c, s = a ++ b ++ c /\ (a = [] \/ a = [239]) /\ (b = [] \/ b = [187]) /\ (c = [] \/ c = [191]).

(* ------------------------------------------------------------------ documents *)

(** What holds for every number, double and string in a document, names included. *)
Fixpoint throughout (i : Z -> Prop) (d : N -> Prop) (p : str -> Prop) (j : json) : Prop :=
  match j with
  | JNull | JBool _ => True
  | JInt z => i z
  | JDbl b => d b
  | JStr s => p s
  | JArr js => fold_right (fun x r => throughout i d p x /\ r) True js
  | JObj ms => fold_right (fun m r => p (fst m) /\ throughout i d p (snd m) /\ r) True ms
  end.

Definition finite (bits : N) : Prop := (bits / 2 ^ 52) mod 2 ^ 11 <> 2047.
(** Short enough for the writer. *)
Definition short (s : str) : Prop := N.of_nat (length s) < 715827883.

(** How a character is written between quotation marks. *)
Definition escapes : list (N * N) := [(34, 34); (92, 92); (8, 98); (12, 102); (10, 110); (13, 114); (9, 116)].
Definition written_char (c : N) (s : str) : Prop :=
  (exists e, In (c, e) escapes /\ s = [92; e]) \/
  (c < 32 /\ (forall e, ~ In (c, e) escapes) /\ exists h, s = 92 :: 117 :: h /\ hex_quad c h /\ Forall (fun x => x < 97) h) \/
  (32 <= c /\ (forall e, ~ In (c, e) escapes) /\ s = [c]).

Fixpoint join (sep : str) (l : list str) : str :=
  match l with
  | [] => []
  | [s] => s
  | s :: l' => s ++ sep ++ join sep l'
  end.

(** [s] is the document [j] at depth [d] laid out with [brk n] for a line break at
    depth [n], with [gap] after a colon and doubles written by [dt]. *)
Section Layout.
Variables (dt : N -> str) (brk : nat -> str) (gap : str).
Inductive laid_out : nat -> json -> str -> Prop :=
| L_null d : laid_out d JNull (codes "null"%string)
| L_true d : laid_out d (JBool true) (codes "true"%string)
| L_false d : laid_out d (JBool false) (codes "false"%string)
| L_int d z s : decimal z s -> laid_out d (JInt z) s
| L_dbl d b : laid_out d (JDbl b) (dt b)
| L_str d m ts : Forall2 written_char m ts -> laid_out d (JStr m) (34 :: concat ts ++ [34])
| L_arr_empty d : laid_out d (JArr []) (codes "[]"%string)
| L_arr d js ts : js <> [] -> Forall2 (laid_out (S d)) js ts ->
    laid_out d (JArr js) (91 :: brk (S d) ++ join (44 :: brk (S d)) ts ++ brk d ++ [93])
| L_obj_empty d : laid_out d (JObj []) (codes "{}"%string)
| L_obj d ms ts : ms <> [] ->
    Forall2 (fun m t => exists k v, laid_out d (JStr (fst m)) k /\ laid_out (S d) (snd m) v /\ t = k ++ 58 :: gap ++ v) ms ts ->
    laid_out d (JObj ms) (123 :: brk (S d) ++ join (44 :: brk (S d)) ts ++ brk d ++ [125]).
End Layout.
(** No white space; or every element and member on a line of its own, four spaces
    for a level, and a space after the colon. *)
Definition layout (dt : N -> str) (pretty : bool) : nat -> json -> str -> Prop :=
  laid_out dt (fun n => if pretty then 10 :: repeat 32 (4 * n) else []) (if pretty then [32] else []).

(** The double is written as a numeral that is read as the same double. *)
Definition kept_by (dc : dconv) (b : N) : Prop := finite b /\ real (dtoa dc b) /\ strtod dc (dtoa dc b) = Some b.
Definition storable (dc : dconv) : json -> Prop := throughout held (kept_by dc) short.

(** The texts in the calls on a writer. *)
Definition in_event (P : list N -> Prop) (e : event) : Prop :=
  match e with EvStr s | EvKey s => P s | _ => True end.
