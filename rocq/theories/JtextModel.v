(** json.hpp:816-837, 860-867, 916-919: [dump], [pretty_dump] and [parse], with the parts of
    RapidJSON they use: [Writer] and [PrettyWriter] into a [StringBuffer], and
    [Document::Parse] of a text with its length, all with default flags (release
    cci.20250205, conanfile.py:41).

    A text is a list of bytes.  Left open: the text of a double ([internal::dtoa])
    and the double a numeral with a fraction, an exponent or too many digits stands
    for, [None] when it is too big.  A failed assertion of RapidJSON is undefined
    behaviour.  Not modelled: running out of memory, and of stack when the text is
    nested deeply (the reader recurses). *)
From Coq Require Import List NArith ZArith Arith Bool.
From Verif Require Import Base ScalarModel SerialModel.
Import ListNotations.
Local Open Scope N_scope.
Local Open Scope outcome_scope.

Local Notation str := (list N) (only parsing).

Record dconv := mkdconv {
  dtoa : N -> str;             (** for doubles other than NaN and infinities *)
  strtod : str -> option N
}.

(* ------------------------------------------------------------------ *)
(** ** Writing *)

(** [Writer::Level]: array or object, and the number of values and names so far. *)
Record level := mklevel { in_array : bool; values_in : nat }.

(** The buffer, the open arrays and objects (innermost first), [hasRoot_]. *)
Record writer := mkwriter { w_out : str; w_levels : list level; w_root : bool }.
Definition new_writer : writer := mkwriter [] [] false.

Definition put (w : writer) (s : str) : writer := mkwriter (w_out w ++ s) (w_levels w) (w_root w).

(** [PrettyWriter::WriteIndent]: four spaces for each of [n] levels. *)
Definition indent (n : nat) : str := repeat 32 (4 * n).

(** [Writer::Prefix], [PrettyWriter::PrettyPrefix]: what separates a value or a
    name from what was written before it. *)
Definition separator (pretty : bool) (l : level) (depth : nat) : str :=
  if in_array l then
    (if Nat.eqb (values_in l) 0 then [] else [44]) ++ (if pretty then 10 :: indent depth else [])
  else
    (if Nat.eqb (values_in l) 0 then (if pretty then [10] else [])
     else if Nat.even (values_in l) then 44 :: (if pretty then [10] else [])
     else 58 :: (if pretty then [32] else [])) ++
    (if pretty && Nat.even (values_in l) then indent depth else []).

Definition prefix (pretty is_string : bool) (w : writer) : outcome writer :=
  match w_levels w with
  | [] => if w_root w then UB else Ok (mkwriter (w_out w) [] true)
  | l :: ls =>
      if negb (in_array l) && Nat.even (values_in l) && negb is_string then UB
      else Ok (mkwriter (w_out w ++ separator pretty l (length (w_levels w)))
                        (mklevel (in_array l) (S (values_in l)) :: ls) (w_root w))
  end.

(** [hexDigits]. *)
Definition hex_digit (n : N) : N := if n <? 10 then 48 + n else 55 + n.

(** [Writer::WriteString]: one character; the encodings are the same, so bytes are
    copied without looking at them. *)
Definition escaped (c : N) : str :=
  if c =? 34 then [92; 34]
  else if c =? 92 then [92; 92]
  else if c =? 8 then [92; 98]
  else if c =? 9 then [92; 116]
  else if c =? 10 then [92; 110]
  else if c =? 12 then [92; 102]
  else if c =? 13 then [92; 114]
  else if c <? 32 then [92; 117; 48; 48; hex_digit (c / 16); hex_digit (c mod 16)]
  else [c].
Definition quoted (s : str) : str := 34 :: flat_map escaped s ++ [34].

(** json.hpp:404, 608: the length is cast to [SizeType], 32 bits.  [WriteString]
    reserves [2 + length * 6] bytes, computed in [SizeType] too, and does not check
    for space again: after a wrapped product the buffer may be overrun.  Taken as
    undefined behaviour. *)
Definition size_type (n : N) : N := n mod 4294967296.
Definition string_call (pretty : bool) (s : str) (w : writer) : outcome writer :=
  let n := size_type (N.of_nat (length s)) in
  if 4294967296 <=? 2 + n * 6 then UB
  else w <- prefix pretty true w ;; Ok (put w (quoted (firstn (N.to_nat n) s))).

(** [internal::Double::IsNanOrInf]. *)
Definition nan_or_inf (bits : N) : bool := N.land (N.shiftr bits 52) 2047 =? 2047.

(** One call on the writer.  [Double] writes nothing but the separator for NaN and
    infinities and returns false, which nobody looks at. *)
Definition call (dc : dconv) (pretty : bool) (w : writer) (e : event) : outcome writer :=
  match e with
  | EvNull => w <- prefix pretty false w ;; Ok (put w [110; 117; 108; 108])
  | EvBool true => w <- prefix pretty false w ;; Ok (put w [116; 114; 117; 101])
  | EvBool false => w <- prefix pretty false w ;; Ok (put w [102; 97; 108; 115; 101])
  | EvInt z => w <- prefix pretty false w ;; Ok (put w (int_text z))
  | EvDbl b => w <- prefix pretty false w ;; Ok (if nan_or_inf b then w else put w (dtoa dc b))
  | EvStr s | EvKey s => string_call pretty s w
  | EvStartObj =>
      w <- prefix pretty false w ;;
      Ok (mkwriter (w_out w ++ [123]) (mklevel false 0 :: w_levels w) (w_root w))
  | EvStartArr =>
      w <- prefix pretty false w ;;
      Ok (mkwriter (w_out w ++ [91]) (mklevel true 0 :: w_levels w) (w_root w))
  | EvEndObj =>
      match w_levels w with
      | l :: ls =>
          if in_array l || Nat.odd (values_in l) then UB
          else Ok (mkwriter (w_out w ++ (if pretty && negb (Nat.eqb (values_in l) 0) then 10 :: indent (length ls) else []) ++ [125]) ls (w_root w))
      | [] => UB
      end
  | EvEndArr =>
      match w_levels w with
      | l :: ls =>
          if negb (in_array l) then UB
          else Ok (mkwriter (w_out w ++ (if pretty && negb (Nat.eqb (values_in l) 0) then 10 :: indent (length ls) else []) ++ [93]) ls (w_root w))
      | [] => UB
      end
  end.

Fixpoint calls (dc : dconv) (pretty : bool) (w : writer) (es : list event) : outcome writer :=
  match es with
  | [] => Ok w
  | e :: es' => w <- call dc pretty w e ;; calls dc pretty w es'
  end.

(** [std::string{const char*}]: up to the first zero. *)
Fixpoint c_str (s : str) : str :=
  match s with
  | [] => []
  | c :: s' => if c =? 0 then [] else c :: c_str s'
  end.

(** json.hpp:816-837 [pretty_dump], [dump]; null fields are skipped.  An exception
    leaves no text. *)
Definition dump_text (dc : dconv) (fp : fpconv) (pretty : bool) (t : ty) (v : val) : outcome str :=
  match dump (Json fp) true t v with
  | (es, Ok _) => w <- calls dc pretty new_writer es ;; Ok (c_str (w_out w))
  | (es, Throws) => _ <- calls dc pretty new_writer es ;; Throws
  | (_, UB) => UB
  end.

(* ------------------------------------------------------------------ *)
(** ** Reading *)

(** [ParseErrorCode]; [PNoFuel] is never the answer. *)
Inductive perr :=
| PDocumentEmpty | PDocumentRootNotSingular | PValueInvalid | PObjectMissName | PObjectMissColon
| PObjectMissCommaOrCurlyBracket | PArrayMissCommaOrSquareBracket | PStringUnicodeEscapeInvalidHex
| PStringUnicodeSurrogateInvalid | PStringEscapeInvalid | PStringMissQuotationMark | PStringInvalidEncoding
| PNumberTooBig | PNumberMissFraction | PNumberMissExponent | PNoFuel.

(** What was read and what follows, or why it failed. *)
Inductive res (A : Type) := Got (a : A) (rest : str) | Fail (e : perr).
Arguments Got {A} a rest.
Arguments Fail {A} e.
Definition then_ {A B} (r : res A) (k : A -> str -> res B) : res B :=
  match r with Got a s => k a s | Fail e => Fail e end.

(** [SkipWhitespace]. *)
Definition is_space (c : N) : bool := (c =? 32) || (c =? 10) || (c =? 13) || (c =? 9).
Fixpoint skip_spaces (s : str) : str :=
  match s with
  | c :: s' => if is_space c then skip_spaces s' else s
  | [] => []
  end.

(** [Peek]: zero at the end. *)
Definition peek (s : str) : N := match s with c :: _ => c | [] => 0 end.

(** [ParseHex4], one digit. *)
Definition hex_value (c : N) : option N :=
  if (48 <=? c) && (c <=? 57) then Some (c - 48)
  else if (65 <=? c) && (c <=? 70) then Some (c - 55)
  else if (97 <=? c) && (c <=? 102) then Some (c - 87)
  else None.
Definition hex4 (a b c d : N) : option N :=
  match hex_value a, hex_value b, hex_value c, hex_value d with
  | Some a, Some b, Some c, Some d => Some (((a * 16 + b) * 16 + c) * 16 + d)
  | _, _, _, _ => None
  end.

(** The table of escapes of [ParseStringToStream]. *)
Definition unescape (c : N) : option N :=
  if c =? 34 then Some 34 else if c =? 47 then Some 47 else if c =? 92 then Some 92
  else if c =? 98 then Some 8 else if c =? 102 then Some 12 else if c =? 110 then Some 10
  else if c =? 114 then Some 13 else if c =? 116 then Some 9 else None.

(** [UTF8::Encode]. *)
Definition encode_utf8 (cp : N) : str :=
  if cp <=? 127 then [N.land cp 255]
  else if cp <=? 2047 then [N.lor 192 (N.land (N.shiftr cp 6) 255); N.lor 128 (N.land cp 63)]
  else if cp <=? 65535 then
    [N.lor 224 (N.land (N.shiftr cp 12) 255); N.lor 128 (N.land (N.shiftr cp 6) 63); N.lor 128 (N.land cp 63)]
  else
    [N.lor 240 (N.land (N.shiftr cp 18) 255); N.lor 128 (N.land (N.shiftr cp 12) 63);
     N.lor 128 (N.land (N.shiftr cp 6) 63); N.lor 128 (N.land cp 63)].

Definition onto (x : str) (r : res str) : res str :=
  match r with Got s rest => Got (x ++ s) rest | Fail e => Fail e end.

(** [ParseStringToStream], after the opening quotation mark; bytes are not
    checked to be UTF-8. *)
Fixpoint string_body (s : str) : res str :=
  match s with
  | [] => Fail PStringMissQuotationMark
  | c :: s1 =>
      if c =? 92 then
        match s1 with
        | [] => Fail PStringEscapeInvalid
        | e :: s2 =>
            match unescape e with
            | Some x => onto [x] (string_body s2)
            | None =>
                if negb (e =? 117) then Fail PStringEscapeInvalid
                else
                  match s2 with
                  | h1 :: h2 :: h3 :: h4 :: s3 =>
                      match hex4 h1 h2 h3 h4 with
                      | None => Fail PStringUnicodeEscapeInvalidHex
                      | Some cp =>
                          if (55296 <=? cp) && (cp <=? 57343) then
                            if cp <=? 56319 then
                              match s3 with
                              | b :: u :: s4 =>
                                  if negb ((b =? 92) && (u =? 117)) then Fail PStringUnicodeSurrogateInvalid
                                  else
                                    match s4 with
                                    | g1 :: g2 :: g3 :: g4 :: s5 =>
                                        match hex4 g1 g2 g3 g4 with
                                        | None => Fail PStringUnicodeEscapeInvalidHex
                                        | Some cp2 =>
                                            if (cp2 <? 56320) || (57343 <? cp2) then Fail PStringUnicodeSurrogateInvalid
                                            else onto (encode_utf8 (N.lor (N.shiftl (cp - 55296) 10) (cp2 - 56320) + 65536)) (string_body s5)
                                        end
                                    | _ => Fail PStringUnicodeEscapeInvalidHex
                                    end
                              | _ => Fail PStringUnicodeSurrogateInvalid
                              end
                            else Fail PStringUnicodeSurrogateInvalid
                          else onto (encode_utf8 cp) (string_body s3)
                      end
                  | _ => Fail PStringUnicodeEscapeInvalidHex
                  end
            end
        end
      else if c =? 34 then Got [] s1
      else if c <? 32 then
        if c =? 0 then Fail PStringMissQuotationMark else Fail PStringInvalidEncoding
      else onto [c] (string_body s1)
  end.

Definition is_digit (c : N) : bool := (48 <=? c) && (c <=? 57).
Definition at_digit (s : str) : bool := is_digit (peek s).

(** The loops of [ParseNumber] over the integer part: they stop in front of a digit
    that would take the number beyond [lim * 10 + last]. *)
Fixpoint int_loop (lim last i : N) (s : str) : N * str :=
  match s with
  | c :: s' =>
      if is_digit c then
        if (lim <=? i) && (negb (i =? lim) || (last <? c)) then (i, s)
        else int_loop lim last (i * 10 + (c - 48)) s'
      else (i, s)
  | [] => (i, [])
  end.

Fixpoint skip_digits (s : str) : str :=
  match s with c :: s' => if is_digit c then skip_digits s' else s | [] => [] end.

(** The number of bytes of [s] before its end [rest]. *)
Definition upto (s rest : str) : str := firstn (length s - length rest) s.

(** [ParseNumber], the integer part: its value, whether that is too big for 64 bits
    (then the value is not used), and what follows. *)
Definition int_part (minus : bool) (s : str) : N * bool * str :=
  if peek s =? 48 then (0, false, tl s)
  else
    let '(i, s1) :=
      if minus then int_loop 214748364 56 (peek s - 48) (tl s) else int_loop 429496729 53 (peek s - 48) (tl s) in
    if at_digit s1 then
      let '(i, s2) :=
        if minus then int_loop 922337203685477580 56 i s1 else int_loop 1844674407370955161 53 i s1 in
      if at_digit s2 then (i, true, skip_digits s2) else (i, false, s2)
    else (i, false, s1).

(** [ParseNumber]. *)
Definition number (dc : dconv) (s : str) : res json :=
  let minus := peek s =? 45 in
  let s0 := if minus then tl s else s in
  if negb (at_digit s0) then Fail PValueInvalid
  else
    let '(i, big, s1) := int_part minus s0 in
    let frac := peek s1 =? 46 in
    if frac && negb (at_digit (tl s1)) then Fail PNumberMissFraction
    else
      let s2 := if frac then skip_digits (tl s1) else s1 in
      let exp := (peek s2 =? 101) || (peek s2 =? 69) in
      let s3 := if exp then (if (peek (tl s2) =? 43) || (peek (tl s2) =? 45) then tl (tl s2) else tl s2) else s2 in
      if exp && negb (at_digit s3) then Fail PNumberMissExponent
      else
        let s4 := if exp then skip_digits s3 else s3 in
        if big || frac || exp then
          match strtod dc (upto s s4) with Some b => Got (JDbl b) s4 | None => Fail PNumberTooBig end
        else Got (JInt (if minus then - Z.of_N i else Z.of_N i)) s4.

(** [ParseNull], [ParseTrue], [ParseFalse]. *)
Fixpoint literal (word : str) (j : json) (s : str) : res json :=
  match word with
  | [] => Got j s
  | c :: word' => if peek s =? c then literal word' j (tl s) else Fail PValueInvalid
  end.

(** [ParseValue], and the loops of [ParseArray] and [ParseObject] from the first
    element on. *)
Fixpoint value (dc : dconv) (fuel : nat) (s : str) {struct fuel} : res json :=
  match fuel with
  | O => Fail PNoFuel
  | S f =>
      let c := peek s in
      if c =? 110 then literal [110; 117; 108; 108] JNull s
      else if c =? 116 then literal [116; 114; 117; 101] (JBool true) s
      else if c =? 102 then literal [102; 97; 108; 115; 101] (JBool false) s
      else if c =? 34 then then_ (string_body (tl s)) (fun x r => Got (JStr x) r)
      else if c =? 123 then
        let s1 := skip_spaces (tl s) in
        if peek s1 =? 125 then Got (JObj []) (tl s1)
        else then_ (members dc f s1) (fun ms r => Got (JObj ms) r)
      else if c =? 91 then
        let s1 := skip_spaces (tl s) in
        if peek s1 =? 93 then Got (JArr []) (tl s1)
        else then_ (elements dc f s1) (fun js r => Got (JArr js) r)
      else number dc s
  end
with elements (dc : dconv) (fuel : nat) (s : str) {struct fuel} : res (list json) :=
  match fuel with
  | O => Fail PNoFuel
  | S f =>
      then_ (value dc f s) (fun j r =>
      let r := skip_spaces r in
      if peek r =? 44 then then_ (elements dc f (skip_spaces (tl r))) (fun js r => Got (j :: js) r)
      else if peek r =? 93 then Got [j] (tl r)
      else Fail PArrayMissCommaOrSquareBracket)
  end
with members (dc : dconv) (fuel : nat) (s : str) {struct fuel} : res (list (str * json)) :=
  match fuel with
  | O => Fail PNoFuel
  | S f =>
      if negb (peek s =? 34) then Fail PObjectMissName
      else
        then_ (string_body (tl s)) (fun k r =>
        let r := skip_spaces r in
        if negb (peek r =? 58) then Fail PObjectMissColon
        else
          then_ (value dc f (skip_spaces (tl r))) (fun j r =>
          let r := skip_spaces r in
          if peek r =? 44 then then_ (members dc f (skip_spaces (tl r))) (fun ms r => Got ((k, j) :: ms) r)
          else if peek r =? 125 then Got [(k, j)] (tl r)
          else Fail PObjectMissCommaOrCurlyBracket))
  end.

(** [EncodedInputStream<UTF8, MemoryStream>]: a byte order mark is skipped, byte by byte. *)
Definition skip_byte (c : N) (s : str) : str := if peek s =? c then tl s else s.
Definition skip_bom (s : str) : str := skip_byte 191 (skip_byte 187 (skip_byte 239 s)).

(** [GenericReader::Parse]: a zero ends the text. *)
Definition parse_stream (dc : dconv) (text : str) : json + perr :=
  let s := skip_spaces (skip_bom text) in
  if peek s =? 0 then inr PDocumentEmpty
  else
    match value dc (2 * length s + 2) s with
    | Fail e => inr e
    | Got j r => if peek (skip_spaces r) =? 0 then inl j else inr PDocumentRootNotSingular
    end.

(** json.hpp:860-867 [parse], 916-919; [Throws] is [parse_error]. *)
Definition parse (dc : dconv) (text : str) : outcome json :=
  match parse_stream dc text with inl j => Ok j | inr _ => Throws end.
