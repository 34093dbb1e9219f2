(** When an error report is right: its first line is true of the place in the
    document and the type that the following lines lead to, from the innermost to
    the outermost. *)
From Coq Require Import String List NArith ZArith Arith Bool.
From Verif Require Import Base EnumModel EnumSpec ScalarModel ScalarSpec SerialModel SerialSpec SerialDocSpec SerialMsgModel.
Import ListNotations.
Local Open Scope list_scope.

Local Notation str := (list N) (only parsing).

Section WithBackend.
Context (be : backend) (tname : list (attrs * ty) -> str).

(** What the backend calls a kind of document. *)
Definition called (j : json) (word : string) : Prop :=
  match be with
  | Json _ =>
      match j with
      | JNull => word = "kNullType"
      | JBool b => word = if b then "kTrueType" else "kFalseType"
      | JInt _ | JDbl _ => word = "kNumberType"
      | JStr _ => word = "kStringType"
      | JArr _ => word = "kArrayType"
      | JObj _ => word = "kObjectType"
      end
  | Yaml _ =>
      match j with
      | JNull => word = "Null"
      | JArr _ => word = "Sequence"
      | JObj _ => word = "Map"
      | _ => word = "Scalar"
      end
  end%string.

(** "type must be [wanted] but is a ..." *)
Definition says (in_json in_yaml : string) (j : json) (c : cause) : Prop :=
  exists word, called j word /\ c = CExpected (codes (match be with Json _ => in_json | Yaml _ => in_yaml end)) (codes word).

Definition is_array (j : json) : Prop := exists js, j = JArr js.
Definition is_object (j : json) : Prop := exists ms, j = JObj ms.
Definition is_text (j : json) : Prop := exists s, j = JStr s.

(** An integer of at most 64 bits. *)
Definition is_integer (j : json) : Prop := exists z, j = JInt z /\ (of_type i64 z \/ of_type u64 z).

(** Why a boolean or a number could not be read. *)
Definition scalar_cause (wanted : string) (fitting : Prop) (j : json) (c : cause) : Prop :=
  match be with
  | Json _ => (fitting /\ c = CLossy) \/ (~ fitting /\ says wanted wanted j c)
  | Yaml _ => (is_text j /\ c = CBadConversion) \/ (~ is_text j /\ says wanted "a scalar" j c)
  end.

Definition readable (t : ty) (j : json) : Prop := exists v, reads be t j (default_of t) v None.

(** The member that the field [a] is read or patched from; null when it is
    missing, has no default and must be read. *)
Definition node_of (d : doing) (ms : list (str * json)) (a : attrs) (j : json) : Prop :=
  (j = JNull -> a_default a = None) /\
  (first_named ms (wire_names a) j \/
   (d = Deserializing /\ Forall (absent ms) (wire_names a) /\ a_default a = None /\ a_allow_missing a = false /\ j = JNull)).

(** A value is read, and the first validator that does not accept it rejects it. *)
Definition rejects (a : attrs) (P : val -> val -> option exn -> Prop) (t : ty) : Prop :=
  exists w v, typed t w /\ P w v None /\ checks a v (Some EDeser).

Inductive blame : doing -> ty -> json -> cause -> list line -> Prop :=
| b_bool d j c : (forall x, ~ bool_read be j x) -> scalar_cause "a boolean" False j c -> blame d TBool j c []
| b_int d it j c : (forall x, ~ int_read be it j x) -> scalar_cause "an integral" (is_integer j) j c -> blame d (TInt it) j c []
| b_double d j c : (forall x, ~ dbl_read be j x) -> scalar_cause "a number" False j c -> blame d TDouble j c []
| b_float d j c : (forall x, ~ flt_read be j x) -> scalar_cause "a number" False j c -> blame d TFloat j c []
| b_str d j c : ~ is_text j -> says "a string" "a scalar" j c -> blame d TStr j c []
| b_opt d t j c ls : j <> JNull -> blame d t j c ls -> blame d (TOpt t) j c ls
| b_seq_kind d t j c : ~ is_array j -> says "an array" "a sequence" j c -> blame d (TSeq t) j c []
| b_seq d t pre j post c ls : Forall (readable t) pre -> blame Deserializing t j c ls ->
    blame d (TSeq t) (JArr (pre ++ j :: post)) c (ls ++ [LElement (length pre)])
| b_arr_kind d n t j c : ~ is_array j -> says "an array" "a sequence" j c -> blame d (TArr n t) j c []
| b_arr_long d n t js : n < length js -> blame d (TArr n t) (JArr js) CTooLongRange []
| b_arr d n t js i c ls : i < n -> length js <= n -> blame Deserializing t (nth i js JNull) c ls ->
    blame d (TArr n t) (JArr js) c (ls ++ [LElement i])
| b_map_kind d t j c : ~ is_object j -> says "an object" "a map" j c -> blame d (TMap t) j c []
| b_map d t pre k j post c ls : Forall (fun m => readable t (snd m)) pre -> blame Deserializing t j c ls ->
    blame d (TMap t) (JObj (pre ++ (k, j) :: post)) c (ls ++ [LField Deserializing k])
| b_tup_kind d ts j c : ~ is_array j -> says "an array" "a sequence" j c -> blame d (TTup ts) j c []
| b_tup_long d ts js : length ts < length js -> blame d (TTup ts) (JArr js) CTooLongTuple []
| b_tup d ts js i t c ls : length js <= length ts -> nth_error ts i = Some t ->
    blame Deserializing t (nth i js JNull) c ls -> blame d (TTup ts) (JArr js) c ls
| b_enum_kind d e j c : ~ is_text j -> says "a string" "a scalar" j c -> blame d (TEnum e) j c []
| b_enum d e s : (forall z, ~ enumerator e s z) -> blame d (TEnum e) (JStr s) (CNoEnumerator s) []
| b_set_kind d e j c : ~ is_array j -> says "an array" "a sequence" j c -> blame d (TSet e) j c []
| b_set d e js j c ls : In j js -> blame Deserializing (TEnum e) j c ls -> blame d (TSet e) (JArr js) c ls
(* a struct *)
| b_rec_kind fs j word : ~ is_array j -> ~ is_object j -> called j word ->
    blame Deserializing (TRec fs) j (CNeither (codes word)) [LType Deserializing (tname fs)]
| b_rec_long fs js : readable_fields fs < length js ->
    blame Deserializing (TRec fs) (JArr js) CTooLongStruct [LType Deserializing (tname fs)]
| b_rec_whole fs j c ls : ~ is_object j -> blame Deserializing (TRec fs) j c ls ->
    blame Patching (TRec fs) j c (ls ++ [LType Patching (tname fs)])
| b_elem fs js pre a t post c ls : fs = pre ++ (a, t) :: post -> length js <= readable_fields fs -> ordinary a ->
    blame Deserializing t (nth (readable_fields pre) js JNull) c ls ->
    blame Deserializing (TRec fs) (JArr js) c (ls ++ [LElement (readable_fields pre); LType Deserializing (tname fs)])
| b_elem_rejected fs js pre a t post : fs = pre ++ (a, t) :: post -> length js <= readable_fields fs -> ordinary a ->
    rejects a (reads be t (nth (readable_fields pre) js JNull)) t ->
    blame Deserializing (TRec fs) (JArr js) CValidator [LElement (readable_fields pre); LType Deserializing (tname fs)]
| b_elem_extra fs js pre a t post : fs = pre ++ (a, t) :: post -> length js <= readable_fields fs ->
    a_skip_deser a = false -> a_extra a = true ->
    blame Deserializing (TRec fs) (JArr js) CExtraInSequence [LElement (readable_fields pre); LType Deserializing (tname fs)]
| b_elem_flatten fs js pre a t post : fs = pre ++ (a, t) :: post -> length js <= readable_fields fs ->
    a_skip_deser a = false -> a_extra a = false -> a_flatten a = true ->
    blame Deserializing (TRec fs) (JArr js) CFlattenInSequence [LElement (readable_fields pre); LType Deserializing (tname fs)]
| b_field d fs ms a t j c ls : In (a, t) fs -> ordinary a -> node_of d ms a j -> blame d t j c ls ->
    blame d (TRec fs) (JObj ms) c (ls ++ [LField d (a_name a); LType d (tname fs)])
| b_field_rejected d fs ms a t j : In (a, t) fs -> ordinary a -> node_of d ms a j ->
    rejects a ((match d with Deserializing => reads be | Patching => patched be end) t j) t ->
    blame d (TRec fs) (JObj ms) CValidator [LField d (a_name a); LType d (tname fs)]
| b_flatten d fs ms a t c ls : In (a, t) fs -> a_skip_deser a = false -> a_extra a = false -> a_flatten a = true ->
    blame d t (JObj ms) c ls ->
    blame d (TRec fs) (JObj ms) c (ls ++ [LField d (a_name a); LType d (tname fs)])
| b_extra d fs ms a t k j c ls : In (a, TMap t) fs -> a_skip_deser a = false -> a_extra a = true ->
    In (k, j) ms -> ~ In k (declared (TRec fs)) -> blame d t j c ls ->
    blame d (TRec fs) (JObj ms) c (ls ++ [LExtra d k; LType d (tname fs)]).

End WithBackend.

(* ------------------------------------------------------------------ *)
(** ** Text *)

Definition sentence (l : line) (s : str) : Prop :=
  match l with
  | LField Deserializing n => s = codes "error when deserializing field "%string ++ n
  | LField Patching n => s = codes "error when patching field "%string ++ n
  | LExtra Deserializing n => s = codes "error when deserializing extra field "%string ++ n
  | LExtra Patching n => s = codes "error when patching extra field "%string ++ n
  | LElement i => exists digits, decimal (Z.of_nat i) digits /\ s = codes "error when deserializing element "%string ++ digits
  | LType Deserializing n => s = codes "error when deserializing type "%string ++ n
  | LType Patching n => s = codes "error when patching type "%string ++ n
  end.

(** [conversion] is yaml-cpp's message, [reason] the validator's. *)
Definition first_sentence (conversion reason : str) (c : cause) (s : str) : Prop :=
  match c with
  | CExpected what got => s = codes "type must be "%string ++ what ++ codes " but is a "%string ++ got
  | CNeither got => s = codes "type must be a sequence or map but is a "%string ++ got
  | CLossy => s = codes "value cannot be losslessly stored in the variable"%string
  | CBadConversion => s = conversion
  | CNoEnumerator t => s = codes "invalid enum value: "%string ++ t
  | CTooLongRange => s = codes "sequence size is greater than declared range field count"%string
  | CTooLongStruct => s = codes "sequence size is greater than declared struct's field count"%string
  | CTooLongTuple => s = codes "sequence size is greater than declared tuple field count"%string
  | CExtraInSequence => s = codes "extra_fields fields are not supported in sequence deserialization"%string
  | CFlattenInSequence => s = codes "flatten fields are not supported in sequence deserialization"%string
  | CValidator => s = reason
  end.

(** The part of a text that a [const char*] to it shows. *)
Definition shown (s t : str) : Prop := ~ In 0%N t /\ (s = t \/ exists rest, s = t ++ 0%N :: rest).

(** Lines one under the other. *)
Definition joined (first : str) (rest : list str) : str := first ++ concat (map (fun l => 10%N :: l) rest).

(** Neither a new line nor the end of a C string. *)
Definition clean (s : str) : Prop := ~ In 10%N s /\ ~ In 0%N s.

Definition clean_line (l : line) : Prop :=
  match l with LField _ n | LExtra _ n | LType _ n => clean n | LElement _ => True end.
