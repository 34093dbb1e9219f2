(** What the types are to be written as and read from. *)
From Coq Require Import List Arith Bool.
From Verif Require Import PickModel.
Import ListNotations.

(** The numbers that a backend can write or read. *)
Definition numbers (llp : bool) (b : backend) (m : mode) : list arith :=
  [SChar; UChar; Short; UShort; Int; UInt; Float; Double] ++
  match b, m with
  | Json, Read => [Char; WChar; Char16; Char32; Long; ULong; LLong; ULLong; LDouble]
  | Json, _ => [Char; WChar; Char16; Char32] ++ (if llp then [LLong; ULLong] else [Long; ULong])
  | Yaml, Dump => [WChar; Char16; Char32; Long; ULong; LLong; ULLong]
  | Yaml, _ => [Long; ULong; LLong; ULLong; LDouble]
  end.

(** The members of a container that a class has, its own or those of its bases. *)
Inductive provides : ty -> container ty -> Prop :=
| provides_own : forall c fs conv base, provides (Class (Some c) fs conv base) c
| provides_base : forall fs conv base c, provides base c -> provides (Class None fs conv (Some base)) c
| provides_string : forall ch, provides (Str ch) (mkcontainer true true true true true false (Arith ch) None None)
| provides_view : forall ch, provides (SView ch) (mkcontainer true true true false true true (Arith ch) None None).
Definition iterable (c : container ty) : Prop := k_begin c = true /\ k_end c = true.
Definition associative (c : container ty) : Prop := k_key c <> None /\ k_mapped c <> None.
(** Elements can be added, or be written to. *)
Definition fillable (c : container ty) : Prop :=
  k_value c = true /\ (k_push c = true \/ (k_size c = true /\ k_const c = false)).
(** There is a function for ranges that takes it. *)
Definition range_like (m : mode) (c : container ty) : Prop :=
  iterable c /\ (m = Read -> associative c \/ (k_value c = true /\ (k_push c = true \/ k_size c = true))).
Definition reflected (t : ty) : Prop := exists c fs conv base, t = Class c (Some fs) conv base.
Definition a_class (t : ty) : Prop := exists c fs conv base, t = Class c fs conv base.

(** Does not convert to a number by itself. *)
Definition number_like (t : ty) : Prop := (exists a, t = Arith a) \/ (exists u r, t = Enum false u r).
Definition no_number (t : ty) : Prop :=
  forall c fs conv base x, t = Class c fs conv base -> In x conv -> ~ number_like x.

(** Keys that text can be made of, and those that can be read. *)
Definition good_key (m : mode) (k : key) : Prop :=
  match m with Read => k <> KChars | _ => k <> KNumber end.

(** [meant false]: what the types stand for.  [meant true]: with what happens to other types as well. *)
Inductive meant (odd llp : bool) (b : backend) (m : mode) : ty -> shape -> Prop :=
| m_bool : meant odd llp b m (Arith Boolean) SBool
| m_number : forall a, In a (numbers llp b m) -> meant odd llp b m (Arith a) SNumber
| m_char : b = Yaml -> meant odd llp b m (Arith Char) SChar1
| m_null : m <> Read -> meant odd llp b m Null SNull
| m_chars : m <> Read -> meant odd llp b m (Ptr (Arith Char)) SString
| m_literal : forall n, m <> Read -> meant odd llp b m (Arr (Arith Char) n) SString
| m_string : meant odd llp b m (Str Char) SString
| m_view : b = Json \/ m = Read -> meant odd llp b m (SView Char) SString
| m_jview : b = Json -> meant odd llp b m JView SAny
| m_yview : b = Yaml -> meant odd llp b m YView SAny
| m_name : forall s u, meant odd llp b m (Enum s u true) SString
| m_value : forall s u x, meant odd llp b m (Arith u) x -> meant odd llp b m (Enum s u false) x
| m_set : forall u, meant odd llp b m (ESet u true) (SSeq SString)
| m_set_values : forall u x, m = Read -> meant odd llp b m (Arith u) x -> meant odd llp b m (ESet u false) (SSeq x)
| m_tuple : forall ts ss, Forall2 (meant odd llp b m) ts ss -> meant odd llp b m (Tuple ts) (STuple ss)
| m_pair : forall t u x y, meant odd llp b m t x -> meant odd llp b m u y -> meant odd llp b m (Pair t u) (STuple [x; y])
| m_opt : forall t x, meant odd llp b m t x -> meant odd llp b m (Opt t) (SOpt x)
| m_seq : forall t c x, a_class t -> provides t c -> iterable c -> ~ associative c -> ~ reflected t ->
    (b = Json -> m = Tree -> no_number t) -> (m = Read -> fillable c) ->
    meant odd llp b m (k_item c) x -> meant odd llp b m t (SSeq x)
| m_map : forall t c k u x, provides t c -> iterable c -> k_key c = Some k -> k_mapped c = Some u -> good_key m k -> ~ reflected t ->
    (b = Json -> m = Tree -> no_number t) ->
    meant odd llp b m u x -> meant odd llp b m t (SMap x)
| m_struct : forall c fs conv base ss,
    (forall k, provides (Class c (Some fs) conv base) k -> ~ range_like m k) ->
    (m <> Read -> nested (Class c (Some fs) conv base) = false) ->
    (b = Json -> m = Tree -> no_number (Class c (Some fs) conv base)) ->
    Forall2 (meant odd llp b m) fs ss -> meant odd llp b m (Class c (Some fs) conv base) (SObject ss)
(** pointers and arrays of anything but characters are written as [true] *)
| o_pointer : forall t, odd = true -> m = Dump -> t <> Arith Char -> meant odd llp b m (Ptr t) SBool
| o_array : forall t n, odd = true -> m = Dump -> t <> Arith Char -> meant odd llp b m (Arr t n) SBool
(** views of strings are sequences of characters in YAML *)
| o_view : odd = true -> b = Yaml -> m <> Read -> meant odd llp b m (SView Char) (SSeq SChar1)
(** strings of other characters are sequences of numbers, except in JSON trees *)
| o_string : forall ch x, odd = true -> ch <> Char -> ~ (b = Json /\ m = Tree) ->
    meant odd llp b m (Arith ch) x -> meant odd llp b m (Str ch) (SSeq x)
| o_wide_view : forall ch x, odd = true -> ch <> Char -> ~ (b = Json /\ m = Tree) -> m <> Read ->
    meant odd llp b m (Arith ch) x -> meant odd llp b m (SView ch) (SSeq x)
(** JSON values are written to streams only, YAML nodes as sequences of sequences *)
| o_value : odd = true -> b = Json -> m = Dump -> meant odd llp b m JValue SAny
| o_node : odd = true -> m <> Read -> meant odd llp b m YNode SNest.

(** Types whose classes neither convert to other types nor have bases. *)
Inductive plain : ty -> Prop :=
| plain_tuple : forall ts, Forall plain ts -> plain (Tuple ts)
| plain_pair : forall t u, plain t -> plain u -> plain (Pair t u)
| plain_opt : forall t, plain t -> plain (Opt t)
| plain_class : forall c fs,
    (forall k, c = Some k -> plain (k_item k)) -> (forall k u, c = Some k -> k_mapped k = Some u -> plain u) ->
    (forall l, fs = Some l -> Forall plain l) -> plain (Class c fs [] None)
| plain_other : forall t, match t with Tuple _ | Pair _ _ | Opt _ | Class _ _ _ _ => False | _ => True end -> plain t.

(** [x] occurs in [t]. *)
Inductive within (x : ty) : ty -> Prop :=
| w_here : within x x
| w_tuple : forall ts t, In t ts -> within x t -> within x (Tuple ts)
| w_first : forall t u, within x t -> within x (Pair t u)
| w_second : forall t u, within x u -> within x (Pair t u)
| w_opt : forall t, within x t -> within x (Opt t)
| w_value : forall s u, within x (Arith u) -> within x (Enum s u false)
| w_set : forall u, within x (Arith u) -> within x (ESet u false)
| w_item : forall c fs conv base, within x (k_item c) -> within x (Class (Some c) fs conv base)
| w_mapped : forall c u fs conv base, k_mapped c = Some u -> within x u -> within x (Class (Some c) fs conv base)
| w_field : forall c l t conv base, In t l -> within x t -> within x (Class c (Some l) conv base).

(** Two ways that are to agree about [t]: those of JSON, writing and reading of YAML, and all of them if there are neither
    characters nor views of strings. *)
Definition comparable (b : backend) (m : mode) (b' : backend) (m' : mode) (t : ty) : Prop :=
  (b = Json /\ b' = Json) \/ (b = Yaml /\ b' = Yaml /\ writing m = writing m') \/
  (~ within (Arith Char) t /\ ~ within (SView Char) t).

(** Types that are neither classes of the user nor enumerations, as far as the backend knows them. *)
Inductive simple (b : backend) : ty -> Prop :=
| simple_number : forall a, simple b (Arith a)
| simple_null : simple b Null
| simple_pointer : forall t, simple b (Ptr t)
| simple_array : forall t n, simple b (Arr t n)
| simple_string : simple b (Str Char)
| simple_view : b = Json -> simple b (SView Char)
| simple_json : b = Json -> simple b JView
| simple_yaml : b = Yaml -> simple b YView.

(** A class without anything of its own that derives from [t], at any distance. *)
Inductive derives (t : ty) : ty -> Prop :=
| derives_here : derives t (Class None None [] (Some t))
| derives_further : forall d, derives t d -> derives t (Class None None [] (Some d)).
(** What is passed on to derived classes: containers, sets, tuples, optionals, documents. *)
Inductive passed_on : ty -> Prop :=
| on_json : passed_on JView
| on_yaml : passed_on YView
| on_node : passed_on YNode
| on_set : forall u r, passed_on (ESet u r)
| on_tuple : forall ts, passed_on (Tuple ts)
| on_pair : forall t u, passed_on (Pair t u)
| on_opt : forall t, passed_on (Opt t)
| on_container : forall c, passed_on (Class c None [] None).
