(** Which function writes and reads a type: the overloads of [dump_adl], [serialize_adl] and [deserialize_adl] in
    kl/json.hpp, kl/yaml.hpp and kl/detail/serialization.hpp, and kl/detail/concepts.hpp.

    The functions are chosen at compile time by overload resolution.  [None] stands for a program that does not compile.

    Simplifications: attributes and [serializer<T>] are left out (see ReflectModel, CustomModel); pointers do not
    distinguish what they point to by [const]; the [value_type] of a container is the type of its elements; keys of maps are
    strings, [const char*] or numbers; a class has at most one base, its lists of conversions contain the inherited
    ones; conversion templates and explicit conversions are left out; no class derives from [rapidjson::Value].  rapidjson's
    and yaml-cpp's own overloads are taken from their documentation. *)
From Coq Require Import List Arith Bool.
Import ListNotations.

(** * Types *)

Inductive arith :=
| Boolean | Char | SChar | UChar | WChar | Char16 | Char32 | Short | UShort | Int | UInt | Long | ULong | LLong | ULLong
| Float | Double | LDouble.
Inductive key := KString | KChars | KNumber.

(** The members of a class that kl/detail/concepts.hpp:9-23 asks for. *)
Record container (A : Type) := mkcontainer {
  k_begin : bool; k_end : bool; k_size : bool; k_push : bool;
  k_value : bool;            (* has value_type *)
  k_const : bool;            (* its elements cannot be written to *)
  k_item : A;                (* type of the elements *)
  k_key : option key;        (* key_type *)
  k_mapped : option A }.     (* mapped_type *)
Arguments mkcontainer {A}. Arguments k_begin {A}. Arguments k_end {A}. Arguments k_size {A}. Arguments k_push {A}.
Arguments k_value {A}. Arguments k_const {A}. Arguments k_item {A}. Arguments k_key {A}. Arguments k_mapped {A}.

Inductive ty :=
| Arith (a : arith)
| Null                                              (* std::nullptr_t *)
| Ptr (t : ty)
| Arr (t : ty) (n : nat)
| Str (ch : arith)                                  (* std::basic_string<ch> *)
| SView (ch : arith)                                (* std::basic_string_view<ch> *)
| JView | YView                                     (* json::view, yaml::view *)
| JValue | YNode                                    (* rapidjson::Value, YAML::Node *)
| Enum (scoped : bool) (under : arith) (reflected : bool)
| ESet (under : arith) (reflected : bool)           (* kl::enum_set *)
| Tuple (ts : list ty)
| Pair (t u : ty)
| Opt (t : ty)
(** a class: the container members it declares, the fields it reflects, the types it implicitly converts to, its base *)
| Class (c : option (container ty)) (fields : option (list ty)) (conv : list ty) (base : option ty).

(** The container members; those of the base are inherited. *)
Fixpoint members (t : ty) : option (container ty) :=
  match t with
  | Str ch => Some (mkcontainer true true true true true false (Arith ch) None None)
  | SView ch => Some (mkcontainer true true true false true true (Arith ch) None None)
  | YNode => Some (mkcontainer true true true true false false YView None None)   (* the items are nodes, see [pick] *)
  | Class (Some c) _ _ _ => Some c
  | Class None _ _ (Some b) => members b
  | _ => None
  end.

(** concepts.hpp:25-53 *)
Definition has (f : container ty -> bool) (t : ty) : bool := match members t with Some c => f c | None => false end.
Definition present {A} (o : option A) : bool := match o with Some _ => true | None => false end.
Definition is_range (t : ty) : bool := has k_begin t && has k_end t.
Definition is_growable_range (t : ty) : bool := is_range t && has k_value t && (has k_value t && has k_push t).
Definition is_fixed_size_range (t : ty) : bool :=
  is_range t && has k_value t && has k_size t && negb (has k_value t && has k_push t).
Definition is_map_alike (t : ty) : bool :=
  is_range t && has (fun c => present (k_mapped c)) t && has (fun c => present (k_key c)) t.
(** ctti.hpp:305-314 *)
Definition is_reflectable (t : ty) : bool := match t with Class _ (Some _) _ _ => true | _ => false end.
Definition is_enum (t : ty) : bool := match t with Enum _ _ _ => true | _ => false end.

Definition is_arithmetic (t : ty) : bool := match t with Arith _ => true | _ => false end.
Definition is_floating_point (t : ty) : bool := match t with Arith (Float | Double | LDouble) => true | _ => false end.
Definition is_integral (t : ty) : bool := is_arithmetic t && negb (is_floating_point t).

(** * Conversions *)

Definition arith_eqb (a b : arith) : bool :=
  match a, b with
  | Boolean, Boolean | Char, Char | SChar, SChar | UChar, UChar | WChar, WChar | Char16, Char16 | Char32, Char32
  | Short, Short | UShort, UShort | Int, Int | UInt, UInt | Long, Long | ULong, ULong | LLong, LLong | ULLong, ULLong
  | Float, Float | Double, Double | LDouble, LDouble => true
  | _, _ => false
  end.

(** [conv.prom], [conv.fpprom], for a [wchar_t] that fits in an [int] *)
Definition promoted (a : arith) : arith :=
  match a with
  | Boolean | Char | SChar | UChar | WChar | Char16 | Short | UShort => Int
  | Char32 => UInt
  | Float => Double
  | _ => a
  end.

(** Types of parameters that do not depend on the argument. *)
Inductive target := ToArith (a : arith) | ToNull | ToChars | ToStr | ToSView | ToJView | ToYView | ToYNode.

(** Standard conversions, [over.ics.scs]: [PtrBool] turns a pointer into a [bool], [Base n] goes [n] bases up. *)
Inductive std := Exact | Promo | Conv | PtrBool | Base (n : nat).
Definition std_lt (a b : std) : bool :=
  match a, b with
  | Exact, Exact => false
  | Exact, _ => true
  | Promo, (Conv | PtrBool | Base _) => true
  | (Conv | Base _), PtrBool => true
  | Base n, Base m => Nat.ltb n m
  | _, _ => false
  end.

Definition to_class (u : target) : bool := match u with ToStr | ToSView | ToJView | ToYView | ToYNode => true | _ => false end.
Fixpoint standard (t : ty) (u : target) : option std :=
  match t, u with
  | Arith a, ToArith b => Some (if arith_eqb a b then Exact else if arith_eqb (promoted a) b then Promo else Conv)
  | Enum false a _, ToArith b => Some (if arith_eqb a b || arith_eqb (promoted a) b then Promo else Conv)
  | (Ptr _ | Arr _ _), ToArith Boolean => Some PtrBool
  | (Ptr (Arith Char) | Arr (Arith Char) _), ToChars => Some Exact
  | Null, ToNull => Some Exact
  | Null, ToChars => Some Conv
  | Str Char, ToStr | SView Char, ToSView | JView, ToJView | YView, ToYView | YNode, ToYNode => Some Exact
  | Class _ _ _ (Some b), _ =>
      if to_class u
      then match standard b u with Some Exact => Some (Base 1) | Some (Base n) => Some (Base (S n)) | _ => None end
      else None
  | _, _ => None
  end.

(** User-defined conversions: the function and what follows it. *)
Definition through (u : target) (ft : nat * ty) : list (nat * std) :=
  match standard (snd ft) u with Some s => [(fst ft, s)] | None => [] end.
Definition conversions (t : ty) : list ty := match t with Class _ _ conv _ => conv | _ => [] end.
Fixpoint constructors (t : ty) (u : target) : list (nat * std) :=
  match t, u with
  | Class _ _ _ (Some b), _ => constructors b u      (* of a base *)
  | (Ptr (Arith Char) | Arr (Arith Char) _ | Null), (ToStr | ToSView) => [(0, Exact)]
  | Str Char, ToSView => [(0, Exact)]                (* std::string::operator std::string_view *)
  | JValue, ToJView => [(0, Exact)]                  (* json.hpp:45 *)
  | YNode, ToYView => [(0, Exact)]                   (* yaml.hpp:33 *)
  | YView, ToYNode => [(0, Exact)]                   (* yaml.hpp:36 *)
  | _, _ => []
  end.
Definition user (t : ty) (u : target) : list (nat * std) :=
  constructors t u ++ flat_map (through u) (combine (seq 1 (length (conversions t))) (conversions t)).

(** A conversion sequence, [over.best.ics]; [Ambig]: several conversions, none is best. *)
Inductive ics := Std (s : std) | User (f : nat) (s : std) | Ambig.
Definition best_user (l : list (nat * std)) : option ics :=
  match l with
  | [] => None
  | _ =>
      match filter (fun x => forallb (fun y => Nat.eqb (fst x) (fst y) || std_lt (snd x) (snd y)) l) l with
      | (f, s) :: _ => Some (User f s)
      | [] => Some Ambig
      end
  end.
Definition implicit (t : ty) (u : target) : option ics :=
  match standard t u with Some s => Some (Std s) | None => best_user (user t u) end.

(** [over.ics.rank] *)
Definition ics_lt (i j : ics) : bool :=
  match i, j with
  | Std a, Std b => std_lt a b
  | Std _, _ => true
  | User f a, User g b => Nat.eqb f g && std_lt a b
  | _, _ => false
  end.

(** A reference to something that can be written to binds to the type and its bases only, [dcl.init.ref]. *)
Definition binds (t : ty) (u : target) : option ics :=
  match standard t u with
  | Some Exact => Some (Std Exact)
  | Some (Base n) => Some (Std (Base n))
  | _ => None
  end.

(** * Overload resolution *)

Inductive tmpl := OfString | OfView | OfSet | OfTuple | OfPair | OfOpt.
(** A parameter: [const T&] or [T] with an [enable_if], a fixed type, a class template. *)
Inductive param := Generic (g : ty -> bool) | Fixed (u : target) | Template (k : tmpl).

(** [temp.deduct.call]: the bases of the argument are tried as well *)
Fixpoint deduce (k : tmpl) (t : ty) : option std :=
  match k, t with
  | OfString, Str _ | OfView, SView _ | OfSet, ESet _ _ | OfTuple, Tuple _ | OfPair, Pair _ _ | OfOpt, Opt _ => Some Exact
  | _, Class _ _ _ (Some b) =>
      match deduce k b with Some Exact => Some (Base 1) | Some (Base n) => Some (Base (S n)) | _ => None end
  | _, _ => None
  end.

(** [write]: the argument is const. *)
Definition viable (write : bool) (t : ty) (p : param) : option ics :=
  match p with
  | Generic g => if g t then Some (Std Exact) else None
  | Fixed u => if write then implicit t u else binds t u
  | Template k => match deduce k t with Some s => Some (Std s) | None => None end
  end.

(** [temp.deduct.partial] *)
Definition more_specialized (p q : param) : bool :=
  match p, q with Generic _, _ => false | _, Generic _ => true | _, _ => false end.

(** [over.match.best] *)
Definition better (x y : param * ics) : bool :=
  ics_lt (snd x) (snd y) || (negb (ics_lt (snd y) (snd x)) && more_specialized (fst x) (fst y)).

(** What the function does; [Body_error]: it does not compile. *)
Inductive shape :=
| SNull | SBool | SNumber | SChar1 | SString
| SAny                                                  (* any document *)
| SSeq (s : shape) | SNest                              (* sequences of sequences of ... *)
| STuple (l : list shape) | SMap (s : shape) | SObject (l : list shape) | SOpt (s : shape).
Inductive act :=
| Scalar (s : shape) | Map | Seq | Struct | Enumerator | EnumSet | TupleOf | PairOf | Optional
| Library            (* [detail::dump_adl] and the like decide *)
| Constructed        (* a constructor of [rapidjson::Value] decides *)
| Converted          (* [YAML::convert] decides *)
| Body_error.

Definition candidate := (param * act)%type.
Fixpoint best (before after : list (param * act * ics)) : list (act * ics) :=
  match after with
  | [] => []
  | (p, a, i) :: after' =>
      (if forallb (fun y => better (p, i) (fst (fst y), snd y)) (before ++ after') then [(a, i)] else [])
      ++ best (before ++ [(p, a, i)]) after'
  end.
Definition viables (write : bool) (t : ty) (cs : list candidate) : list (param * act * ics) :=
  flat_map (fun c => match viable write t (fst c) with Some i => [(fst c, snd c, i)] | None => [] end) cs.
Definition resolve (write : bool) (t : ty) (cs : list candidate) : option act :=
  match best [] (viables write t cs) with
  | [(a, Ambig)] => None
  | [(a, _)] => Some a
  | _ => None
  end.

(** * The overloads *)

(** detail/serialization.hpp:616-714 [dump_adl], 718-812 [serialize_adl]: the same parameters *)
Definition writers : list candidate :=
  [ (Generic is_map_alike, Map);
    (Generic (fun t => negb (is_map_alike t) && is_range t), Seq);
    (Generic is_reflectable, Struct);
    (Generic is_enum, Enumerator);
    (Template OfSet, EnumSet);
    (Template OfTuple, TupleOf);
    (Template OfPair, PairOf);
    (Template OfOpt, Optional) ].
(** 816-1118 [deserialize_adl] *)
Definition readers : list candidate :=
  [ (Generic is_map_alike, Map);
    (Generic (fun t => negb (is_map_alike t) && is_growable_range t), Seq);
    (Generic (fun t => negb (is_map_alike t) && is_fixed_size_range t), Seq);
    (Generic is_reflectable, Struct);
    (Generic is_enum, Enumerator);
    (Template OfSet, EnumSet);
    (Template OfTuple, TupleOf);
    (Template OfPair, PairOf);
    (Template OfOpt, Optional) ].
(** The expression [detail::dump_adl<Backend>(value, ctx)] is valid. *)
Definition written_by_library (t : ty) : bool := present (resolve true t writers).
Definition read_by_library (t : ty) : bool := present (resolve false t readers).

(** [std::int64_t] and [std::uint64_t]; [llp]: as on Windows *)
Definition int64 (llp : bool) : arith := if llp then LLong else Long.
Definition uint64 (llp : bool) : arith := if llp then ULLong else ULong.

(** json.hpp:534-609 *)
Definition json_dump (llp : bool) : list candidate :=
  [ (Generic written_by_library, Library);
    (Fixed ToJView, Scalar SAny);
    (Fixed ToNull, Scalar SNull);
    (Fixed (ToArith Boolean), Scalar SBool);
    (Fixed (ToArith Int), Scalar SNumber);
    (Fixed (ToArith UInt), Scalar SNumber);
    (Fixed (ToArith (int64 llp)), Scalar SNumber);
    (Fixed (ToArith (uint64 llp)), Scalar SNumber);
    (Fixed (ToArith Double), Scalar SNumber);
    (Fixed ToChars, Scalar SString);
    (Fixed ToStr, Scalar SString);
    (Fixed ToSView, Scalar SString) ].

Definition is_bool (t : ty) : bool := match t with Arith Boolean => true | _ => false end.
Definition is_char_array (t : ty) : bool := match t with Arr (Arith Char) _ => true | _ => false end.
Definition is_json_value (t : ty) : bool := match t with JValue => true | _ => false end.
(** The constructors of [rapidjson::Value] with one argument; a value is made from another one by moving only. *)
Definition json_constructors (llp : bool) : list candidate :=
  [ (Generic is_bool, Scalar SBool);
    (Fixed (ToArith Int), Scalar SNumber);
    (Fixed (ToArith UInt), Scalar SNumber);
    (Fixed (ToArith (int64 llp)), Scalar SNumber);
    (Fixed (ToArith (uint64 llp)), Scalar SNumber);
    (Fixed (ToArith Double), Scalar SNumber);
    (Fixed (ToArith Float), Scalar SNumber);
    (Generic is_char_array, Scalar SString);
    (Generic is_json_value, Body_error) ].
(** json.hpp:506-511 *)
Definition is_json_constructible (llp : bool) (t : ty) : bool :=
  present (resolve true t (json_constructors llp)) && negb (is_enum t).

(** json.hpp:612-667.  The overload for [char (&)[N]] is not viable: the argument is const. *)
Definition json_serialize (llp : bool) : list candidate :=
  [ (Generic written_by_library, Library);
    (Generic (is_json_constructible llp), Constructed);
    (Fixed ToJView, Scalar SAny);
    (Fixed ToNull, Scalar SNull);
    (Template OfString, Scalar SString);
    (Template OfView, Scalar SString);
    (Fixed ToChars, Scalar SString) ].

(** json.hpp:670-762 *)
Definition json_deserialize : list candidate :=
  [ (Generic read_by_library, Library);
    (Generic is_integral, Scalar SNumber);
    (Generic is_floating_point, Scalar SNumber);
    (Fixed (ToArith Boolean), Scalar SBool);
    (Fixed ToStr, Scalar SString);
    (Fixed ToSView, Scalar SString);
    (Fixed ToJView, Scalar SAny) ].

(** yaml.hpp:423-465 *)
Definition yaml_dump : list candidate :=
  [ (Generic written_by_library, Library);
    (Fixed (ToArith UChar), Scalar SNumber);
    (Fixed (ToArith SChar), Scalar SNumber);
    (Fixed ToYView, Scalar SAny);
    (Fixed ToNull, Scalar SNull);
    (Fixed ToStr, Scalar SString) ].
(** [operator<<] of [YAML::Emitter], taken when none of the above is: yaml.hpp:579-602 *)
Definition yaml_emitter : list candidate :=
  [ (Fixed ToStr, Scalar SString);
    (Fixed (ToArith Boolean), Scalar SBool);
    (Fixed (ToArith Char), Scalar SChar1);
    (Fixed (ToArith UChar), Scalar SString);
    (Fixed (ToArith Int), Scalar SNumber);
    (Fixed (ToArith UInt), Scalar SNumber);
    (Fixed (ToArith Short), Scalar SNumber);
    (Fixed (ToArith UShort), Scalar SNumber);
    (Fixed (ToArith Long), Scalar SNumber);
    (Fixed (ToArith ULong), Scalar SNumber);
    (Fixed (ToArith LLong), Scalar SNumber);
    (Fixed (ToArith ULLong), Scalar SNumber);
    (Fixed (ToArith Float), Scalar SNumber);
    (Fixed (ToArith Double), Scalar SNumber);
    (Fixed ToChars, Scalar SString);
    (Fixed ToYNode, Scalar SAny) ].
(** What [YAML::convert] is defined for. *)
Definition yaml_number (t : ty) : act :=
  match t with
  | Arith (WChar | Char16 | Char32) => Body_error
  | Arith Boolean => Scalar SBool
  | Arith Char => Scalar SChar1
  | _ => Scalar SNumber
  end.
(** yaml.hpp:468-517, 520-569 *)
Definition yaml_serialize : list candidate :=
  [ (Generic written_by_library, Library);
    (Generic is_arithmetic, Converted);
    (Fixed (ToArith UChar), Scalar SNumber);
    (Fixed (ToArith SChar), Scalar SNumber);
    (Fixed ToYView, Scalar SAny);
    (Fixed ToNull, Scalar SNull);
    (Fixed ToStr, Scalar SString);
    (Fixed ToChars, Scalar SString) ].
Definition yaml_deserialize : list candidate :=
  [ (Generic read_by_library, Library);
    (Generic is_arithmetic, Converted);
    (Fixed ToStr, Scalar SString);
    (Fixed ToSView, Scalar SString);
    (Fixed ToYView, Scalar SAny) ].

(** * Writing and reading a type *)

Inductive backend := Json | Yaml.
Inductive mode := Dump | Tree | Read.
Definition writing (m : mode) : bool := match m with Read => false | _ => true end.
Definition overloads (llp : bool) (b : backend) (m : mode) : list candidate :=
  match b, m with
  | Json, Dump => json_dump llp
  | Json, Tree => json_serialize llp
  | Json, Read => json_deserialize
  | Yaml, Dump => yaml_dump
  | Yaml, Tree => yaml_serialize
  | Yaml, Read => yaml_deserialize
  end.

Definition wide (t : ty) : bool := match t with Str Char | SView Char => false | Str _ | SView _ => true | _ => false end.
Fixpoint root (t : ty) : ty := match t with Class _ _ _ (Some b) => root b | _ => t end.

(** The function that is called, with its body looked at as far as it depends on the type. *)
Definition pick_act (llp : bool) (b : backend) (m : mode) (t : ty) : option act :=
  match resolve (writing m) t (overloads llp b m) with
  | Some Library => resolve (writing m) t (if writing m then writers else readers)
  | Some Constructed => resolve true t (json_constructors llp)
  | Some Converted => Some (yaml_number t)
  | Some (Scalar SString) =>
      match b, m with
      | Json, Tree => Some (if wide (root t) then Body_error else Scalar SString)   (* rapidjson::Value of wide characters *)
      | _, _ => Some (Scalar SString)
      end
  | Some a => Some a
  | None => match b, m with Yaml, Dump => resolve true t yaml_emitter | _, _ => None end
  end.

(** The items of a node are nodes. *)
Fixpoint nested (t : ty) : bool := match t with YNode => true | Class None _ _ (Some b) => nested b | _ => false end.

(** Numbers, strings and others that are not made of parts. *)
Definition scalar (a : option act) : option shape := match a with Some (Scalar s) => Some s | _ => None end.

(** The key of a map: detail/serialization.hpp:620, 723, json.hpp:395-406, 442-457, yaml.hpp:299-306, 356-361 for
    writing, 828-829 for reading. *)
Definition key_works (m : mode) (k : key) : bool :=
  match m, k with
  | Read, (KString | KNumber) => true
  | Read, KChars => false
  | _, (KString | KChars) => true
  | _, KNumber => false
  end.

Definition option_map_ {A B} (f : A -> B) (o : option A) : option B := match o with Some x => Some (f x) | None => None end.
Fixpoint all {A} (l : list (option A)) : option (list A) :=
  match l with
  | [] => Some []
  | Some x :: l' => option_map_ (cons x) (all l')
  | None :: _ => None
  end.

(** An enumerator is written as its name or as its underlying value: 661-669, 744-751, 1043-1064. *)
Definition enumerator (llp : bool) (b : backend) (m : mode) (under : arith) (reflected : bool) : option shape :=
  if reflected then Some SString else scalar (pick_act llp b m (Arith under)).

(** The parts of a type, inherited from its base: what the bodies of the overloads call themselves for. *)
Record parts := mkparts {
  p_whole : option shape;              (* the type itself *)
  p_item : option shape;               (* the elements of a sequence *)
  p_mapped : option shape;             (* the values of a map *)
  p_components : option (list shape);  (* of a tuple or pair *)
  p_held : option shape;               (* by an optional *)
  p_set : option shape }.              (* the elements of an [enum_set] *)

(** The bodies: dump 616-714, serialize 718-812, deserialize 816-1118. *)
Definition whole (llp : bool) (b : backend) (m : mode) (t : ty) (fields : option (list shape)) (p : parts) : option shape :=
  match pick_act llp b m t with
  | None | Some (Body_error | Library | Constructed | Converted) => None
  | Some (Scalar s) => Some s
  | Some Map =>
      match members t with
      | Some c => match k_key c with
                  | Some k => if key_works m k then option_map_ SMap (p_mapped p) else None
                  | None => None
                  end
      | None => None
      end
  | Some Seq =>
      if nested t then Some SNest
      else match m with
           | Read => if is_fixed_size_range t && has k_const t then None       (* for (auto& element : out), 883 *)
                     else option_map_ SSeq (p_item p)
           | _ => option_map_ SSeq (p_item p)
           end
  | Some Struct => option_map_ SObject fields
  | Some Enumerator => match t with Enum _ u r => enumerator llp b m u r | _ => None end
  | Some EnumSet => option_map_ SSeq (p_set p)
  | Some (TupleOf | PairOf) => option_map_ STuple (p_components p)
  | Some Optional => option_map_ SOpt (p_held p)
  end.

Definition no_parts : parts := mkparts None None None None None None.
Fixpoint analyse (llp : bool) (b : backend) (m : mode) (t : ty) {struct t} : parts :=
  let finish (fields : option (list shape)) (p : parts) :=
    mkparts (whole llp b m t fields p) (p_item p) (p_mapped p) (p_components p) (p_held p) (p_set p) in
  match t with
  | Str ch | SView ch => finish None (mkparts None (scalar (pick_act llp b m (Arith ch))) None None None None)
  | ESet u r =>
      finish None (mkparts None None None None None
        (match m with Read => enumerator llp b m u r | _ => if r then Some SString else None end))   (* 674, 756 *)
  | Tuple ts => finish None (mkparts None None None (all (map (fun x => p_whole (analyse llp b m x)) ts)) None None)
  | Pair x y => finish None (mkparts None None None (all [p_whole (analyse llp b m x); p_whole (analyse llp b m y)]) None None)
  | Opt x => finish None (mkparts None None None None (p_whole (analyse llp b m x)) None)
  | Class c fs _ base =>
      let inherited := match base with Some x => analyse llp b m x | None => no_parts end in
      finish
        (match fs with Some l => all (map (fun x => p_whole (analyse llp b m x)) l) | None => None end)
        (match c with
         | Some k =>
             mkparts None (p_whole (analyse llp b m (k_item k)))
                     (match k_mapped k with Some x => p_whole (analyse llp b m x) | None => None end)
                     (p_components inherited) (p_held inherited) (p_set inherited)
         | None => inherited
         end)
  | _ => finish None no_parts
  end.

(** The shape of the documents that a type is written to or read from. *)
Definition pick (llp : bool) (b : backend) (m : mode) (t : ty) : option shape := p_whole (analyse llp b m t).

(** * Patching *)

(** detail/serialization.hpp:1122-1242 *)
Definition patchers : list candidate := [ (Generic is_reflectable, Struct); (Template OfOpt, Optional) ].
(** serialization.hpp:126-158 [patch], json.hpp:764-771, yaml.hpp:569-576: what [patch_adl] does not take is deserialized.
    1133-1138: a reflected struct is also deserialized as a whole; 1228-1241: what an optional holds is patched. *)
Definition whole_patch (llp : bool) (b : backend) (t : ty) (fields : option (list shape)) (held : option shape) : option shape :=
  match resolve false t patchers with
  | Some Struct => match pick llp b Read t with Some _ => option_map_ SObject fields | None => None end
  | Some Optional => option_map_ SOpt held
  | _ => pick llp b Read t
  end.
(** The shape of the documents that a type is patched with, and of those for what it holds as an optional. *)
Fixpoint analyse_patch (llp : bool) (b : backend) (t : ty) {struct t} : option shape * option shape :=
  let finish (fields : option (list shape)) (held : option shape) := (whole_patch llp b t fields held, held) in
  match t with
  | Opt x => finish None (fst (analyse_patch llp b x))
  | Class _ fs _ base =>
      finish (match fs with Some l => all (map (fun x => fst (analyse_patch llp b x)) l) | None => None end)
             (match base with Some x => snd (analyse_patch llp b x) | None => None end)
  | _ => finish None None
  end.
Definition pick_patch (llp : bool) (b : backend) (t : ty) : option shape := fst (analyse_patch llp b t).
