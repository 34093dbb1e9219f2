(** The macros of kl: KL_REFLECT_ENUM, KL_REFLECT_STRUCT and its variants,
    KL_ACCESSOR_FIELD, KL_DEFER.  The texts of the headers are below, verbatim; they are
    read and expanded by the rules of the C++ preprocessor.

    Expansion follows Prosser's algorithm, which the C standard's wording was made from:
    every token carries the set of macros it may not be expanded by ("hide set").  For a
    call the set is the intersection of those of the name and of the closing
    parenthesis (the standard leaves that case open; all known preprocessors do it).

    Boost.Preprocessor is not in the repository: the 13 macros of it that kl uses are
    taken from its documentation ([builtin]) with its limits; BOOST_PP_STRINGIZE and
    BOOST_PP_CAT are small enough to be given as text.

    Simplified: white space is not kept, so a literal made by [#] holds the tokens;
    all arguments are expanded, also those only used with [#] and [##]; [__COUNTER__]
    is a macro that the environment defines, with another number at each use. *)
From Coq Require Import String Ascii List Arith Bool.
Import ListNotations.
Local Open Scope list_scope.

Inductive tok :=
| Id (n : string) | Num (n : nat) | Op (s : string) | LP | RP | Comma
| Lit (s : string)          (* a literal of the source *)
| Strz (ts : list tok).     (* a literal made by # *)

(** * Reading the headers *)

Definition is_letter (c : ascii) : bool :=
  let n := nat_of_ascii c in
  ((65 <=? n) && (n <=? 90)) || ((97 <=? n) && (n <=? 122)) || (n =? 95).
Definition is_num (c : ascii) : bool := let n := nat_of_ascii c in (48 <=? n) && (n <=? 57).
Definition newline : ascii := ascii_of_nat 10.
Definition is_space (c : ascii) : bool := Ascii.eqb c " " || Ascii.eqb c newline.

(** Phase 2 and lines: a backslash at the end of a line joins it with the next. *)
Definition push (c : ascii) (ls : list string) : list string :=
  match ls with [] => [String c EmptyString] | l :: ls' => String c l :: ls' end.
Fixpoint lines (s : string) : list string :=
  match s with
  | EmptyString => [EmptyString]
  | String c s1 =>
      if Ascii.eqb c newline then EmptyString :: lines s1
      else if Ascii.eqb c "\" then
        match s1 with
        | String c2 s2 => if Ascii.eqb c2 newline then push " " (lines s2) else push c (lines s1)
        | EmptyString => [String c EmptyString]
        end
      else push c (lines s1)
  end.

Fixpoint span (f : ascii -> bool) (s : string) : string * string :=
  match s with
  | String c s1 => if f c then let '(a, b) := span f s1 in (String c a, b) else (EmptyString, s)
  | EmptyString => (EmptyString, EmptyString)
  end.
Fixpoint number (acc : nat) (s : string) : nat :=
  match s with String c s1 => number (acc * 10 + (nat_of_ascii c - 48)) s1 | EmptyString => acc end.

(** Phase 3: the tokens of a line. *)
Fixpoint lex (fuel : nat) (s : string) : list tok :=
  match fuel, s with
  | S f, String c s1 =>
      if is_space c then lex f s1
      else if is_letter c then
        let '(a, b) := span (fun c => is_letter c || is_num c) s in Id a :: lex f b
      else if is_num c then let '(a, b) := span is_num s in Num (number 0 a) :: lex f b
      else if Ascii.eqb c "(" then LP :: lex f s1
      else if Ascii.eqb c ")" then RP :: lex f s1
      else if Ascii.eqb c "," then Comma :: lex f s1
      else if Ascii.eqb c """" then
        let '(a, b) := span (fun c => negb (Ascii.eqb c """")) s1 in
        Lit a :: lex f (match b with String _ b' => b' | EmptyString => b end)
      else
        match s1 with
        | String c2 s2 =>
            if existsb (String.eqb (String c (String c2 EmptyString))) ["::"; "->"; "&&"; "##"]%string
            then Op (String c (String c2 EmptyString)) :: lex f s2
            else if String.prefix ".." s1 && Ascii.eqb c "."
            then Op "..." :: lex f (String.substring 2 (String.length s1) s1)
            else Op (String c EmptyString) :: lex f s1
        | EmptyString => [Op (String c EmptyString)]
        end
  | _, _ => []
  end.
Definition tokens (s : string) : list tok := lex (String.length s) s.

Inductive builtin :=
| B_dec | B_if | B_remove_parens | B_repeat | B_seq_elem | B_seq_size | B_tuple_elem | B_tuple_enum
| B_tuple_pop_front | B_tuple_push_back | B_tuple_size | B_to_tuple | B_to_seq.

Inductive macro :=
| Obj (body : list tok)
| Fun (params : list string) (va : bool) (body : list tok)
| Builtin (b : builtin).

(** [params) body] *)
Fixpoint params (ts : list tok) : list string * bool * list tok :=
  match ts with
  | Id p :: ts' => let '(ps, va, body) := params ts' in (p :: ps, va, body)
  | Op _ :: ts' => let '(ps, _, body) := params ts' in (ps, true, body)
  | RP :: ts' => ([], false, ts')
  | _ :: ts' => params ts'
  | [] => ([], false, [])
  end.

Definition directive (l : string) : list (string * macro) :=
  if String.prefix "#define " l then
    let '(_, l) := span is_space (String.substring 8 (String.length l) l) in
    let '(n, l) := span (fun c => is_letter c || is_num c) l in
    match l with
    | String c l' =>
        if Ascii.eqb c "(" then let '(ps, va, body) := params (tokens l') in [(n, Fun ps va body)]
        else [(n, Obj (tokens l))]
    | EmptyString => [(n, Obj [])]
    end
  else [].
Definition read_macros (s : string) : list (string * macro) := flat_map directive (lines s).

(** include/kl/detail/macros.hpp:19-137, verbatim. *)
Definition macros_hpp : string := "
// Stringize the argument: arg -> ""arg""
#define KL_STRINGIZE(arg_) BOOST_PP_STRINGIZE(arg_)

// Concatenates two identifiers
#define KL_CONCAT(a_, b_) BOOST_PP_CAT(a_, b_)

// Expands to then_ if cond_ is non-zero, otherwise to else_
#define KL_IF(cond_, then_, else_) BOOST_PP_IF(cond_, then_, else_)

// Turns a, b, c into (a)(b)(c)
#define KL_VARIADIC_TO_SEQ(...) BOOST_PP_VARIADIC_TO_SEQ(__VA_ARGS__)

// Returns the size of the sequence
#define KL_SEQ_SIZE(seq_) BOOST_PP_SEQ_SIZE(seq_)

// Returns the sequence element of given index
#define KL_SEQ_ELEM(index_, seq_) BOOST_PP_SEQ_ELEM(index_, seq_)

// Does the for-each for the sequence.
// Body is a macro invoked with (arg_, tuple_[i])
#define KL_SEQ_FOR_EACH2(arg_, seq_, body_)                                    \
    BOOST_PP_REPEAT(KL_SEQ_SIZE(seq_), KL_SEQ_LOOP_INVOKER2,                   \
                    (arg_)(seq_)(body_))

// seq_macro_ is (arg_)(tuple_)(body_)
#define KL_SEQ_LOOP_INVOKER2(_, index_, seq_macro_)                            \
    KL_SEQ_ELEM(2, seq_macro_)                                                 \
    (KL_SEQ_ELEM(0, seq_macro_),                                               \
     KL_SEQ_ELEM(index_, KL_SEQ_ELEM(1, seq_macro_)))

// Makes sure arg is a tuple (works for tuples and single arg)
#define KL_ARG_TO_TUPLE(arg_) (BOOST_PP_REMOVE_PARENS(arg_))

// Turns a, b, c into (a, b, c)
#define KL_VARIADIC_TO_TUPLE(...) BOOST_PP_VARIADIC_TO_TUPLE(__VA_ARGS__)

// Returns the size of the tuple
#define KL_TUPLE_SIZE(tuple_) BOOST_PP_TUPLE_SIZE(tuple_)

// Returns the size of the tuple decreased by one
#define KL_TUPLE_SIZE_MINUS_ONE(tuple_) BOOST_PP_DEC(KL_TUPLE_SIZE(tuple_))

// Returns the tuple element of given index
#define KL_TUPLE_ELEM(index_, tuple_) BOOST_PP_TUPLE_ELEM(index_, tuple_)

// Returns the tuple with first element removed
#define KL_TUPLE_POP_FRONT(tuple_) BOOST_PP_TUPLE_POP_FRONT(tuple_)

// Expands tuple elements as comma-separated tokens
#define KL_TUPLE_ENUM(tuple_) BOOST_PP_TUPLE_ENUM(tuple_)

// Expands to "", tail..."" when tuple_ has more than one element, otherwise empty.
// Useful when tuple_[0] is a primary value and remaining elements are optional
// constructor/function arguments.
#define KL_TUPLE_ENUM_POP_FRONT_COMMA(tuple_)                                  \
    KL_IF(KL_TUPLE_SIZE_MINUS_ONE(tuple_),                                     \
          KL_TUPLE_ENUM_POP_FRONT_COMMA_IMPL,                                  \
          KL_TUPLE_ENUM_POP_FRONT_COMMA_EMPTY)(tuple_)

#define KL_TUPLE_ENUM_POP_FRONT_COMMA_IMPL(tuple_)                             \
    , KL_TUPLE_ENUM(KL_TUPLE_POP_FRONT(tuple_))

#define KL_TUPLE_ENUM_POP_FRONT_COMMA_EMPTY(tuple_)

// Expands tuple's tail (every element after the first) wrapping each entry
// inside a nullary lambda that returns that entry, prefixed by a leading
// comma. For (name, attr1, attr2) the expansion is
//   , []{ return attr1; }, []{ return attr2; }
#define KL_TUPLE_ENUM_POP_FRONT_LAMBDA_COMMA(tuple_)                           \
    KL_IF(KL_TUPLE_SIZE_MINUS_ONE(tuple_),                                     \
          KL_TUPLE_ENUM_POP_FRONT_LAMBDA_COMMA_IMPL,                           \
          KL_TUPLE_ENUM_POP_FRONT_COMMA_EMPTY)(tuple_)

#define KL_TUPLE_ENUM_POP_FRONT_LAMBDA_COMMA_IMPL(tuple_)                      \
    KL_TUPLE_FOR_EACH(KL_TUPLE_POP_FRONT(tuple_), KL_LAMBDA_WRAP_COMMA_ENTRY)

#define KL_LAMBDA_WRAP_COMMA_ENTRY(arg_)                                       \
    , [] { return arg_; }

// Append arg_ to the tuple_
#define KL_TUPLE_PUSH_BACK(tuple_, arg_) BOOST_PP_TUPLE_PUSH_BACK(tuple_, arg_)

// Transform given arg_ to the tuple (if necessary) and clones the first element
// if result tuple is only an 1-element tuple so that final result is always >=2
// element tuple
#define KL_TUPLE_EXTEND_BY_FIRST(arg_)                                         \
    KL_TUPLE_EXTEND_BY_FIRST_IMPL(KL_ARG_TO_TUPLE(arg_))

// Transform given tuple_  by cloning the first element if the given tuple is
// only an 1-element tuple:
//   (x)       -> (x, x)
//   (x, y)    -> (x, y)    :nop
//   (x, y, z) -> (x, y, z) :nop
#define KL_TUPLE_EXTEND_BY_FIRST_IMPL(tuple_)                                  \
    KL_IF(KL_TUPLE_SIZE_MINUS_ONE(tuple_), tuple_,                             \
          KL_TUPLE_PUSH_BACK(tuple_, KL_TUPLE_ELEM(0, tuple_)))

// Does the for -each for the tuple.
// Body is a macro invoked with (tuple_[i])
#define KL_TUPLE_FOR_EACH(tuple_, body_)                                       \
    BOOST_PP_REPEAT(KL_TUPLE_SIZE(tuple_), KL_TUPLE_LOOP_INVOKER,              \
                    (tuple_, body_))

// Does the for-each for the tuple.
// Body is a macro invoked with (arg_, tuple_[i])
#define KL_TUPLE_FOR_EACH2(arg_, tuple_, body_)                                \
    BOOST_PP_REPEAT(KL_TUPLE_SIZE(tuple_), KL_TUPLE_LOOP_INVOKER2,             \
                    (arg_, tuple_, body_))

// tuple_macro is (tuple_, body_)
#define KL_TUPLE_LOOP_INVOKER(_, index_, tuple_macro_)                         \
    KL_TUPLE_ELEM(1, tuple_macro_)                                             \
    (KL_TUPLE_ELEM(index_, KL_TUPLE_ELEM(0, tuple_macro_)))

// tuple_macro_ is (arg_, tuple_, body_)
#define KL_TUPLE_LOOP_INVOKER2(_, index_, tuple_macro_)                        \
    KL_TUPLE_ELEM(2, tuple_macro_)                                             \
    (KL_TUPLE_ELEM(0, tuple_macro_),                                           \
     KL_TUPLE_ELEM(index_, KL_TUPLE_ELEM(1, tuple_macro_)))
"%string.

(** include/kl/reflect_enum.hpp:121-152, verbatim. *)
Definition reflect_enum_hpp : string := "
#define KL_REFLECT_ENUM(name_, ...)                                            \
    KL_REFLECT_ENUM_SEQ(name_, KL_VARIADIC_TO_SEQ(__VA_ARGS__))

#define KL_REFLECT_ENUM_SEQ(name_, values_)                                    \
    namespace KL_REFLECT_ENUM_NSNAME(name_) {                                  \
    inline constexpr ::kl::enum_reflection_pair<name_> reflection_data[] = {   \
        KL_REFLECT_ENUM_REFLECTION_PAIRS(name_, values_)};                     \
    }                                                                          \
    [[maybe_unused]] constexpr auto reflect_enum(                              \
        ::kl::enum_class<name_>) noexcept                                      \
    {                                                                          \
        return ::kl::enum_reflection_view{                                     \
            KL_REFLECT_ENUM_NSNAME(name_)::reflection_data};                   \
    }                                                                          \
    [[maybe_unused]] constexpr auto reflect_enum_unknown_name(                 \
        ::kl::enum_class<name_>) noexcept                                      \
    {                                                                          \
        return ""unknown <"" KL_STRINGIZE(name_) "">"";                            \
    }

#define KL_REFLECT_ENUM_NSNAME(name_) KL_CONCAT(kl_reflect_, name_)

#define KL_REFLECT_ENUM_REFLECTION_PAIRS(name_, values_)                       \
    KL_SEQ_FOR_EACH2(name_, values_, KL_REFLECT_ENUM_REFLECTION_PAIR)

#define KL_REFLECT_ENUM_REFLECTION_PAIR(name_, value_)                         \
    KL_REFLECT_ENUM_REFLECTION_PAIR2(name_, KL_TUPLE_EXTEND_BY_FIRST(value_))

// Assumes value_ is a tuple: (x, x) or (x, y) where `x` is the name and `y` is
// the string form of the enum value
#define KL_REFLECT_ENUM_REFLECTION_PAIR2(name_, value_)                        \
    {name_::KL_TUPLE_ELEM(0, value_), KL_STRINGIZE(KL_TUPLE_ELEM(1, value_))},
"%string.

(** include/kl/reflect_struct.hpp:120-213, verbatim. *)
Definition reflect_struct_hpp : string := "
#define KL_REFLECT_STRUCT(type_, ...)                                          \
    KL_REFLECT_STRUCT_TUPLE(type_, KL_VARIADIC_TO_TUPLE(__VA_ARGS__))

#define KL_REFLECT_STRUCT_FRIEND(type_, ...)                                   \
    KL_REFLECT_STRUCT_FRIEND_TUPLE(type_, KL_VARIADIC_TO_TUPLE(__VA_ARGS__))

#define KL_REFLECT_STRUCT_DERIVED(type_, bases_, ...)                          \
    KL_REFLECT_STRUCT_DERIVED_TUPLE(type_, KL_ARG_TO_TUPLE(bases_),            \
                                    KL_VARIADIC_TO_TUPLE(__VA_ARGS__))

#define KL_REFLECT_STRUCT_DERIVED_FRIEND(type_, bases_, ...)                   \
    KL_REFLECT_STRUCT_DERIVED_FRIEND_TUPLE(                                    \
        type_, KL_ARG_TO_TUPLE(bases_), KL_VARIADIC_TO_TUPLE(__VA_ARGS__))

#define KL_REFLECT_STRUCT_NAMESPACE_DECL [[maybe_unused]]
#define KL_REFLECT_STRUCT_FRIEND_DECL friend

#define KL_REFLECT_STRUCT_TUPLE(type_, fields_)                                \
    KL_REFLECT_STRUCT_TUPLE_IMPL(KL_REFLECT_STRUCT_NAMESPACE_DECL, type_,      \
                                 fields_)

#define KL_REFLECT_STRUCT_FRIEND_TUPLE(type_, fields_)                         \
    KL_REFLECT_STRUCT_TUPLE_IMPL(KL_REFLECT_STRUCT_FRIEND_DECL, type_, fields_)

#define KL_REFLECT_STRUCT_TUPLE_IMPL(decl_, type_, fields_)                    \
    template <typename Factory, typename Visitor>                              \
    decl_ constexpr void reflect_struct_fields(                                \
        Factory&& factory, Visitor&& vis, ::kl::ctti::record_class<type_>)     \
    {                                                                          \
        KL_REFLECT_STRUCT_VIS_MEMBERS(type_, fields_)                          \
    }                                                                          \
                                                                               \
    decl_ constexpr std::size_t reflect_num_fields(                            \
        ::kl::ctti::record_class<type_>) noexcept                              \
    {                                                                          \
        return KL_TUPLE_SIZE(fields_);                                         \
    }

#define KL_REFLECT_STRUCT_DERIVED_TUPLE(type_, bases_, fields_)                \
    KL_REFLECT_STRUCT_DERIVED_TUPLE_IMPL(KL_REFLECT_STRUCT_NAMESPACE_DECL,     \
                                         type_, bases_, fields_)

#define KL_REFLECT_STRUCT_DERIVED_FRIEND_TUPLE(type_, bases_, fields_)         \
    KL_REFLECT_STRUCT_DERIVED_TUPLE_IMPL(KL_REFLECT_STRUCT_FRIEND_DECL, type_, \
                                         bases_, fields_)

#define KL_REFLECT_STRUCT_DERIVED_TUPLE_IMPL(decl_, type_, bases_, fields_)    \
    template <typename Factory, typename Visitor>                              \
    decl_ constexpr void reflect_struct_fields(                                \
        Factory&& factory, Visitor&& vis, ::kl::ctti::record_class<type_>)     \
    {                                                                          \
        KL_REFLECT_STRUCT_VIS_BASES(bases_)                                    \
        KL_REFLECT_STRUCT_VIS_MEMBERS(type_, fields_)                          \
    }                                                                          \
                                                                               \
    decl_ constexpr std::size_t reflect_num_fields(                            \
        ::kl::ctti::record_class<type_>) noexcept                              \
    {                                                                          \
        return KL_TUPLE_SIZE(fields_) +                                        \
               KL_REFLECT_STRUCT_NUM_BASE_FIELDS(bases_) 0;                    \
    }

#define KL_REFLECT_STRUCT_VIS_MEMBERS(type_, fields_)                          \
    KL_TUPLE_FOR_EACH2(type_, fields_, KL_REFLECT_STRUCT_VIS_MEMBER)

#define KL_REFLECT_STRUCT_VIS_BASES(fields_)                                   \
    KL_TUPLE_FOR_EACH(fields_, KL_REFLECT_STRUCT_VIS_BASE)

#define KL_REFLECT_STRUCT_NUM_BASE_FIELDS(fields_)                             \
    KL_TUPLE_FOR_EACH(fields_, KL_REFLECT_STRUCT_NUM_FIELDS)

#define KL_REFLECT_STRUCT_VIS_MEMBER(type_, name_)                             \
    KL_REFLECT_STRUCT_VIS_MEMBER_IMPL(type_, KL_ARG_TO_TUPLE(name_))

#define KL_REFLECT_STRUCT_VIS_MEMBER_IMPL(type_, field_)                       \
    KL_REFLECT_STRUCT_VIS_MEMBER_TUPLE(type_, field_)

#define KL_REFLECT_STRUCT_VIS_MEMBER_TUPLE(type_, field_)                      \
    vis(factory.template field<&type_::KL_TUPLE_ELEM(0, field_)>(              \
        KL_STRINGIZE(KL_TUPLE_ELEM(0, field_))                                 \
            KL_TUPLE_ENUM_POP_FRONT_LAMBDA_COMMA(field_)));

#define KL_REFLECT_STRUCT_VIS_BASE(base_)                                      \
    reflect_struct_fields(factory, vis, ::kl::ctti::record<base_>);

#define KL_REFLECT_STRUCT_NUM_FIELDS(base_)                                    \
    reflect_num_fields(::kl::ctti::record<base_>) +

#define KL_ACCESSOR_FIELD(name_)                                               \
    KL_ACCESSOR_FIELD_NAMED(KL_STRINGIZE(name_), object.name_)

#define KL_ACCESSOR_FIELD_NAMED(name_, expression_)                            \
    factory.accessor(                                                          \
        name_, [](auto& object) -> decltype(auto) { return (expression_); })
"%string.

(** include/kl/defer.hpp:20-28, verbatim. *)
Definition defer_hpp : string := "
#define KL_DEFER_INTERNAL1(lname, aname, ...)                                  \
    auto lname = [&]() { __VA_ARGS__; };                                       \
    kl::detail::scope_exit_t<decltype(lname)> aname(lname);

#define KL_DEFER_INTERNAL2(counter_, ...)                                      \
    KL_DEFER_INTERNAL1(KL_CONCAT(kl_defer_func, counter_),                     \
                       KL_CONCAT(kl_defer_instance, counter_), __VA_ARGS__)

#define KL_DEFER(...) KL_DEFER_INTERNAL2(__COUNTER__, __VA_ARGS__)
"%string.

(** boost/preprocessor/stringize.hpp, cat.hpp *)
Definition boost_text : string := "
#define BOOST_PP_STRINGIZE(text) BOOST_PP_STRINGIZE_I(text)
#define BOOST_PP_STRINGIZE_I(...) #__VA_ARGS__
#define BOOST_PP_CAT(a, b) BOOST_PP_CAT_I(a, b)
#define BOOST_PP_CAT_I(a, b) a ## b
"%string.

Definition boost_builtin : list (string * macro) :=
  [("BOOST_PP_DEC", Builtin B_dec); ("BOOST_PP_IF", Builtin B_if);
   ("BOOST_PP_REMOVE_PARENS", Builtin B_remove_parens); ("BOOST_PP_REPEAT", Builtin B_repeat);
   ("BOOST_PP_SEQ_ELEM", Builtin B_seq_elem); ("BOOST_PP_SEQ_SIZE", Builtin B_seq_size);
   ("BOOST_PP_TUPLE_ELEM", Builtin B_tuple_elem); ("BOOST_PP_TUPLE_ENUM", Builtin B_tuple_enum);
   ("BOOST_PP_TUPLE_POP_FRONT", Builtin B_tuple_pop_front);
   ("BOOST_PP_TUPLE_PUSH_BACK", Builtin B_tuple_push_back);
   ("BOOST_PP_TUPLE_SIZE", Builtin B_tuple_size);
   ("BOOST_PP_VARIADIC_TO_TUPLE", Builtin B_to_tuple); ("BOOST_PP_VARIADIC_TO_SEQ", Builtin B_to_seq)]%string.

Definition kl_macros : list (string * macro) :=
  Eval vm_compute in
    read_macros macros_hpp ++ read_macros reflect_enum_hpp ++ read_macros reflect_struct_hpp
    ++ read_macros defer_hpp ++ read_macros boost_text ++ boost_builtin.

Fixpoint assoc {A} (n : string) (l : list (string * A)) : option A :=
  match l with [] => None | (k, v) :: l' => if String.eqb n k then Some v else assoc n l' end.

(** The macros of the program besides those of kl, and BOOST_PP_LIMIT_TUPLE (64, 128 or 256). *)
Record penv := mkpenv { p_user : list (string * macro); p_tuple : nat }.

Definition lookup (E : penv) (n : string) : option macro :=
  match assoc n kl_macros with Some m => Some m | None => assoc n (p_user E) end.

(** * Expansion *)

Notation hs := (list string) (only parsing).
Notation ht := (tok * list string)%type (only parsing).

Definition mem (n : string) (h : hs) : bool := existsb (String.eqb n) h.
Definition inter (a b : hs) : hs := filter (fun n => mem n b) a.
Definition hsadd (h : hs) (ts : list ht) : list ht := map (fun t => (fst t, h ++ snd t)) ts.
Definition plain (ts : list tok) : list ht := map (fun t => (t, [])) ts.
Definition strip (ts : list ht) : list tok := map fst ts.

(** The arguments after a [(]: up to the matching [)], cut at commas outside parentheses. *)
Fixpoint collect (d : nat) (cur : list ht) (ts : list ht) : option (list (list ht) * hs * list ht) :=
  match ts with
  | [] => None
  | (RP, h) :: ts' =>
      match d with O => Some ([rev cur], h, ts') | S d' => collect d' ((RP, h) :: cur) ts' end
  | (LP, h) :: ts' => collect (S d) ((LP, h) :: cur) ts'
  | (Comma, h) :: ts' =>
      match d with
      | O =>
          match collect 0 [] ts' with
          | Some (args, h1, rest) => Some (rev cur :: args, h1, rest)
          | None => None
          end
      | S _ => collect d ((Comma, h) :: cur) ts'
      end
  | t :: ts' => collect d (t :: cur) ts'
  end.

Fixpoint commas (args : list (list ht)) : list ht :=
  match args with
  | [] => []
  | [a] => a
  | a :: args' => a ++ (Comma, []) :: commas args'
  end.

(** Parameters and arguments must match in number. *)
Fixpoint bind (ps : list string) (va : bool) (args : list (list ht)) : option (list (string * list ht)) :=
  match ps with
  | [] => if va then Some [("__VA_ARGS__"%string, commas args)]
          else match args with [] => Some [] | _ => None end
  | p :: ps' =>
      match args with
      | [] => None
      | a :: args' => match bind ps' va args' with Some l => Some ((p, a) :: l) | None => None end
      end
  end.

Fixpoint decimal_aux (fuel n : nat) (acc : string) : string :=
  match fuel with
  | O => acc
  | S f =>
      let acc := String (ascii_of_nat (48 + n mod 10)) acc in
      if n <? 10 then acc else decimal_aux f (n / 10) acc
  end.
Definition decimal (n : nat) : string := decimal_aux (S n) n EmptyString.

Definition glue_tok (a b : tok) : option tok :=
  match a, b with
  | Id x, Id y => Some (Id (x ++ y))
  | Id x, Num n => Some (Id (x ++ decimal n))
  | _, _ => None
  end.
(** [##]: the last token of [a] (which is reversed) and the first of [b]. *)
Definition glue (a b : list ht) : option (list ht) :=
  match a, b with
  | [], _ => Some (rev b)
  | _, [] => Some a
  | (x, h1) :: a', (y, h2) :: b' =>
      match glue_tok x y with Some z => Some (rev b' ++ (z, inter h1 h2) :: a') | None => None end
  end.

Definition or_tok (o : option (list ht)) (t : tok) : list ht := match o with Some a => a | None => [(t, [])] end.
Definition as_param {A} (l : list (string * A)) (t : tok) : option A := match t with Id p => assoc p l | _ => None end.

(** Replaces the parameters in the body; [raw] are the arguments, [ex] the expanded ones.
    The output is reversed. *)
Fixpoint subst (raw ex : list (string * list ht)) (body : list tok) (out : list ht) : option (list ht) :=
  match body with
  | [] => Some out
  | Op o :: body1 =>
      if String.eqb o "#" then
        match body1 with
        | t :: body2 =>
            match as_param raw t with
            | Some a => subst raw ex body2 ((Strz (strip a), []) :: out)
            | None => None
            end
        | [] => None
        end
      else if String.eqb o "##" then
        match body1 with
        | t :: body2 =>
            match glue out (or_tok (as_param raw t) t) with
            | Some out' => subst raw ex body2 out'
            | None => None
            end
        | [] => None
        end
      else subst raw ex body1 ((Op o, []) :: out)
  | t :: body1 =>
      let here := match body1 with Op o :: _ => if String.eqb o "##" then raw else ex | _ => ex end in
      subst raw ex body1 (rev (or_tok (as_param here t) t) ++ out)
  end.

(** * Boost.Preprocessor *)

(** The elements of a tuple, and what follows it. *)
Definition tuple (ts : list ht) : option (list (list ht) * list ht) :=
  match ts with
  | (LP, _) :: ts' => match collect 0 [] ts' with Some (args, _, rest) => Some (args, rest) | None => None end
  | _ => None
  end.
Definition whole_tuple (E : penv) (ts : list ht) : option (list (list ht)) :=
  match tuple ts with
  | Some (es, []) => if length es <=? p_tuple E then Some es else None
  | _ => None
  end.
Definition untuple (es : list (list ht)) : list ht := (LP, []) :: commas es ++ [(RP, [])].

(** The elements of a sequence; an element has no comma outside parentheses. *)
Fixpoint seq_aux (fuel : nat) (ts : list ht) : option (list (list ht)) :=
  match fuel, ts with
  | _, [] => Some []
  | O, _ => None
  | S f, _ =>
      match tuple ts with
      | Some ([e], rest) => match seq_aux f rest with Some es => Some (e :: es) | None => None end
      | _ => None
      end
  end.
Definition seq (ts : list ht) : option (list (list ht)) :=
  match seq_aux (length ts) ts with
  | Some es => if length es <=? 256 then Some es else None
  | None => None
  end.
Definition unseq (es : list (list ht)) : list ht := flat_map (fun e => (LP, []) :: e ++ [(RP, [])]) es.

Definition num (ts : list ht) : option nat := match ts with [(Num n, _)] => Some n | _ => None end.

(** BOOST_PP_REPEAT can be used in its own expansion, three levels deep. *)
Definition repeat_levels : list string := ["BOOST_PP_REPEAT_1"; "BOOST_PP_REPEAT_2"; "BOOST_PP_REPEAT_3"]%string.
Definition repeat_level (h : hs) : option string := find (fun r => negb (mem r h)) repeat_levels.

Definition repeat_call (m data : list ht) (i : nat) : list ht :=
  m ++ (LP, []) :: (Num 1, []) :: (Comma, []) :: (Num i, []) :: (Comma, []) :: data ++ [(RP, [])].

(** The text a macro of Boost stands for, and the name that is hidden in it. *)
Definition builtin_text (E : penv) (b : builtin) (n : string) (h : hs) (args : list (list ht))
  : option (list ht * string) :=
  match b, args with
  | B_dec, [a] => match num a with Some k => Some ([(Num (k - 1), [])], n) | None => None end
  | B_if, [c; t; e] => match num c with Some k => Some (if k =? 0 then e else t, n) | None => None end
  | B_remove_parens, [a] =>
      match a with
      | (LP, _) :: _ =>
          match tuple a with Some (es, rest) => Some (commas es ++ rest, n) | None => None end
      | _ => Some (a, n)
      end
  | B_repeat, [c; m; d] =>
      match num c, repeat_level h with
      | Some k, Some r => if k <=? 256 then Some (flat_map (repeat_call m d) (List.seq 0 k), r) else None
      | _, _ => None
      end
  | B_seq_elem, [i; s] =>
      match num i, seq s with
      | Some i, Some es => match nth_error es i with Some e => Some (e, n) | None => None end
      | _, _ => None
      end
  | B_seq_size, [s] => match seq s with Some es => Some ([(Num (length es), [])], n) | None => None end
  | B_tuple_elem, [i; s] =>
      match num i, whole_tuple E s with
      | Some i, Some es => match nth_error es i with Some e => Some (e, n) | None => None end
      | _, _ => None
      end
  | B_tuple_enum, [s] => match whole_tuple E s with Some es => Some (commas es, n) | None => None end
  | B_tuple_pop_front, [s] =>
      match whole_tuple E s with Some (_ :: e :: es) => Some (untuple (e :: es), n) | _ => None end
  | B_tuple_push_back, [s; e] =>
      match whole_tuple E s with
      | Some es => if length es <? p_tuple E then Some (untuple (es ++ [e]), n) else None
      | _ => None
      end
  | B_tuple_size, [s] => match whole_tuple E s with Some es => Some ([(Num (length es), [])], n) | None => None end
  | B_to_tuple, _ => if length args <=? p_tuple E then Some (untuple args, n) else None
  | B_to_seq, _ => if length args <=? p_tuple E then Some (unseq args, n) else None
  | _, _ => None
  end.

Fixpoint all {A} (l : list (option A)) : option (list A) :=
  match l with
  | [] => Some []
  | None :: _ => None
  | Some a :: l' => match all l' with Some r => Some (a :: r) | None => None end
  end.

(** [None]: the program is ill-formed (or, with little fuel, not finished). *)
Fixpoint expand (E : penv) (fuel : nat) (ts : list ht) : option (list ht) :=
  match fuel with
  | O => None
  | S f =>
      let keep t rest := match expand E f rest with Some r => Some (t :: r) | None => None end in
      match ts with
      | [] => Some []
      | (Id n, h) :: rest =>
          if mem n h then keep (Id n, h) rest
          else
            match lookup E n with
            | None => keep (Id n, h) rest
            | Some (Obj body) =>
                match subst [] [] body [] with
                | Some out => expand E f (hsadd (n :: h) (rev out) ++ rest)
                | None => None
                end
            | Some (Fun ps va body) =>
                match rest with
                | (LP, _) :: rest1 =>
                    match collect 0 [] rest1 with
                    | None => None
                    | Some (args, h1, rest2) =>
                        match bind ps va args with
                        | None => None
                        | Some raw =>
                            match all (map (expand E f) (map snd raw)) with
                            | None => None
                            | Some ex =>
                                match subst raw (combine (map fst raw) ex) body [] with
                                | None => None
                                | Some out => expand E f (hsadd (n :: inter h h1) (rev out) ++ rest2)
                                end
                            end
                        end
                    end
                | _ => keep (Id n, h) rest
                end
            | Some (Builtin b) =>
                match rest with
                | (LP, _) :: rest1 =>
                    match collect 0 [] rest1 with
                    | None => None
                    | Some (args, h1, rest2) =>
                        match all (map (expand E f) args) with
                        | None => None
                        | Some ex =>
                            match builtin_text E b n (inter h h1) ex with
                            | None => None
                            | Some (out, r) => expand E f (hsadd (r :: inter h h1) out ++ rest2)
                            end
                        end
                    end
                | _ => keep (Id n, h) rest
                end
            end
      | t :: rest => keep t rest
      end
  end.

(** The tokens that the compiler sees for a piece of source. *)
Definition preprocess (E : penv) (fuel : nat) (ts : list tok) : option (list tok) :=
  match expand E fuel (plain ts) with Some r => Some (strip r) | None => None end.
