(** What the macros of kl are documented to stand for
    (include/kl/reflect_enum.hpp:10-70, include/kl/reflect_struct.hpp:9-104), as lists of
    tokens. *)
From Coq Require Import String List Arith Bool.
From Verif Require Import PpModel.
Import ListNotations.
Local Open Scope list_scope.
Local Open Scope string_scope.

(** Tokens that can be one argument of a macro: parentheses match, commas are inside. *)
Fixpoint closed (d : nat) (ts : list tok) : bool :=
  match ts with
  | [] => Nat.eqb d 0
  | LP :: ts' => closed (S d) ts'
  | RP :: ts' => match d with O => false | S d' => closed d' ts' end
  | Comma :: ts' => negb (Nat.eqb d 0) && closed d ts'
  | _ :: ts' => closed d ts'
  end.

(** No token is the name of a macro. *)
Definition quiet (E : penv) (ts : list tok) : Prop := forall n, In (Id n) ts -> lookup E n = None.

Definition argument (E : penv) (ts : list tok) : Prop := ts <> [] /\ closed 0 ts = true /\ quiet E ts.

(** An argument that does not start with a parenthesis, as a name or a type. *)
Definition phrase (E : penv) (ts : list tok) : Prop := argument E ts /\ hd Comma ts <> LP.

(** The identifiers that the macros of kl write. *)
Definition words_of (ps : list string) (body : list tok) : list string :=
  flat_map (fun t => match t with Id n => if existsb (String.eqb n) ps then [] else [n] | _ => [] end) body.
Definition written : list string :=
  (flat_map (fun m =>
     match snd m with
     | Obj body => words_of [] body
     | Fun ps _ body => words_of ("__VA_ARGS__" :: ps) body
     | Builtin _ => []
     end) kl_macros)%list.

(** The program defines no macros with these names, and 64 elements fit into a tuple. *)
Definition ordinary (E : penv) : Prop :=
  (forall n, In n written -> n <> "__COUNTER__" -> assoc n (p_user E) = None) /\ (64 <= p_tuple E <= 256)%nat.

Fixpoint listed (vs : list (list tok)) : list tok :=
  match vs with
  | [] => []
  | [v] => v
  | v :: vs' => (v ++ Comma :: listed vs')%list
  end.
Definition call (m : string) (args : list (list tok)) : list tok := (Id m :: LP :: listed args ++ [RP])%list.
Definition paren (vs : list (list tok)) : list tok := (LP :: listed vs ++ [RP])%list.
(** [(a)(b)(c)] *)
Definition in_sequence (vs : list (list tok)) : list tok := (flat_map (fun v => LP :: v ++ [RP]) vs)%list.

(** * Enums *)

(** [A] or [(B, bb)] *)
Inductive enumerator := Plain (a : list tok) | Named (a b : list tok).
Definition enumerator_ok (E : penv) (e : enumerator) : Prop :=
  match e with Plain a => phrase E a | Named a b => phrase E a /\ argument E b end.
Definition written_as (e : enumerator) : list tok :=
  match e with Plain a => a | Named a b => paren [a; b] end.
Definition constant (e : enumerator) : list tok := match e with Plain a | Named a _ => a end.
Definition name_text (e : enumerator) : list tok := match e with Plain a => a | Named _ b => b end.

Definition pair_code (name : list tok) (e : enumerator) : list tok :=
  (Op "{" :: name ++ Op "::" :: constant e ++ [Comma; Strz (name_text e); Op "}"; Comma])%list.

Definition enum_code (name : string) (es : list enumerator) : list tok :=
  (tokens "namespace" ++ [Id ("kl_reflect_" ++ name)]
  ++ tokens "{ inline constexpr ::kl::enum_reflection_pair<" ++ [Id name]
  ++ tokens "> reflection_data[] = {" ++ flat_map (pair_code [Id name]) es ++ tokens "}; }"
  ++ tokens "[[maybe_unused]] constexpr auto reflect_enum(::kl::enum_class<" ++ [Id name]
  ++ tokens ">) noexcept { return ::kl::enum_reflection_view{" ++ [Id ("kl_reflect_" ++ name)]
  ++ tokens "::reflection_data}; }"
  ++ tokens "[[maybe_unused]] constexpr auto reflect_enum_unknown_name(::kl::enum_class<" ++ [Id name]
  ++ tokens ">) noexcept { return" ++ [Lit "unknown <"; Strz [Id name]; Lit ">"] ++ tokens "; }")%list.

(** * Structs *)

(** [member] or [(member, attributes...)] *)
Definition field := (list tok * list (list tok))%type.
Definition field_ok (E : penv) (f : field) : Prop :=
  phrase E (fst f) /\ Forall (argument E) (snd f) /\ length (snd f) < 64.
(** A field without attributes can be in parentheses, too. *)
Inductive field_source : field -> list tok -> Prop :=
| source_plain : forall m, field_source (m, []) m
| source_tuple : forall m attrs, field_source (m, attrs) (paren (m :: attrs)).

(** One base, or several in parentheses. *)
Inductive bases_source (E : penv) : list (list tok) -> list tok -> Prop :=
| source_base : forall b, phrase E b -> bases_source E [b] b
| source_bases : forall bs, bs <> [] -> Forall (argument E) bs -> bases_source E bs (paren bs).

Definition attribute_code (a : list tok) : list tok := (tokens ", [] { return" ++ a ++ tokens "; }")%list.
Definition member_code (type : list tok) (f : field) : list tok :=
  (tokens "vis(factory.template field<&" ++ type ++ tokens "::" ++ fst f ++ tokens ">("
   ++ [Strz (fst f)] ++ flat_map attribute_code (snd f) ++ tokens "));")%list.
Definition base_code (b : list tok) : list tok :=
  (tokens "reflect_struct_fields(factory, vis, ::kl::ctti::record<" ++ b ++ tokens ">);")%list.
Definition base_count_code (b : list tok) : list tok :=
  (tokens "reflect_num_fields(::kl::ctti::record<" ++ b ++ tokens ">) +")%list.

Definition struct_code (decl type : list tok) (visits count : list tok) : list tok :=
  (tokens "template <typename Factory, typename Visitor>" ++ decl
   ++ tokens "constexpr void reflect_struct_fields(Factory&& factory, Visitor&& vis, ::kl::ctti::record_class<"
   ++ type ++ tokens ">) {" ++ visits ++ tokens "}" ++ decl
   ++ tokens "constexpr std::size_t reflect_num_fields(::kl::ctti::record_class<" ++ type
   ++ tokens ">) noexcept { return" ++ count ++ tokens "; }")%list.

Definition plain_struct_code (decl type : list tok) (fs : list field) : list tok :=
  struct_code decl type (flat_map (member_code type) fs) [Num (length fs)].
Definition derived_struct_code (decl type : list tok) (bases : list (list tok)) (fs : list field) : list tok :=
  struct_code decl type (flat_map base_code bases ++ flat_map (member_code type) fs)%list
    (Num (length fs) :: Op "+" :: flat_map base_count_code bases ++ [Num 0])%list.

Definition at_namespace : list tok := tokens "[[maybe_unused]]".
Definition as_friend : list tok := tokens "friend".

(** * Others *)

Definition accessor_named_code (name e : list tok) : list tok :=
  (tokens "factory.accessor(" ++ name ++ tokens ", [](auto& object) -> decltype(auto) { return (" ++ e ++ tokens "); })")%list.
Definition accessor_code (m : list tok) : list tok :=
  accessor_named_code [Strz m] (Id "object" :: Op "." :: m).

Definition defer_code (k : nat) (action : list tok) : list tok :=
  let fn := [Id ("kl_defer_func" ++ decimal k)] in
  (tokens "auto" ++ fn ++ tokens "= [&]() {" ++ action ++ tokens "; }; kl::detail::scope_exit_t<decltype("
   ++ fn ++ tokens ")>" ++ [Id ("kl_defer_instance" ++ decimal k)] ++ tokens "(" ++ fn ++ tokens ");")%list.

(** [ts] is expanded to [out]: with all fuel from some amount on. *)
Definition expands_to (E : penv) (ts out : list tok) : Prop :=
  exists n, forall m, n <= m -> preprocess E m ts = Some out.
