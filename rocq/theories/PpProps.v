(** The macros of kl stand for the code that their headers document (C120-C122). *)
From Coq Require Import String List Arith.
From Verif Require Import PpModel PpSpec PpEnumProofs PpCallProofs PpOtherProofs PpSamples PpFindingProofs.
Import ListNotations.
Local Open Scope list_scope.
Local Open Scope string_scope.

(** * Enums (C120) *)

Theorem enum_macro_expands : forall E name es,
  ordinary E -> lookup E name = None -> lookup E ("kl_reflect_" ++ name) = None ->
  Forall (enumerator_ok E) es -> es <> [] -> length es <= p_tuple E ->
  expands_to E (call "KL_REFLECT_ENUM" ([Id name] :: map written_as es)) (enum_code name es).
Proof. exact enum_expands. Qed.
Print Assumptions enum_macro_expands.

Theorem enum_seq_macro_expands : forall E name es,
  ordinary E -> lookup E name = None -> lookup E ("kl_reflect_" ++ name) = None ->
  Forall (enumerator_ok E) es -> es <> [] -> length es <= 256 ->
  expands_to E (call "KL_REFLECT_ENUM_SEQ" [[Id name]; in_sequence (map written_as es)]) (enum_code name es).
Proof. exact enum_seq_expands. Qed.
Print Assumptions enum_seq_macro_expands.

(** A call has one expansion only. *)
Theorem macro_expansion_unique : forall E ts a b, expands_to E ts a -> expands_to E ts b -> a = b.
Proof. exact expansion_unique. Qed.
Print Assumptions macro_expansion_unique.

(** The call that reflect_enum.hpp:63 shows is ill-formed. *)
Theorem documented_sequence_refuted : exists E ts, ordinary E /\ ts = tokens "KL_REFLECT_ENUM_SEQ(enum_, (A)(B, bb)(C))" /\
  forall out, ~ expands_to E ts out.
Proof. exists bare, documented_sequence. split; [split; [reflexivity | cbn; repeat constructor] | split; [reflexivity | exact sequence_never]]. Qed.
Print Assumptions documented_sequence_refuted.

(** A name for the texts that is a macro is replaced. *)
Theorem macro_name_kept_refuted : exists E name es, ordinary E /\ lookup E name = None /\
  expands_to E (call "KL_REFLECT_ENUM" ([Id name] :: map written_as es))
    (enum_code "os" [Named [Id "lin"] [Num 1]]) /\ es = [Named [Id "lin"] [Id "linux"]].
Proof.
  exists unix, "os", [Named [Id "lin"] [Id "linux"]].
  split; [split; [|cbn; repeat constructor] | split; [reflexivity | split; [exact alias_replaced | reflexivity]]].
  intros n I _. destruct (String.eqb_spec n "linux") as [-> | N]; [|cbn; destruct (String.eqb_spec n "linux"); [contradiction | reflexivity]].
  exfalso. revert I. vm_compute. intros I. repeat (destruct I as [I | I]; [discriminate|]). exact I.
Qed.
Print Assumptions macro_name_kept_refuted.

Example documented_enum_call :
  tokens "KL_REFLECT_ENUM(enum_, A, (B, bb), C)" = call "KL_REFLECT_ENUM" ([Id "enum_"] :: map written_as documented_enum).
Proof. reflexivity. Qed.

Example documented_enum_expands :
  expands_to bare (tokens "KL_REFLECT_ENUM(enum_, A, (B, bb), C)") (enum_code "enum_" documented_enum).
Proof.
  apply (enum_macro_expands bare "enum_" documented_enum); try reflexivity; try discriminate.
  - split; [reflexivity | cbn; repeat constructor].
  - repeat constructor; try discriminate; intros n I; repeat (destruct I as [I | I]; [injection I as <-; reflexivity|]); destruct I.
  - cbn. repeat constructor.
Qed.

Example documented_enum_text :
  enum_code "enum_" [Plain [Id "A"]] =
  (tokens "namespace kl_reflect_enum_ { inline constexpr ::kl::enum_reflection_pair<enum_> reflection_data[] = { {enum_::A,"
  ++ [Strz [Id "A"]] ++ tokens "}, }; }"
  ++ tokens "[[maybe_unused]] constexpr auto reflect_enum(::kl::enum_class<enum_>) noexcept { return ::kl::enum_reflection_view{kl_reflect_enum_::reflection_data}; }"
  ++ tokens "[[maybe_unused]] constexpr auto reflect_enum_unknown_name(::kl::enum_class<enum_>) noexcept { return"
  ++ [Lit "unknown <"; Strz [Id "enum_"]; Lit ">"] ++ tokens "; }")%list.
Proof. vm_compute. reflexivity. Qed.

(** * Structs (C121) *)

Theorem struct_macro_expands : forall E type fs srcs, ordinary E -> phrase E type ->
  Forall (field_ok E) fs -> Forall2 field_source fs srcs -> fs <> [] -> length fs <= p_tuple E ->
  expands_to E (call "KL_REFLECT_STRUCT" (type :: srcs)) (plain_struct_code at_namespace type fs).
Proof. exact struct_expands. Qed.
Print Assumptions struct_macro_expands.

Theorem struct_friend_macro_expands : forall E type fs srcs, ordinary E -> phrase E type ->
  Forall (field_ok E) fs -> Forall2 field_source fs srcs -> fs <> [] -> length fs <= p_tuple E ->
  expands_to E (call "KL_REFLECT_STRUCT_FRIEND" (type :: srcs)) (plain_struct_code as_friend type fs).
Proof. exact friend_expands. Qed.
Print Assumptions struct_friend_macro_expands.

Theorem derived_macro_expands : forall E type bases base_src fs srcs, ordinary E -> phrase E type ->
  bases_source E bases base_src -> length bases <= p_tuple E ->
  Forall (field_ok E) fs -> Forall2 field_source fs srcs -> fs <> [] -> length fs <= p_tuple E ->
  expands_to E (call "KL_REFLECT_STRUCT_DERIVED" (type :: base_src :: srcs)) (derived_struct_code at_namespace type bases fs).
Proof. exact derived_expands. Qed.
Print Assumptions derived_macro_expands.

Theorem derived_friend_macro_expands : forall E type bases base_src fs srcs, ordinary E -> phrase E type ->
  bases_source E bases base_src -> length bases <= p_tuple E ->
  Forall (field_ok E) fs -> Forall2 field_source fs srcs -> fs <> [] -> length fs <= p_tuple E ->
  expands_to E (call "KL_REFLECT_STRUCT_DERIVED_FRIEND" (type :: base_src :: srcs)) (derived_struct_code as_friend type bases fs).
Proof. exact derived_friend_expands. Qed.
Print Assumptions derived_friend_macro_expands.

(** An attribute with a comma that is not in parentheses is cut into two. *)
Theorem attribute_whole_refuted : exists E type f out, ordinary E /\ type = [Id "A"] /\
  f = ([Id "i"], [tokens "range{1, 2}"]) /\
  expands_to E (call "KL_REFLECT_STRUCT" [type; paren (fst f :: snd f)]) out /\
  out <> plain_struct_code at_namespace type [f].
Proof.
  exists bare, [Id "A"], range_field. eexists.
  split; [split; [reflexivity | cbn; repeat constructor] | split; [reflexivity | split; [reflexivity | split; [exact attribute_split |]]]].
  vm_compute. discriminate.
Qed.
Print Assumptions attribute_whole_refuted.

Example documented_struct :
  plain_struct_code [] [Id "A"] [([Id "i"], []); ([Id "b"], []); ([Id "d"], [])] =
  (tokens "template <typename Factory, typename Visitor> constexpr void reflect_struct_fields(Factory&& factory, Visitor&& vis, ::kl::ctti::record_class<A>) {"
  ++ tokens "vis(factory.template field<&A::i>(" ++ [Strz [Id "i"]] ++ tokens "));"
  ++ tokens "vis(factory.template field<&A::b>(" ++ [Strz [Id "b"]] ++ tokens "));"
  ++ tokens "vis(factory.template field<&A::d>(" ++ [Strz [Id "d"]] ++ tokens ")); }"
  ++ tokens "constexpr std::size_t reflect_num_fields(::kl::ctti::record_class<A>) noexcept { return 3; }")%list.
Proof. vm_compute. reflexivity. Qed.

Example documented_derived :
  derived_struct_code [] [Id "B"] [[Id "A"]] [([Id "str"], [])] =
  (tokens "template <typename Factory, typename Visitor> constexpr void reflect_struct_fields(Factory&& factory, Visitor&& vis, ::kl::ctti::record_class<B>) {"
  ++ tokens "reflect_struct_fields(factory, vis, ::kl::ctti::record<A>);"
  ++ tokens "vis(factory.template field<&B::str>(" ++ [Strz [Id "str"]] ++ tokens ")); }"
  ++ tokens "constexpr std::size_t reflect_num_fields(::kl::ctti::record_class<B>) noexcept { return 1 + reflect_num_fields(::kl::ctti::record<A>) + 0; }")%list.
Proof. vm_compute. reflexivity. Qed.

Example derived_with_attributes :
  expands_to bare (tokens "KL_REFLECT_STRUCT_DERIVED(B, (P, Q), (a, key(1, 2), opt), b)")
    (derived_struct_code at_namespace [Id "B"] [[Id "P"]; [Id "Q"]]
       [([Id "a"], [tokens "key(1, 2)"; [Id "opt"]]); ([Id "b"], [])]).
Proof.
  apply (derived_macro_expands bare [Id "B"] [[Id "P"]; [Id "Q"]] (tokens "(P, Q)")
           [([Id "a"], [tokens "key(1, 2)"; [Id "opt"]]); ([Id "b"], [])] [tokens "(a, key(1, 2), opt)"; [Id "b"]]);
    try discriminate.
  all: try (split; [reflexivity | cbn; repeat constructor]; fail).
  - repeat split; try discriminate. intros n I; repeat (destruct I as [I | I]; [injection I as <-; reflexivity|]); destruct I.
  - apply (source_bases bare [[Id "P"]; [Id "Q"]]); [discriminate|].
    repeat constructor; try discriminate; intros n I; repeat (destruct I as [I | I]; [injection I as <-; reflexivity|]); destruct I.
  - cbn. repeat constructor.
  - set (k := tokens "key(1, 2)"). vm_compute in k. subst k.
    repeat constructor; try discriminate; intros n I;
      repeat (destruct I as [I | I]; [try discriminate; injection I as <-; reflexivity|]); destruct I.
  - constructor; [apply (source_tuple [Id "a"] [tokens "key(1, 2)"; [Id "opt"]])|]. constructor; [apply source_plain | constructor].
  - cbn. repeat constructor.
Qed.

(** * Others (C122) *)

Theorem accessor_macro_expands : forall E m, ordinary E -> argument E m ->
  expands_to E (call "KL_ACCESSOR_FIELD" [m]) (accessor_code m).
Proof. exact accessor_expands. Qed.
Print Assumptions accessor_macro_expands.

Theorem accessor_named_macro_expands : forall E name e, ordinary E -> argument E name -> argument E e ->
  expands_to E (call "KL_ACCESSOR_FIELD_NAMED" [name; e]) (accessor_named_code name e).
Proof. exact accessor_named_expands. Qed.
Print Assumptions accessor_named_macro_expands.

Example accessor_call :
  expands_to bare (tokens "KL_ACCESSOR_FIELD(size)") (accessor_code [Id "size"]).
Proof.
  apply (accessor_macro_expands bare [Id "size"]).
  - split; [reflexivity | cbn; repeat constructor].
  - repeat split; try discriminate. intros n I; repeat (destruct I as [I | I]; [injection I as <-; reflexivity|]); destruct I.
Qed.

Example accessor_text :
  accessor_code [Id "size"] =
  (tokens "factory.accessor(" ++ [Strz [Id "size"]] ++ tokens ", [](auto& object) -> decltype(auto) { return (object.size); })")%list.
Proof. vm_compute. reflexivity. Qed.

Theorem defer_macro_expands : forall E k actions, ordinary E -> assoc "__COUNTER__" (p_user E) = Some (Obj [Num k]) ->
  lookup E ("kl_defer_func" ++ decimal k) = None -> lookup E ("kl_defer_instance" ++ decimal k) = None ->
  actions <> [] -> Forall (argument E) actions ->
  expands_to E (call "KL_DEFER" actions) (defer_code k (listed actions)).
Proof. exact defer_expands. Qed.
Print Assumptions defer_macro_expands.

(** Two calls declare different names as long as __COUNTER__ differs. *)
Theorem defer_names_differ : forall a b prefix, a <> b -> (prefix ++ decimal a)%string <> (prefix ++ decimal b)%string.
Proof. intros a b prefix N H. exact (N (defer_names_distinct prefix a b H)). Qed.
Print Assumptions defer_names_differ.

Example defer_call :
  expands_to counting (tokens "KL_DEFER(f(a, b), g())") (defer_code 7 (tokens "f(a, b), g()")).
Proof.
  apply (defer_macro_expands counting 7 [tokens "f(a, b)"; tokens "g()"]); try reflexivity; try discriminate.
  - split; [|cbn; repeat constructor]. intros n _ N. cbn. destruct (String.eqb_spec n "__COUNTER__"); [contradiction | reflexivity].
  - set (k := tokens "f(a, b)"). vm_compute in k. subst k. set (k := tokens "g()"). vm_compute in k. subst k.
    repeat constructor; try discriminate; intros n I;
      repeat (destruct I as [I | I]; [try discriminate; injection I as <-; reflexivity|]); destruct I.
Qed.

Example defer_text :
  defer_code 7 (tokens "f()") =
  tokens "auto kl_defer_func7 = [&]() { f(); }; kl::detail::scope_exit_t<decltype(kl_defer_func7)> kl_defer_instance7(kl_defer_func7);".
Proof. vm_compute. reflexivity. Qed.
