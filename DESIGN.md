# Formal model of kl: design

Source: `/repo` (k0zmo/kl, pinned commit), read as text only. Model and proofs: `/verif/rocq` (Coq 8.16.1).

## Layout

Every area `X` has up to four files in `rocq/theories`:

* `XModel.v`  – executable Gallina transcription of the C++ code. Each definition cites file and lines. No proofs.
* `XSpec.v`   – the small independent vocabulary in which the properties are stated. It does not use the model's helpers.
* `XProofs.v` – lemmas.
* `XProps.v`  – the property theorems only, each closed by `exact`, each followed by `Print Assumptions`,
  plus concrete non-trivial examples meeting the hypotheses. Long samples are in `XSamples.v`.

Larger areas have several specification, proof and property files (`SerialDocSpec.v`, `ResourceAnswerSpec.v`, ...).
`Base.v` has the outcomes shared by all models.

Theorems named `..._refuted` exhibit, inside the faithful model, a counterexample to a property a user would
reasonably expect; they record findings about the code. Theorems named `..._partial` prove less than the property.

## Conventions

* A byte / `char` is an `N` (or `Z`) below 256; where C++ integer widths matter the model masks explicitly.
* Undefined behaviour, assertion failure, escaping exceptions and normal results are different outcomes.
* Container libraries (std::string, vector, map, set, optional, variant, shared_ptr, atomics, mutex), RapidJSON,
  yaml-cpp and system calls are modelled by their documented behaviour; this is part of the trusted base.

## Properties

| ID | What is modelled | How it is proved |
|----|------------------|------------------|
| C01-C05 | `base64.cpp` encode/decode loops with explicit output buffer cursor | induction on 3-byte/4-char groups; finite sweep over the 256-entry tables; RFC 4648 bit-level spec |
| C06-C10 | `path.cpp`, `path.hpp` with text + (offset,length) segments | invariant "text is the join of segments" over the parse loop; refinement to a split-based spec |
| C11-C12 | `modification_tracker` with two string-keyed maps | refinement to the log of notifications by induction on histories |
| C13-C19, C62, C80-C82 | `binary_rw.hpp` and `binary_rw/*.hpp` over a universe of nested types | structural induction over types; cursor invariants; C80: the reader accepts exactly a relation `wire` |
| C20-C29, C71-C74 | `signal.hpp`: heap of slots, intrusive list, ref counts, emissions as small-step programs of many threads | inductive invariants over all reachable states; refinement to an ideal machine; counterexample traces for the expected failures |
| C114 | the same machine with the accesses of every step (`SignalRaceModel.v`) | happens-before as the standard defines it over the record; one invariant relating memory to positions in the record, preserved by every step |
| C30-C38, C75-C77, C84-C87 | `detail/serialization.hpp`, `json.hpp`, `yaml.hpp`, `serialization_attributes.hpp` over a universe of type descriptions with attributes, for both backends | mutual induction over type descriptions; C84-C87: relations for documents, reading and patching that use no helper of the model |
| C93-C98 | the scalars of yaml-cpp (`ScalarModel.v`), and the two backends side by side | numerals as digit lists with weights, uniqueness by induction from the last digit; simulation of every reading loop |
| C99-C101 | the messages of `deserialize_error` (`SerialMsgModel.v`: the reading functions once more, with the report) | erasure to the plain functions; an inductive relation `blame` for right reports, by induction over types |
| C102-C105 | `ctti.hpp`, `reflect_struct.hpp`: classes with bases, subobjects, attribute lists | induction over class trees; pointer conversion as search among subobjects, proved equal to the inductive definition |
| C106-C107 | the attribute helpers and name checks of `detail/serialization.hpp` over attribute lists (`AttrModel.v`) | refinement to the record of attributes `SerialModel` uses; the buffer of names as a list without duplicates |
| C108-C109 | conversions between `float`, `double` and integers (`FloatModel.v`, with `SpecFloat` of the standard library), the validators with limits (`RangeModel.v`) | amounts as integers in units of 2^-1074; rounding proved nearest among all bit patterns |
| C110-C111 | the builders and extractors of `json.hpp` and `yaml.hpp` (`BuildModel.v`), names as views of memory | induction over the calls, against serialize and deserialize of the equivalent tuple or struct |
| C115-C117 | the text of `dump` and `parse` of `json.hpp` (`JtextModel.v`): RapidJSON's `Writer`, `PrettyWriter` and `Reader` byte by byte, doubles and numerals with fractions left open | the grammar of RFC 8259 as an inductive relation; reader sound and complete for it, writer inside it |
| C118, C119 | the numbers `parse` reads as doubles (`JnumModel.v`): RapidJSON's `ParseNumber` and `StrtodNormalPrecision` with IEEE arithmetic | rounding of products and quotients of doubles proved against the exact rational number |
| C113 | the choice of functions in `serialization.hpp` for customized types (`CustomModel.v`) | the library as combinators over the functions of the components; induction over types |
| C39-C47, C78-C79, C88-C89 | `resource_op.hpp`, `resource.hpp` on top of the same universe | case analysis of the verbs, invariants over histories of operations; C88: one relation per method for answer, object and announcement |
| C48 | `enum_reflector.hpp` | list lemmas, strictly sorted tables |
| C49 | `enum_set.hpp` | bitwise extensionality on N |
| C50-C52, C63-C64, C90-C92 | `enum_range.hpp`, `enum_traits.hpp`, `iterator_facade.hpp` | induction on iteration; sweep over the integer types, lia over their values; counterexamples |
| C53-C54 | `hash.hpp` | fold lemmas, exact values for all bytes (pairs of bytes by a sweep), counterexamples |
| C55, C65 | `split.hpp` | induction on the text |
| C56, C66 | `stream_join.hpp` | induction on the sequence |
| C57 | `zip.hpp`, `tuple.hpp` | induction on iteration over a family of iterators |
| C58-C59, C67, C112 | `exception_info.hpp` with a heap of shared nodes; the descriptions (`DiagModel.v`) over a stream that can go bad | simulation by an association list; counterexample for copies; the lines as a list, cut again at the ends of lines |
| C60, C68-C70, C83 | `file_view_unix.cpp`, `file_view_win32.cpp` with an oracle for system calls | case analysis over call outcomes |
| C61 | `defer.hpp` as scopes of a small statement language | induction over statements |
| C51, C52, C62, C64-C66, C69, C70, C98 once more (`EdgeProps.v`) | nothing new: claims that are false of the code | what the code does instead, for every input: cases over the integer types, the relation `cut`, structural induction over the types read |
| C120-C122 | the macros of `detail/macros.hpp`, `reflect_enum.hpp`, `reflect_struct.hpp`, `defer.hpp` (`PpModel.v`): the headers verbatim as text, read and expanded by the preprocessor's algorithm with hide sets | relational rules for runs of the expander, one lemma per macro; loops of BOOST_PP_REPEAT by induction; expected code written as token lists |
| C123-C126 | the class templates of `meta.hpp`, `type_traits.hpp`, `utility.hpp` (`TmplModel.v`): templates as data, deduction, partial ordering, instantiation | derived rules of instantiation; induction over lists of types and over fuel, for every program around them |
| C127-C128 | overload resolution (`OverModel.v`): deduction, conversion sequences, ranking, partial ordering; `match.hpp` and `range.hpp` on top | "better" proved asymmetric, hence the winner unique and independent of order; case analysis of conversions |
| C129-C130, C162, C165 | choice of overload by type (`PickModel.v`): concepts, conversion sequences, ranking; `json.hpp`, `yaml.hpp`, `detail/serialization.hpp`, `detail/concepts.hpp` | induction on the size of types; inductive relation of what types stand for, sound and (without conversions and bases) complete |
| C131-C132 | arguments of emissions (`PassModel.v`): objects as cells, value categories, copies and moves through `operator()`, `std::function` and the lambdas of `connect` | refinement of a semantics without copies and moves; induction on trees of signals; private cells framed |
| C133-C134 | functions of slots that own connections (`CaptModel.v`): counts, lists, mutexes; the destructor of a function disconnects what it owns | invariant of counts with pending references, by induction on fuel and on lists of owned connections; monotone changes under a held mutex; fuel proved sufficient |
| C135-C137 | `throw_with_info`, `get_exception_info`, `exception_diagnostic_info` (`ThrowModel.v`): classes as trees of bases, subobjects as places, handlers, `dynamic_cast` | inductive relation of parts against the computed list of subobjects; case analysis of the parts of the thrown class |
| C138 | `yaml::view` as a target (`YviewModel.v`): nodes, what they refer to, assignment of `YAML::Node` | frame of the nodes whose reference changes, by induction on types; reading depends only on reachable nodes; relations between documents and objects (`made`, `fits`) that say exactly what a new object is and when there is an exception |
| C139-C140 | handles of slots as values (`HandModel.v`): memory with addresses that are used again, reference and block counts, connections, scoped connections, blockers, signals | invariant of counts and owners over all programs; refinement to a world of names without memory |
| C141-C142 | lifetimes of JSON trees (`LifeModel.v`): regions, texts copied, short or pointed to, builders, views, parsed documents, results that borrow | exact sets of regions by induction on objects, values and types; reading is defined exactly while they live |
| C143-C144 | lookup of enum operators (`NsModel.v`): namespaces, using-declarations, using-directives, argument dependent lookup, overload resolution beside the stream operators of `binary_rw.hpp` | lookup proved equal to a relation on nested namespaces; exact conditions for each outcome; counterexamples |
| C145-C146 | accessor fields (`AccModel.v`): places in an object, computed fields, reading, patching and writing through them | refinement of the plain struct of `SerialModel.v`; invariant over overlapping places; counterexamples |
| C147-C150 | `resource_op.hpp` with validators that are any functions of value and state, and the texts of its answers (`HookModel.v`) | refinement of the verbs of `ResourceModel.v` when nothing is modified; frame and invariant for validators of single values; counterexamples |
| C151-C156 | `binary_rw.hpp` and `binary_rw/*.hpp` with user types whose `read_binary` and `write_binary` are any code (`AdaptModel.v`) | user code as a tree of calls; mutual induction over types and code; agreement with `BinModel.v` |
| C157 | the calls on RapidJSON's writer up to an exception (`JtextModel.v`) | invariant on the writer's levels; induction over types |
| C158-C161 | `priority_tag`, `validate_resource`, `resource_key_matches` (`DispModel.v`): member lookup, argument dependent lookup, conversions, overload resolution | the best candidate as a unique winner; case analysis over kinds of parameters |
| C163-C164 | `iterator_facade.hpp` over any derived class (`FacadeModel.v`): iterator objects and what references refer to, static assertions, `arrow_proxy` | simulation of programs on positions; exact conditions for compiling; counterexamples |
| C166 | which types can be streamed (`StrmModel.v`): overloads of `write_binary` and `read_binary`, `operator<<`, `operator>>`; `binary_rw.hpp`, `binary_rw/*.hpp` | induction on types; inductive relations of where `vector<bool>` and repeated alternatives occur |
| C167 | includes, definitions in headers, libraries (`LinkModel.v`): all of `include/kl` and `src`, by file | worklist invariant with a measure of unread lines; case analysis of platforms and libraries |
| C168 | the object that `deserialize<T>` makes (`InitModel.v`): `json.hpp:881-899`, `yaml.hpp:689-707`, `serialization.hpp:215-223` | relation of objects equal but for parts always read, by induction over types |
| C169 | keys of `extra_fields` maps and the strings they are made from (`XkeyModel.v`): `detail/serialization.hpp:117-135`, `917-950`, `1144-1185` | induction over the members; which keys a container compares with is a parameter |
| C170 | reading at a path through accessors that return by value (`CgetModel.v`): `resource_op.hpp:506-683`, `848-862` | induction over types; relation of where paths lead, with a mark of elements taken from temporaries |
| C171 | `current_connection`, asked for in slots, outside, in destructors of functions and after exceptions (`CurModel.v`): `signal.hpp:33-38`, `587-650`, `726-786`, `837-859`, `877-886` | invariant of runs: the current slot is listed in a signal that emits; induction over the slots removed |
| C172 | Resource requests in which something throws (`FailModel.v`): `resource_op.hpp:394-457`, `717-845`, `868-1072`, `resource.hpp:23-47`, `89-103`; what is read, compared and validated are parameters | case analysis of every failing step; induction over the nodes marked |
| C173 | `bool` in binary streams (`FlagModel.v`): `BinModel.v` with the places of `bool` marked and the moves of the adapters in `binary_rw/*.hpp` | simulation of `BinModel.v`; for every exposed type, an input built by induction over the type |
| C174 | objects as bytes (`CastModel.v`): `bit_cast`, raw objects in binary streams, with the layout of structures | each byte classified by induction over the type; both directions of the condition for casting there and back |
| C175 | lifetimes of views (`DangModel.v`): `range`, `stream_join`, `zipped`, `enumerated` in programs with temporaries of C++17 | invariant over programs: variables refer to older objects that are alive; exact conditions for one loop and one variable after it |
| C176 | `path.cpp` together with `visit_node` and `post` (`PathModel.v`, `ResourceModel.v`; no new model) | a text built for every list of segments; length argument for texts read again; two ways to the same place end in the same name |
| C177 | the casts to enums in `enum_traits.hpp`, `enum_set.hpp`, `enum_range.hpp`, `enum_reflector.hpp` and `serialization.hpp`, for enums without a fixed underlying type (`UnfModel.v`) | the values as the numbers whose higher bits are 0 or -1; comparison of powers of two; pigeonhole for the reflected enumerators |
| C178 | `path.cpp` with capacities and requests for memory that may be refused (`PmemModel.v`) | the decoded text with its separator is no longer than the text read so far; simulation of `PathModel.v` piece by piece |
| C179 | `path.cpp` on one buffer that is read and written (`SelfModel.v`) | invariant: what is written, with separator and null character, ends before what is still to be read; simulation of `PathModel.v` |
| C180 | the implicit moves of `path` (`PmovModel.v`) | member by member, with the vector's behaviour as a parameter; offsets of later segments are positive |

`MANIFEST.json` lists the theorems of each property; `seeded/LOG.jsonl` lists wrong programs tried against them.
`theorems_failed` there are the theorems whose proofs no longer go through after the edit, directly or by a lemma they use. That is weaker than their being false of the
edited program: a proof script can also break on the shape of a definition. Where an edit is known to be harmless, the entry says so; this was not examined for every
entry. Entries with the note `inconclusive` are attempts whose rebuild gave no answer. Empty lists without that note are edits that no theorem noticed.

## Trusted base

* Coq's kernel (8.16.1).
* `Print Assumptions` answers "Closed under the global context" for every theorem in every `*Props.v`: no axiom of
  the standard library or of any other library is used. (Seven opaque constants of `Coq.ssr.ssrunder` are loaded with
  `ssreflect` by the standard library; no theorem depends on them.)
* The manual transcription of C++ into Gallina. Each definition cites its source lines and its comment states what
  was simplified.
* The documented behaviour of what the code calls: std containers, `std::from_chars`, `optional`, `variant`,
  `shared_ptr`, atomics, `std::mutex`, RapidJSON's `Document`/`Writer`/`Reader` (cci.20250205, default flags; transcribed from memory of its source for C115-C119), Boost.Preprocessor (its documentation, C120-C122), yaml-cpp's `Node` and `convert` (0.7 or later), POSIX and Win32 calls.
* The specifications themselves: they were kept short and free of the model's helpers.

## Modelled and not modelled

| File | Modelled | Not modelled |
|------|----------|--------------|
| `src/base64.cpp` | all | allocation failure |
| `path.hpp`, `src/path.cpp` | all; capacities and refused memory in `set` (`PmemModel.v`); `set` with a view of the path itself (`SelfModel.v`, for strings that keep their buffer); implicit moves (`PmovModel.v`) | move assignment of a path to itself |
| `resource.hpp` | `modification_tracker`, `resource` | `std::map` order (not observable) |
| `binary_rw.hpp`, `binary_rw/*` | reader, writer, all adapters over nested types; 64-bit `size_t` wraps; user types that stream their members (`TRec`), user code of any kind, exceptions it throws (`AdaptModel.v`); which types compile (`StrmModel.v`); raw objects with padding, `bit_cast` (`CastModel.v`) | allocation failure, moves that throw |
| `signal.hpp` | signals, connections, blockers, `scoped_connection`, emission, disconnect, swap, move, destruction; any number of threads | objects behind member functions, what happens between threads when functions own connections (C133-C134 are for one thread), stale values of atomics (a load sees the latest store of the interleaving; memory orders count for C114 only), steps inside one region under the mutex |
| `detail/serialization.hpp`, `json.hpp`, `src/json.cpp`, `serialization_attributes.hpp` | serialize, dump, deserialize, patch of bool, integers, floats, strings, enums, `enum_set`, optional, sequences, arrays, tuples, maps, reflected structs with all field attributes; `to_array`, `to_object`, `from_array`, `from_object`; user `serializer<T>` and ADL overloads (fields around them without attributes); the texts of `dump`, `pretty_dump`, `parse` | the digits of doubles, which of its members `json::view` gives (lifetimes: C141, C142), stack depth of `parse`, messages of other exceptions, allocators, map keys other than strings |
| `yaml.hpp`, `src/yaml.cpp` | the same functions; the conversions of yaml-cpp between text and bool, integers | non-scalar map keys, nodes that contain themselves, undefined nodes, plain `char`, the text of floats (left open), emitter and parser |
| `resource_op.hpp`, `resource_attributes.hpp` | all verbs on the same types; validators with state, or that modify their part, and the texts of answers (`HookModel.v`); which validators and key comparisons are called (`DispModel.v`) | list sequences, accessor fields in verbs other than `get` (`CgetModel.v`), validators that reallocate a container while a rollback refers into it |
| `enum_reflector.hpp`, `enum_set.hpp`, `enum_traits.hpp`, `enum_range.hpp` | all; which operator is called (`NsModel.v`); casts to enums without a fixed underlying type (`UnfModel.v`) | the type the compiler chooses for those (any that has the enumerators) |
| `iterator_facade.hpp` | all, over any derived class | writing through iterators, derived classes with constructors that take braces as a list |
| `hash.hpp`, `split.hpp`, `stream_join.hpp`, `zip.hpp` | all; `char` is signed; lifetimes of what is joined, zipped or ranged over (`DangModel.v`) | locale and stream formatting |
| `exception_info.hpp` | the list of tagged values, `diagnostic_info`, `exception_diagnostic_info`; `throw_with_info`, `get_exception_info` over class hierarchies | demangling, user copy constructors other than member by member, stream flags set by `operator<<` |
| `file_view_*.cpp`, `defer.hpp` | all, system calls as an oracle | |
| `ctti.hpp`, `reflect_struct.hpp` | attribute matching, field descriptors, filters, `reflect_type`, `reflect_object`, `num_fields`, `has_any_attribute` over class trees; accessor fields in serialization (`AccModel.v`) | names of types, access checks other than those of pointer conversions, the macros themselves |
| `detail/macros.hpp`, macros of `reflect_enum.hpp`, `reflect_struct.hpp`, `defer.hpp` | all, as text; the 13 macros of Boost.Preprocessor they use by their documentation, with its limits; `BOOST_PP_STRINGIZE`, `BOOST_PP_CAT` as text | white space inside literals made by `#`; an empty list of fields; the value of `__COUNTER__`; conditional directives |
| `meta.hpp`, `type_traits.hpp`, `utility.hpp` | the class templates, as data: deduction, choice of partial specialization, instantiation with fuel; `enable_if` | alias templates as such, `underlying_cast`, `printer`, the `KL_HAS_TYPEDEF_HELPER` macros, non-type arguments other than numbers and pointers to members |
| `match.hpp`, `range.hpp` | all, with overload resolution for one argument (arithmetic types, classes, arrays, ranges; lvalues and rvalues; generic lambdas) and deduction guides | enums, pointers, ranking of user-defined conversions, constraints |
| `detail/concepts.hpp`; the overloads of `dump_adl`, `serialize_adl`, `deserialize_adl`, `patch_adl` (as to which is chosen) | all, over types of any depth; overloads and constructors of RapidJSON and yaml-cpp from their documentation | conversion templates, explicit conversions, several bases, const pointees |

## Findings

Each is a theorem named `..._refuted` (or an example where noted) about the faithful model.

Base64, paths, tracker, binary streams
* Decoding is not injective: non-zero trailing bits are accepted (C05).
* A failed `path::set` leaves a prefix of the rejected text behind (C10).
* `skip(PTRDIFF_MIN)` negates a signed minimum: undefined (C19).
* The reader reserves memory for the size prefix before it knows that the input is that long (C62).
* A failed read of an optional leaves an engaged optional with a partial value; a read on a stream that already failed
  leaves the old container (C17). Any non-zero byte counts as an engaged optional; repeated map keys keep the first (C80).

Signals
* A thread that tested a slot before another thread's `disconnect` returned still calls it (C22).
* When a slot throws, the reference on the current slot is leaked for good (C27).
* `swap` can connect a slot again after `disconnect` returned (C29).
* `disconnect` racing with the destruction of the signal uses a destroyed signal (C74).
* Swapping or moving a signal during its emission reaches `std::terminate` (C23); slot destructors can run under the mutex.
* There is no data race (C114), provided user code orders changes of one connection or blocker object, and the creation
  of a signal before its direct uses. `release` with anything weaker than `acq_rel` would race.

Serialization
* `optional<optional<T>>` collapses; null entries of maps are dropped; `skip_if_empty` without a default cannot be read back (C30).
* Defaults bypass validators; validators on `flatten` and `extra_fields` members never run (C35); sequence mode applies no defaults.
* YAML reads `010` as 8 and `On` as true; a string `12` becomes a number (C93, C94, C98).
* Error messages give no position inside a tuple and name the member instead of the renamed key; a new line or a zero in a
  key changes what the message says (C101).
* An attribute with an ambiguous base is not found by queries for that base (C102). Members of a virtual base are visited
  twice; members of a repeated base are counted, but their value does not compile (C105).
* A second `aliases`, `rename` or `default_value` attribute is ignored, also a default of a derived class (C106). A struct
  that passes both name checks at compile time can throw on every write (C107).
* Integers above 2^53 read into a `double` collapse; the bits of a NaN are not kept (C108). `range(-1, 10)` refuses 5 in an
  unsigned field; integers above 2^53 pass a smaller `double` limit; NaN passes every limit (C109).
* `to_object().add` of JSON keeps a view of the name, so the document dangles when the caller's buffer goes; a repeated name
  means its first value in JSON and its last in YAML; a second `done` of JSON gives null and an `add` after `done` is
  undefined in JSON, but changes the returned document in YAML (C110). `extract` finds no name with a zero in it and wraps its
  index after 4294967295 (C111).
* A flattened struct with its own `extra_fields` absorbs the fields of the outer struct (C38).

Resources
* Serialization validators of a field are not run by `put`/`patch` at that field (C40).
* With several child keys, another key may change, paths re-resolve and a repeated `put` answers 405 (C41, C44, C45).
* `delete` of an optional collection does not report its descendants as changed; index `00` is an alias of `0` that
  the tracker does not know (C42).
* Writes aimed at an ancestor overwrite read-only fields (C43).
* A matcher that reads mutable members makes what was put unreachable; `put` into an `extra_fields` map with a declared
  name breaks `get` of the parent (C45).
* Read-only is tested before bounds, so a missing element of a read-only collection answers 405 instead of 404.

Enums, hashes, text
* `enum_iterator` is ordered backwards and `end - begin` is negative (C51); a closed range of `uint8_t` ending at 255
  compiles, but contains nothing and counts 2^64 - 5 values, and so for every narrow type and minimum but its own (C52); reversed
  ranges are never rejected for being reversed, only if the length overflows (C64). With an unsigned 32-bit type each of two
  different iterators is before the other (C51).
* `in_range(integer)` compares numbers of different signedness as unsigned (C91). A range that begins below zero and ends
  above it then holds nothing at all.
* `++` at the maximum is undefined for `int` and wraps for narrow types; shifts by the width are undefined (examples, C92).
* `fnv1a` and `hsieh` sign-extend bytes above 127; exactly one such byte always changes the FNV-1a value (C53).
* `hsieh` loses the byte that follows a byte above 127 at an even place: the UTF-8 texts of all letters from U+00C0 to U+00FF hash alike ("é" as
  "è"). In C++17 shifting such a byte (at an odd place, or third of three left over) is undefined as well (C54).
* Splitting by a literal includes its NUL (C65); a copied output joiner repeats the first-element rule (C66).

JSON texts
* NaN and infinities are written as nothing: the dump of `NaN` is the empty text, of `[NaN]` the text `[]`, of two of them `[,]` (C115).
* The length of a string is cast to 32 bits: one of 2^32 bytes is written as `""`; from 715827883 bytes on the reserved space wraps (C115).
* `parse` does not ask for RapidJSON's full precision: `1.0 / 11` is written as `0.09090909090909091` and read as the next double; numerals
  of 16 digits or with exponents beyond 22 may be read one unit or more off (C118, C119). `0e309`, and one written with 400 zeros and
  `e-400`, are rejected as too big (C118). Digits of a fraction after the first eighteen of the number are ignored, not rounded (C118).
* `parse` ignores what follows a zero byte, and skips any part of a byte order mark (C116).

Macros
* The call `KL_REFLECT_ENUM_SEQ(enum_, (A)(B, bb)(C))` that `reflect_enum.hpp:63` shows is ill-formed: an element with a name of its own
  needs two pairs of parentheses, `((B, bb))` (C120).
* Enumerators, members and their texts that are macros are replaced before they become text: `(lin, linux)` gives the text `1` where
  `linux` is defined as 1, as GNU compilers do (C120).
* An attribute with a comma outside parentheses, as `range{1, 2}`, is cut in two (C121).

Class templates
* A `type_pack` that comes last in `filter<P, Ts...>` is not tested by the predicate but spread in place (C123).
* `func_traits` takes no function, function pointer, member function or function object that is `noexcept` (part of the type since
  C++17), `volatile` or ref-qualified, and no `const` pointer to a function (C125).

Handlers and ranges
* `match` passes the variant as an lvalue and returns by `auto`: handlers for `T&&` do not compile, references come out as copies (C127).
* A handler for `const T&` loses `T` to one for `auto&` or `auto&&` if the variant is not const; a `mutable` lambda that takes `auto`
  takes every alternative from lambdas that are not `mutable` (C127).
* A forgotten handler is silent if the alternative converts to the type of another handler, as `bool` to `int` (C127).
* A const or temporary range does not convert to a range of constant iterators, and a const container without `cbegin` (such as
  `std::initializer_list`) has no range, though one is deduced (C128).
* `size()` of a range with swapped positions is about 2^64 (C128).

Functions that own connections
* Slots are released under the signal's mutex. If that is the last reference and the function owns a `scoped_connection` to another slot still
  connected to the same signal, its destructor locks the mutex again: `disconnect_all_slots`, `~signal` and the end of an emission in
  which the owner was disconnected deadlock. `connection::disconnect` does not, as it still holds a reference (C134).
* A slot whose function owns its own connection, plain or scoped, is never freed, not even with the signal, unless it disconnects
  itself (C133).
* A disconnected slot's function and all it owns live as long as any copy of the connection (C133).

Exceptions with information
* The constructors of `exception_with_info<E>` name only `E` and `exception_with_info_base`. Virtual bases of `E` are initialized by the
  most derived class, here by default: what they held in the exception given to `throw_with_info` is lost without a diagnostic, and
  an exception whose virtual base has no default constructor does not compile (C135, C137).
* `throw_with_info(e, xi)` on a caught reference throws the static type of `e`: handlers for the original type no longer match, and the
  information attached at first is lost (C135, C136).
* `get_exception_info` returns null on a reference to a private base of the thrown class, for instance in a member function of that base (C136).
* `exception_diagnostic_info(exception_ptr)` prints `<unknown-exception>` for polymorphic exceptions that are not `std::exception`,
  whose type the overload for references prints; the overload for references does not compile when `std::exception` is an ambiguous
  base of the static type (C136).

Accessor fields
* A field inside a container that is a field too must come after it: read first, `object.v.front()` of an empty vector is undefined behaviour (C146).
* Two fields for one place: the later one decides, also with its default when only the earlier one is in the document (C146).
* `validate` calls the accessor again after the reading. One that selects its place (`object.a > 100 ? object.b : object.a`) then shows the validator
  another member, and a bad value is accepted or a good one refused (C146).

Validators that modify
* `validate_resource` gets a reference that is not const, and the whole object is validated on every change. Rollback restores the part the request is
  about only: what validators did to other parts before one of them threw stays after a 409 (C149).
* `pop_back_rollback` removes the last element, whatever it is: with a validator that sorts the collection a refused post keeps the refused element and
  removes another one (C150). `rollback_value` refers to the part: with a validator that removes it, or erases from an empty collection for a post, the
  rollback is undefined behaviour (C150).
* Keys are compared before the validators of the elements have normalised them. After a put of a whole collection two may be equal, and then every
  change anywhere in the object is refused with "duplicate child key" (C149).
* What validators change elsewhere is not announced to pollers; a validator may replace the key in the path of a successful put (C150).

User types in binary streams
* `r >> x` runs `read_binary` on a failed reader too: strings, vectors, maps, sets and optionals are emptied, numbers and variants keep their old values,
  and user code runs as if nothing had happened. `r.read(x)` leaves `x` alone. A user type that streams its members is so left half new, half emptied (C151).
* A vector, map or set whose element throws keeps the elements read before, and the reader is not marked as failed, unlike after an error (C155).

Which validators are called
* A validator can be silently none: when two are equally good (C159: by reference in one namespace, by value in another), when the best one is deleted,
  when the member is private or takes another context. Such a member also hides the one of the base.
* `template <typename T> void validate_resource(T&, ...)` in the namespace of the context is called instead of `validate_resource(const X&, ...)`,
  and instead of the one of the base for derived classes (C159).
* `validate_resource(const std::optional<X>&, ...)` runs twice for an optional that holds something: its content converts to an optional (C160).
* `resource_key_matches(X&, ...)` without const is never called (C161).

Iterators
* `it[n]` of an iterator that refers to a member of its own reads a destroyed copy (C163).
* `distance_to` is the opposite of `boost::iterator_facade`'s: derived classes written for Boost are ordered backwards (C163).
* `value_type` is const for references to const elements; an iterator that returns `T&&` has no `->` (C164).

Types in binary streams
* `std::vector<bool>` can be neither written nor read, alone or inside anything: there is no span of its bits (C166).
* Variants in which an alternative is twice can be written and not read (C166). What is in a container must have a default constructor to be read (C166).
* `gsl::span<T>` can be read and not written, `gsl::span<const T>` the reverse; string literals and classes that convert to `std::string` are written
  as strings and cannot be read (C166).

Headers
* `binary_rw/string.hpp` defines `write_binary` and `read_binary` for strings without `inline`: a program in which two units include it does
  not link, even if only one of them streams strings (C167).
* `json_fwd.hpp` and `yaml_fwd.hpp` declare `deserialize_error` and `parse_error` in `kl::json` and `kl::yaml`, which are defined nowhere: the
  exceptions are those of `kl::serialization`, and a handler for the declared names does not compile (found by reading, not modelled).

New objects
* `deserialize<T>(value)` makes its result by `T out;`, not by `T out{}` as the rest of the library does. A member of arithmetic or enum type that has no
  initializer and is skipped, or allowed to be missing and missing, is returned with an indeterminate value; the same structure in an
  `std::optional` or a container has it zero (C168).

Keys of extra fields
* An `extra_fields` member of type `std::map<std::string_view, T>` compiles, but its keys are made from a local `std::string`: they dangle, and from
  the second on they are compared with one that does (C169).

Computed fields of resources
* `get` at the index of an element of a field whose accessor returns a `std::vector` by value reads an element of a destroyed temporary: `visit_node` keeps
  a reference that a lambda returned. With `child_key` the element is found in a range-based `for`, which keeps the temporary (C170).

The current connection
* At the end of an outermost emission the disconnected slots are destroyed before the saved emission state is put back (the two `KL_DEFER` of `operator()`
  run in reverse order), so `this_signal::current_connection()` in the destructor of a slot's function is not empty there but names the slot invoked last.
  If that slot is itself destroyed (a slot that disconnects itself and whose connection nobody keeps is enough), a destroyed slot's count is raised and
  lowered and the slot is deleted a second time (C171).

Requests that are left by an exception
* `notify_changed` runs after `rollback.commit()` and allocates an entry for every node that was not marked before. If that throws, the exception leaves
  `put`, `post`, `patch` or `del` with the new value in place; the marks are written from the root down, so the node itself may not be marked and those
  who poll it do not notice (C172).
* `rollback_value` assigns in its destructor. If the move assignment of the type may throw and does, the program ends in `std::terminate`, even for a
  value that was merely refused by a validator (C172).

Bools in binary streams
* `read_raw` copies any byte into a `bool`. In a `std::optional<bool>`, a variant with `bool`, a set, a map or a vector of structures with a `bool` the
  adapter then moves it: input with another byte than 0 and 1 there is undefined behaviour in the library. Elsewhere the caller gets a `bool` that is
  neither false nor true, and no error (C173).

Objects as bytes
* `bit_cast` to a type with padding and back loses what was in the bytes of the padding, unless the compiler elides the copy (C174).
* `write_raw` and `write_span` of structures with padding write whatever the memory holds there: equal values give different bytes, and old memory
  content leaves the process (C174).

Views and temporaries
* `range` and `stream_join` accept temporaries: `for (auto x : kl::range(make()))` and `auto j = kl::stream_join(kl::range(v));` compile and dangle. Only
  `zipped` has an assertion against this; it does not see references that functions return, as in `kl::enumerated(make_holder().items())` (C175).

Names of places
* `joined` decodes but does not encode: the joined text of `a/%2E%2E` is `a/..`, which names the root; the one of `a/%25zz` is rejected (C176).
* `post` accepts elements whose key is empty or contains a slash and answers created, but no request path reaches them: they can be neither read, changed nor
  deleted on their own. The same holds for such keys of maps and such names of members (C176).

Enums without a fixed underlying type
* `~` of flags such as `enum f { a = 1, b = 2, c = 4 }` is undefined for every value, so is `++` of the last value and `<<` of the highest flag; `|`, `&`, `^` and
  `>>` are fine (C177).
* A number in a document that the underlying type can hold but the enum cannot, 2 for `enum e { a, b }`, is cast without a check: undefined behaviour caused by
  input. Only numbers out of the underlying type are refused (C177).
* Reflecting `enum e { a = 0, b = -1 }` or an enum with two names for the last value casts a number that is no value in a constant expression, which a strict
  compiler refuses (C177).

Paths and memory
* If the memory for the sixteenth segment is refused, its text stays behind: `joined(0)` returns sixteen segments of a path that has fifteen. The old path is
  lost as after a parse error. A new `set` repairs it (C178).

Paths set from their own text
* `p.set(p.joined(0))` turns every character of the path except the slashes into a null character (for every path without segments `.` and `..`,
  which escapes can give), where a copy of the text would leave the path as it is; with later
  segments (`p.set(p.joined(1))`) it works with common strings. By the standard all of these use a view that `clear` made invalid (C179).

Paths that were moved from
* If the vector's move leaves elements stored inside of the object where they are, a path moved from keeps its size but has no text, and `operator[](1)` ends the program.
  `small_vector` is not part of the repository; which of its two behaviours it has is not decided here (C180).

Operators on enums
* The operators that `enum_traits` enables are in the global namespace. An enum in another namespace has them only where no namespace around the use
  has a function of the same name: any `operator<<` for streams in the user's namespace hides the shifts, and in `kl` those of `binary_rw.hpp` do. An
  unscoped enum then silently becomes an `int`. `using ::operator<<;` beside the enum helps (C143).
* In templates that come before the header the operators are found for enums of the global namespace only (C143).
* `using namespace kl::enums::operators` makes operators of enums with traits ambiguous, and also `writer << 5` and `reader >> i` for an `int`: the
  operators are not restricted to enums (C144).
* An unscoped enum with bit shifts cannot be shifted by an `unsigned` or a `size_t`: ambiguous with the operator of the language (C144).

Lifetimes of JSON trees
* `object_builder::add` keeps a pointer to the name it is given, although it takes a `std::string_view`; a name in a local string dangles (C141).
* A map with `const char*` keys is serialized with the overload for static names: the tree points to the keys, and dangles with them. The overload
  for `std::string` copies (C141).
* Serializing a `json::view` copies the tree, but shares the texts the original only points to (C141).
* A structure with a default constructed `json::view` cannot be serialized: the null pointer is dereferenced (C141).
* `deserialize<std::string_view>(document)` of a string of at most 13 bytes points into the `Document` object itself: moving the document
  invalidates it, which it does not for longer ones or for elements (C142).
* The overload for literals, `serialize_adl(tree_tag, char (&)[N], ctx)`, is never chosen: arguments arrive as `const T&`, literals are copied.

Handles of slots
* `scoped_connection`'s move assignment swaps: `a = std::move(b)` leaves the slot that `a` had connected, now owned by `b`, until `b` ends
  (C140). A temporary on the right disconnects it at once.
* `disconnect` empties the connection it is called on, so it compares equal to `connection{}` and no longer to its own copies, and a key of a
  set changes its place (C139).
* Blockers block the slot for all its signals' emissions; a scoped connection has none, since `get()` is const and `get_blocker` is not.

Views of YAML documents
* `yaml::view` has the assignment of `YAML::Node`, which makes the node already shown refer to the new data. Deserializing (or
  patching, or assigning) a second time into an object with a `yaml::view` member, or an engaged `std::optional<yaml::view>`, therefore
  rewrites the first document: its field takes the value of the second document, or becomes null if the field is missing there. Giving
  the view of a part the whole makes a document that contains itself, so that reading it never ends (C138). `json::view` only replaces a pointer.

Arguments of emissions
* A signal of `std::unique_ptr` (or any value that cannot be copied), or of `T&&`, cannot be emitted: slots get `args...` as lvalues (C132).
* Every slot costs a copy of each argument by value, the last one too (C132).
* A `const T&` argument changes during the emission if the same object is passed as `T&` (C131).

Choice of overloads
* JSON reads but does not write `long long` and `unsigned long long` on LP64 (`long` and `unsigned long` on LLP64) and `long double` (C129).
* Pointers and arrays of anything but `char` are dumped as `true` (C129).
* A `YAML::Node` passed directly is written as sequences of sequences, a scalar as `[]`; `json::serialize` of a `rapidjson::Value` does not compile (C129).
* A reflected container is ambiguous and not written; a class derived from `std::string` is a sequence of characters (C129).
* A container derived from `std::optional` is read as a sequence and patched as an optional (C165).
* `std::set` is written but not read; maps with numbers as keys are read but not written (examples, C129).
* `std::string_view` is written to YAML as a sequence of characters, but read from a scalar; `std::wstring` goes to JSON streams as numbers,
  to trees not at all (C130).
* A class that converts to `bool` is `true` in a stream and `1` in a tree; one that converts to `std::string` goes to JSON streams only; a
  reflected struct that converts to an integer does not go to JSON trees (C130).

Customized types
* `patch_adl` for every tag, as the comment in `serialization.hpp` recommends, is ambiguous with the library's for a reflected type, and
  `deserialize` is used instead without a diagnostic; the other overloads for every tag do not compile for such a type (C113).
* A type with `deserialize_adl` and no `patch_adl` takes its own document as a patch and ignores it (the comment warns of this); a
  `serializer<T>` with `serialize` only writes one document to a tree and another to a stream (C113).

Exceptions and files
* Copies of `exception_info` share nodes: `unset` and writes through `get` show in the copy (C59).
* A value whose `operator<<` leaves the stream bad (a null `const char*`) hides all older values in the description; a new line in a value
  forges lines; nothing is shown through a reference to a class that is not polymorphic (C112).
* `MAP_FAILED` is not recognised (C60); copies of a `file_view` unmap twice (C69); `GetFileSizeEx` failures are ignored (C70).
* A deferred action that throws ends the program, and the actions deferred before it in enclosing scopes never run (C61).
