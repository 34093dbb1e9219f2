(** Programs made of several translation units that include headers of the library: which of them link.

    Modelled: the #include lines of include/kl with #pragma once; the functions and destructors that headers define without
    [inline], [constexpr] or [template] (those are in every object file of a unit that includes the header); the functions that headers
    only declare, and the sources and targets of src/CMakeLists.txt that define them.

    Simplifications: units define no functions of these names themselves; headers of the user are expanded already; all
    objects of a library are linked (a shared library, or --whole-archive: those of an archive that nobody asks for add
    nothing that could be missed); symbols are qualified names, which are different for all functions here. *)
From Coq Require Import List Arith Bool String.
Import ListNotations.
Local Open Scope string_scope.

(** The #include "kl/..." lines, file by file, comments removed (include/kl/*.hpp:1-12, binary_rw/*.hpp:3-4,
    detail/*.hpp:3-11). *)
Definition headers : list (string * list string) :=
  [
   ("base64.hpp", []);
   ("binary_rw.hpp", ["utility.hpp"]);
   ("ctti.hpp", ["type_traits.hpp"; "reflect_struct.hpp"]);
   ("defer.hpp", ["detail/macros.hpp"]);
   ("enum_range.hpp", ["enum_traits.hpp"; "utility.hpp"; "iterator_facade.hpp"]);
   ("enum_reflector.hpp", ["type_traits.hpp"; "reflect_enum.hpp"; "range.hpp"; "utility.hpp"]);
   ("enum_set.hpp", []);
   ("enum_traits.hpp", ["utility.hpp"]);
   ("exception_info.hpp", []);
   ("file_view.hpp", []);
   ("hash.hpp", []);
   ("iterator_facade.hpp", []);
   ("json.hpp", ["json_fwd.hpp"; "serialization.hpp"; "serialization_error.hpp"; "serialization_fwd.hpp"; "utility.hpp"]);
   ("json_fwd.hpp", []);
   ("match.hpp", []);
   ("meta.hpp", ["utility.hpp"]);
   ("path.hpp", []);
   ("range.hpp", []);
   ("reflect_enum.hpp", ["detail/macros.hpp"]);
   ("reflect_struct.hpp", ["detail/macros.hpp"]);
   ("resource.hpp", ["path.hpp"; "utility.hpp"]);
   ("resource_attributes.hpp", []);
   ("resource_op.hpp", ["detail/concepts.hpp"; "ctti.hpp"; "resource.hpp"; "resource_attributes.hpp";
     "serialization.hpp"; "serialization_error.hpp"; "type_traits.hpp"; "utility.hpp"]);
   ("serialization.hpp", ["serialization_fwd.hpp"; "detail/serialization.hpp"; "type_traits.hpp"; "utility.hpp"]);
   ("serialization_attributes.hpp", ["serialization_error.hpp"]);
   ("serialization_error.hpp", []);
   ("serialization_fwd.hpp", ["type_traits.hpp"]);
   ("signal.hpp", ["defer.hpp"]);
   ("split.hpp", []);
   ("stream_join.hpp", []);
   ("tuple.hpp", []);
   ("type_traits.hpp", ["utility.hpp"]);
   ("utility.hpp", []);
   ("yaml.hpp", ["serialization.hpp"; "serialization_error.hpp"; "serialization_fwd.hpp"; "utility.hpp"; "yaml_fwd.hpp"]);
   ("yaml_fwd.hpp", []);
   ("zip.hpp", ["tuple.hpp"]);
   ("binary_rw/endian.hpp", ["binary_rw.hpp"]);
   ("binary_rw/map.hpp", ["binary_rw.hpp"]);
   ("binary_rw/optional.hpp", ["binary_rw.hpp"]);
   ("binary_rw/pair.hpp", ["binary_rw.hpp"]);
   ("binary_rw/set.hpp", ["binary_rw.hpp"]);
   ("binary_rw/string.hpp", ["binary_rw.hpp"]);
   ("binary_rw/variant.hpp", ["binary_rw.hpp"; "meta.hpp"]);
   ("binary_rw/vector.hpp", ["binary_rw.hpp"; "type_traits.hpp"]);
   ("detail/concepts.hpp", ["type_traits.hpp"]);
   ("detail/macros.hpp", []);
   ("detail/serialization.hpp", ["detail/concepts.hpp"; "serialization_error.hpp"; "ctti.hpp"; "enum_reflector.hpp"; "enum_set.hpp";
     "serialization_attributes.hpp"; "serialization_fwd.hpp"; "type_traits.hpp"; "utility.hpp"])].

Definition lookup (tab : list (string * list string)) (h : string) : list string :=
  match find (fun e => String.eqb (fst e) h) tab with Some (_, l) => l | None => [] end.

Definition mem (x : string) (l : list string) : bool := existsb (String.eqb x) l.

(** #include with #pragma once: a file seen before is skipped, another one is put in place of its line. *)
Fixpoint preprocess (tab : list (string * list string)) (fuel : nat) (seen todo : list string) : list string :=
  match fuel, todo with
  | S n, h :: rest => if mem h seen then preprocess tab n seen rest
                      else preprocess tab n (seen ++ [h]) (lookup tab h ++ rest)
  | _, _ => seen
  end.
Definition lines (tab : list (string * list string)) : nat := fold_right (fun e n => List.length (snd e) + n) 0 tab.
Definition expand (tab : list (string * list string)) (includes : list string) : list string :=
  preprocess tab (List.length includes + lines tab) [] includes.

(** Functions defined in headers that are neither inline nor constexpr nor templates nor members in a class:
    binary_rw/string.hpp:11-17 and 19-32. *)
Definition definitions : list (string * list string) :=
  [("binary_rw/string.hpp", ["kl::write_binary(binary_writer&, const std::string&)"; "kl::read_binary(binary_reader&, std::string&)"])].

(** Functions declared in headers and not defined there: base64.hpp:13-17, file_view.hpp:12-13, path.hpp:106-108 and 130-133,
    serialization_error.hpp:20-24 and 42, json.hpp:143-148 and 354, yaml.hpp:97-99 and 278. *)
Definition declarations : list (string * list string) :=
  [("base64.hpp", ["kl::base64_encode"; "kl::base64_decode"; "kl::base64url_encode"; "kl::base64url_decode"]);
   ("file_view.hpp", ["kl::file_view::file_view"; "kl::file_view::~file_view"]);
   ("path.hpp", ["kl::path::set"; "kl::path::clear"; "kl::path::from_xdigit"; "kl::path::pop_segment"; "kl::path::push_decoded_segment"]);
   ("serialization_error.hpp", ["kl::serialization::deserialize_error::~deserialize_error"; "kl::serialization::deserialize_error::add";
     "kl::serialization::parse_error::~parse_error"]);
   ("json.hpp", ["kl::json::detail::expect_integral"; "kl::json::detail::expect_number"; "kl::json::detail::expect_boolean";
     "kl::json::detail::expect_string"; "kl::json::detail::expect_object"; "kl::json::detail::expect_array";
     "kl::json::detail::type_name"]);
   ("yaml.hpp", ["kl::yaml::detail::expect_scalar"; "kl::yaml::detail::expect_sequence"; "kl::yaml::detail::expect_map";
     "kl::yaml::detail::type_name"])].

(** What the sources define with external linkage (helpers are in anonymous namespaces, templates or constexpr): base64.cpp:229-247,
    file_view_unix.cpp:65-93, file_view_win32.cpp:73-114, path.cpp:8-100, serialization_error.cpp:7-14, json.cpp:20-71,
    yaml.cpp:20-50. *)
Definition sources : list (string * list string) :=
  [("base64.cpp", ["kl::base64_encode"; "kl::base64url_encode"; "kl::base64_decode"; "kl::base64url_decode"]);
   ("file_view_unix.cpp", ["kl::file_view::file_view"; "kl::file_view::~file_view"]);
   ("file_view_win32.cpp", ["kl::file_view::file_view"; "kl::file_view::~file_view"]);
   ("path.cpp", ["kl::path::set"; "kl::path::clear"; "kl::path::from_xdigit"; "kl::path::pop_segment"; "kl::path::push_decoded_segment"]);
   ("serialization_error.cpp", ["kl::serialization::deserialize_error::add"; "kl::serialization::deserialize_error::~deserialize_error";
     "kl::serialization::parse_error::~parse_error"]);
   ("json.cpp", ["kl::json::detail::type_name"; "kl::json::detail::expect_integral"; "kl::json::detail::expect_number";
     "kl::json::detail::expect_boolean"; "kl::json::detail::expect_string"; "kl::json::detail::expect_object";
     "kl::json::detail::expect_array"]);
   ("yaml.cpp", ["kl::yaml::detail::type_name"; "kl::yaml::detail::expect_scalar"; "kl::yaml::detail::expect_sequence";
     "kl::yaml::detail::expect_map"])].

(** A unit: what it includes, and the functions it calls that are not inline. *)
Record unit_ := mkunit { includes : list string; calls : list string }.

(** A program: units, the target platform, and whether kl-json and kl-yaml are linked beside kl (both link kl). *)
Record program := mkprogram { units : list unit_; win32 : bool; json : bool; yaml : bool }.

(** src/CMakeLists.txt:1-51, 79-84, 96-101 *)
Definition library_sources (p : program) : list string :=
  ["base64.cpp"; "path.cpp"; "serialization_error.cpp"; if win32 p then "file_view_win32.cpp" else "file_view_unix.cpp"] ++
  (if json p then ["json.cpp"] else []) ++ (if yaml p then ["yaml.cpp"] else []).

(** The object file of a unit *)
Definition object (u : unit_) : list string := flat_map (lookup definitions) (expand headers (includes u)).

Definition symbols (p : program) : list string :=
  flat_map object (units p) ++ flat_map (lookup sources) (library_sources p).

Fixpoint distinct (l : list string) : bool := match l with [] => true | x :: r => negb (mem x r) && distinct r end.

Definition links (p : program) : bool :=
  distinct (symbols p) && forallb (fun u => forallb (fun s => mem s (symbols p)) (calls u)) (units p).

(** A unit compiles if the functions it calls are declared or defined in what it includes. *)
Definition compiles (u : unit_) : bool :=
  forallb (fun s => existsb (fun h => mem s (lookup declarations h) || mem s (lookup definitions h)) (expand headers (includes u)))
    (calls u).
