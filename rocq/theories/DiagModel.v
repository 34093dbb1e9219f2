(** kl/exception_info.hpp:36-73, 206-223, 294-348: the text that describes an
    exception.  An [std::ostringstream] is the text so far and whether the
    stream is still good; a stream that is not good drops what is written. *)
From Coq Require Import String List NArith ZArith Bool.
From Verif Require Import Base PathModel ScalarModel SerialMsgModel XinfoModel.
Import ListNotations.
Local Open Scope list_scope.
Local Open Scope outcome_scope.

Record stream := mkstream { s_text : str; s_good : bool }.
Definition new_stream : stream := mkstream [] true.

(** [os << text] *)
Definition write (s : str) (os : stream) : stream :=
  if s_good os then mkstream (s_text os ++ s) true else os.

(** What [os << value] does after it has written the text of the value: nothing
    else, set the state of the stream to bad, or throw. *)
Inductive fate := Fine | Breaks | Raises.

(** A value of [Tag::type]: with an [operator<<], or only the bytes it is made of. *)
Inductive value := Streamed (text : str) (f : fate) | Opaque (bytes : list N).

(** [os << value] *)
Definition write_value (s : str) (f : fate) (os : stream) : outcome stream :=
  match f with
  | Fine => Ok (write s os)
  | Breaks => Ok (mkstream (s_text (write s os)) false)
  | Raises => Throws
  end.

(** exception_info.hpp:60: [hex[...]] *)
Definition hex (n : N) : N := nth (N.to_nat n) (bytes "0123456789ABCDEF") 0%N.

(** exception_info.hpp:65-70: the loop over the bytes, from index [i]. *)
Fixpoint dump_bytes (i : nat) (bs : list N) (os : stream) : stream :=
  match bs with
  | [] => os
  | b :: bs' =>
      let os := match i with O => os | S _ => write [32%N] os end in
      let os := write [hex (N.shiftr (N.land b 240) 4); hex (N.land b 15)] os in
      dump_bytes (S i) bs' os
  end.

(** exception_info.hpp:47-73 [diagnostic_info_impl], both overloads; [name] is the demangled name of the tag. *)
Definition describe (name : str) (v : value) (os : stream) : outcome stream :=
  match v with
  | Streamed s f =>
      os <- write_value s f (write (bytes " = ") (write name os)) ;;
      Ok (write [10%N] os)
  | Opaque bs => Ok (write (bytes "]" ++ [10%N]) (dump_bytes 0 bs (write (bytes " = [") (write name os))))
  end.

(** exception_info.hpp:216-220: the loop over the nodes. *)
Fixpoint describe_all (names : nat -> str) (l : list (nat * value)) (os : stream) : outcome stream :=
  match l with
  | [] => Ok os
  | (tag, v) :: l' => os <- describe (names tag) v os ;; describe_all names l' os
  end.

(** exception_info.hpp:225-227: [file_], [line_], [function_]; a C string is the characters before its zero. *)
Record place := mkplace { p_file : option str; p_line : Z; p_function : option str }.

(** exception_info.hpp:206-223 [diagnostic_info] of the object [o]. *)
Definition diagnostic_info (names : nat -> str) (w : world value) (pl : place) (o : nat) : outcome str :=
  let os := match p_file pl with
            | Some f => write (bytes ")") (write (int_text (p_line pl)) (write (bytes "(") (write f new_stream)))
            | None => write (bytes "<unknown-file>") new_stream
            end in
  let os := write (match p_function pl with Some f => f | None => bytes "<unknown-function>" end)
              (write (bytes ": throw_with_info in function ") os) in
  let os := write [10%N] os in
  l <- listing w o ;;
  os <- describe_all names l os ;;
  Ok (s_text os).

(** An exception object: the name of its dynamic type; the name kept by
    [exception_with_info_base], when that is a base; the text of [what()], when [std::exception] is an
    unambiguous public base; the [exception_info], when that is one. *)
Record thrown := mkthrown {
  t_name : str;
  t_wrapped : option str;
  t_what : option str;
  t_info : option (place * nat)
}.

(** exception_info.hpp:233-263 [exception_with_info<E>], made by [throw_with_info] (265-283) from an object whose dynamic
    type is [E].  [E] has no [exception_info] base (line 271). *)
Definition with_info (wrapper : str) (e : thrown) (xi : place * nat) : thrown :=
  mkthrown wrapper (Some (t_name e)) (t_what e) (Some xi).

(** exception_info.hpp:300-333 [exception_diagnostic_info(const E&)]; [seen] is the name of [E] when [E] is not polymorphic. *)
Definition describe_exception (names : nat -> str) (w : world value) (seen : option str) (e : thrown) : outcome str :=
  match seen with
  | Some n => Ok (s_text (write [10%N] (write n (write (bytes "dynamic exception type: ") new_stream))))
  | None =>
      let n := match t_wrapped e with Some n => n | None => t_name e end in
      let os := write [10%N] (write n (write (bytes "dynamic exception type: ") new_stream)) in
      let os := match t_what e with
                | Some s => write [10%N] (write s (write (bytes "what: ") os))
                | None => os
                end in
      match t_info e with
      | Some (pl, o) => s <- diagnostic_info names w pl o ;; Ok (s_text (write s os))
      | None => Ok (s_text os)
      end
  end.

(** exception_info.hpp:335-354 [exception_diagnostic_info(const std::exception_ptr&)]: handlers are tried in order. *)
Definition describe_pointer (names : nat -> str) (w : world value) (p : option thrown) : outcome str :=
  match p with
  | None => Ok (bytes "no exception")
  | Some e =>
      match t_info e with
      | Some _ => describe_exception names w None e
      | None =>
          match t_what e with
          | Some _ => describe_exception names w None e
          | None => Ok (bytes "dynamic exception type: <unknown-exception>" ++ [10%N])
          end
      end
  end.
