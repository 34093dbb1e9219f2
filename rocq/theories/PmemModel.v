(** Memory of paths: src/path.cpp:8-107 with [value_.reserve], the capacity of the string and of the
    [boost::container::small_vector<path_segment, 15>] (kl/path.hpp:97), and requests for memory that may be refused.

    The memory is an oracle: what request number [k] yields is [heap k], nothing ([std::bad_alloc]) or how much more than asked for.
    [reserve] and [erase] do not give memory back (std::string since C++20, earlier in all common libraries); a refused request leaves
    the container as it was. *)
From Coq Require Import List NArith Arith Bool.
From Verif Require Import Base PathModel.
Import ListNotations.

(** For how many characters or segments memory is asked for. *)
Inductive request := Text (n : nat) | Segs (n : nat).

Record mem := mkmem { path_of : path; tcap : nat; scap : nat; asked : list request }.

Inductive mresult := MOk (m : mem) | MThrow (m : mem) | MNoMem (m : mem) | MUB.

Definition heap_t := nat -> option nat.

Definition with_path (m : mem) (p : path) : mem := mkmem p (tcap m) (scap m) (asked m).
Definition with_asked (m : mem) (r : request) : mem := mkmem (path_of m) (tcap m) (scap m) (asked m ++ [r]).
Definition with_tcap (m : mem) (n : nat) : mem := mkmem (path_of m) n (scap m) (asked m).
Definition with_scap (m : mem) (n : nat) : mem := mkmem (path_of m) (tcap m) n (asked m).

(** [value_.reserve(n)] *)
Definition reserve (heap : heap_t) (m : mem) (n : nat) : mresult :=
  if n <=? tcap m then MOk m
  else match heap (length (asked m)) with
       | None => MNoMem (with_asked m (Text n))
       | Some more => MOk (with_tcap (with_asked m (Text n)) (n + more))
       end.

(** [value_ += ch] *)
Definition append (heap : heap_t) (m : mem) (ch : N) : mresult :=
  let v := value_ (path_of m) in
  let p := mkpath (v ++ [ch]) (segments_ (path_of m)) in
  if length v <? tcap m then MOk (with_path m p)
  else match heap (length (asked m)) with
       | None => MNoMem (with_asked m (Text (S (length v))))
       | Some more => MOk (with_path (with_tcap (with_asked m (Text (S (length v)))) (S (length v) + more)) p)
       end.

(** [segments_.push_back(seg)] *)
Definition push_back (heap : heap_t) (m : mem) (seg : path_segment) : mresult :=
  let l := segments_ (path_of m) in
  let p := mkpath (value_ (path_of m)) (l ++ [seg]) in
  if length l <? scap m then MOk (with_path m p)
  else match heap (length (asked m)) with
       | None => MNoMem (with_asked m (Segs (S (length l))))
       | Some more => MOk (with_path (with_scap (with_asked m (Segs (S (length l)))) (S (length l) + more)) p)
       end.

Definition mbind (r : mresult) (f : mem -> mresult) : mresult := match r with MOk m => f m | other => other end.

(** path.cpp:82-104 *)
Fixpoint m_decode (heap : heap_t) (fuel : nat) (segment : list N) (i : nat) (m : mem) : mresult :=
  match fuel with
  | O => MUB
  | S fuel' =>
      if i <? length segment then
        match rd segment i with
        | Ok c =>
            if negb (N.eqb c ch_percent) then mbind (append heap m c) (m_decode heap fuel' segment (i + 1))
            else if length segment <=? i + 2 then MThrow m
            else
              match rd segment (i + 1), rd segment (i + 2) with
              | Ok h, Ok l =>
                  match from_xdigit h, from_xdigit l with
                  | Some hi, Some lo =>
                      let ch := N.lor (N.shiftl hi 4) lo in
                      if N.eqb ch ch_slash then MThrow m
                      else mbind (append heap m ch) (m_decode heap fuel' segment (i + 3))
                  | _, _ => MThrow m
                  end
              | _, _ => MUB
              end
        | _ => MUB
        end
      else MOk m
  end.

(** path.cpp:75-107 *)
Definition m_push (heap : heap_t) (m : mem) (segment : list N) : mresult :=
  mbind (match value_ (path_of m) with [] => MOk m | _ => append heap m ch_slash end) (fun m1 =>
  let offset := length (value_ (path_of m1)) in
  mbind (m_decode heap (S (length segment)) segment 0 m1) (fun m2 =>
  push_back heap m2 (mkseg offset (length (value_ (path_of m2)) - offset)))).

(** path.cpp:19-45 *)
Fixpoint m_loop (heap : heap_t) (fuel : nat) (value : list N) (m : mem) : mresult :=
  match fuel with
  | O => MUB
  | S fuel' =>
      let pos := find_slash value in
      let len := match pos with None => length value | Some n => n end in
      let segment := firstn len value in
      mbind
        (if negb (length segment =? 0) then
           if str_eqb segment [ch_dot] then MOk m
           else if str_eqb segment [ch_dot; ch_dot] then MOk (with_path m (pop_segment (path_of m)))
           else m_push heap m segment
         else MOk m)
        (fun m1 => match pos with
                   | None => MOk m1
                   | Some n => m_loop heap fuel' (skipn (n + 1) value) m1
                   end)
  end.

(** path.cpp:8-46 [set] *)
Definition m_set (heap : heap_t) (m : mem) (value : list N) : mresult :=
  let m := with_path m (clear (path_of m)) in
  if (length value =? 0) || str_eqb value [ch_slash] then MOk m
  else
    mbind (reserve heap m (length value)) (fun m =>
    let value :=
      match value with
      | c :: t => if N.eqb c ch_slash then t else value
      | [] => value
      end in
    m_loop heap (S (length value)) value m).

(** path.hpp:97, 100: 15 segments fit in the object itself, and as many characters as the library's strings hold without memory. *)
Definition m_default (chars : nat) : mem := mkmem path_default chars 15 [].
