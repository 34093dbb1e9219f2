(** [path::set] called with a view of the path's own text, as in [p.set(p.joined(1))]: src/path.cpp:8-107, kl/path.hpp:117-127.

    By the standard the view is invalid as soon as [clear] is called.  Here is what happens with strings as in all common libraries: the
    buffer stays (the text is not longer than the capacity, so that [reserve] and [+=] do not allocate: PmemModel), [clear] and [erase] write
    a null character at the new end, [+=] writes the character and a null character behind it.  The view keeps reading the buffer. *)
From Coq Require Import List NArith Arith Bool.
From Verif Require Import Base PathModel.
Import ListNotations.

Record own := mkown { buf : nat -> N; size : nat; segs_ : list path_segment }.

Definition put (b : nat -> N) (i : nat) (c : N) : nat -> N := fun j => if j =? i then c else b j.
(** [n] characters of the buffer from [r] on *)
Definition window (b : nat -> N) (r n : nat) : list N := map b (seq r n).

(** What the path is, seen from outside. *)
Definition seen (o : own) : path := mkpath (window (buf o) 0 (size o)) (segs_ o).

Inductive oresult := OOk (o : own) | OThrow (o : own) | OUB.

(** [value_ += c] *)
Definition o_append (o : own) (c : N) : own := mkown (put (put (buf o) (size o) c) (S (size o)) 0%N) (S (size o)) (segs_ o).
(** path.cpp:48-52 *)
Definition o_clear (o : own) : own := mkown (put (buf o) 0 0%N) 0 [].
(** path.cpp:65-73 *)
Definition o_pop (o : own) : own :=
  match rev (segs_ o) with
  | [] => o
  | last :: front =>
      let offset := seg_offset last in
      let n := Nat.min (if offset =? 0 then offset else offset - 1) (size o) in
      mkown (put (buf o) n 0%N) n (rev front)
  end.

(** path.cpp:82-104; the segment is the [len] characters from [r] on *)
Fixpoint o_decode (fuel r len i : nat) (o : own) : oresult :=
  match fuel with
  | O => OUB
  | S fuel' =>
      if i <? len then
        let c := buf o (r + i) in
        if negb (N.eqb c ch_percent) then o_decode fuel' r len (i + 1) (o_append o c)
        else if len <=? i + 2 then OThrow o
        else
          match from_xdigit (buf o (r + (i + 1))), from_xdigit (buf o (r + (i + 2))) with
          | Some hi, Some lo =>
              let ch := N.lor (N.shiftl hi 4) lo in
              if N.eqb ch ch_slash then OThrow o else o_decode fuel' r len (i + 3) (o_append o ch)
          | _, _ => OThrow o
          end
      else OOk o
  end.

(** path.cpp:75-107 *)
Definition o_push (o : own) (r len : nat) : oresult :=
  let o1 := match size o with O => o | _ => o_append o ch_slash end in
  let offset := size o1 in
  match o_decode (S len) r len 0 o1 with
  | OOk o2 => OOk (mkown (buf o2) (size o2) (segs_ o2 ++ [mkseg offset (size o2 - offset)]))
  | other => other
  end.

(** path.cpp:22-39: one segment, the [len] characters from [r] on *)
Definition o_step (o : own) (r len : nat) : oresult :=
  let segment := window (buf o) r len in
  if negb (len =? 0) then
    if str_eqb segment [ch_dot] then OOk o
    else if str_eqb segment [ch_dot; ch_dot] then OOk (o_pop o)
    else o_push o r len
  else OOk o.

(** path.cpp:19-45; the view has [n] characters from [r] on *)
Fixpoint o_loop (fuel r n : nat) (o : own) : oresult :=
  match fuel with
  | O => OUB
  | S fuel' =>
      let pos := find_slash (window (buf o) r n) in
      let len := match pos with None => n | Some k => k end in
      match o_step o r len with
      | OOk o1 =>
          match pos with
          | None => OOk o1
          | Some k => o_loop fuel' (r + (k + 1)) (n - (k + 1)) o1
          end
      | other => other
      end
  end.

(** path.cpp:8-46 *)
Definition o_set (o : own) (r n : nat) : oresult :=
  let o := o_clear o in
  let value := window (buf o) r n in
  if (n =? 0) || str_eqb value [ch_slash] then OOk o
  else if N.eqb (buf o r) ch_slash then o_loop (S (n - 1)) (r + 1) (n - 1) o
  else o_loop (S n) r n o.
