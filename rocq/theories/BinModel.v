(** Model of include/kl/binary_rw.hpp and include/kl/binary_rw/*.hpp.

    Types that can be streamed are described by [ty] and their values by [val].
    Template instantiation becomes recursion over [ty].  A reader or writer is
    its buffer, position and error flag; [size_t] arithmetic wraps at 2^64.
    Copying outside the buffer is the outcome [UB].  Allocation failure is not
    modelled; the sizes requested up front are recorded in [asked]. *)
From Coq Require Import List NArith ZArith Arith Bool.
From Verif Require Import Base.
Import ListNotations.
Local Open Scope outcome_scope.

(** Byte order of an integer's object representation: native integers and
    enums (binary_rw.hpp:68-70; the host is taken to be little endian), and
    [boost::endian::endian_arithmetic] (binary_rw/endian.hpp:9-24). *)
Inductive order := Native | Little | Big.

(** The streamable types.  [TRaw simple w] stands for other trivially copyable
    types of [w] bytes: floating point ([simple = true]) or user types read
    with [read_raw] ([simple = false]).  [TRec ts] is a user type whose own
    [read_binary] and [write_binary] stream its members one after another, as in
    tests/binary_rw_test.cpp:771-790. *)
Inductive ty :=
| TInt (o : order) (signed : bool) (w : nat)
| TRaw (simple : bool) (w : nat)
| TStr
| TVec (t : ty)
| TMap (k t : ty)
| TSet (t : ty)
| TPair (a b : ty)
| TOpt (t : ty)
| TVar (ts : list ty)
| TRec (ts : list ty).

(** Values.  Maps and sets are listed in iteration order; the members of a user
    type in the order they are streamed. *)
Inductive val :=
| VInt (z : Z)
| VRaw (bs : list N)
| VStr (s : list N)
| VSeq (l : list val)
| VMap (l : list (val * val))
| VSet (l : list val)
| VPair (a b : val)
| VOpt (o : option val)
| VVar (i : nat) (v : val).

(** Lexicographic comparison, [std::lexicographical_compare]. *)
Fixpoint lex {A} (c : A -> A -> comparison) (a b : list A) : comparison :=
  match a, b with
  | [], [] => Eq
  | [], _ :: _ => Lt
  | _ :: _, [] => Gt
  | x :: a', y :: b' => match c x y with Eq => lex c a' b' | r => r end
  end.

Definition kind (v : val) : nat :=
  match v with
  | VInt _ => 0 | VRaw _ => 1 | VStr _ => 2 | VSeq _ => 3 | VMap _ => 4
  | VSet _ => 5 | VPair _ _ => 6 | VOpt _ => 7 | VVar _ _ => 8
  end.

(** [std::less] on keys of std::map and std::set (operator< of integers,
    strings, vectors, maps, sets, pairs, optionals and variants).  Simplified:
    raw values are ordered by their bytes and user types by their members.  Values of different kinds are never
    compared by well-typed programs. *)
Fixpoint vcmp (a b : val) {struct a} : comparison :=
  match a, b with
  | VInt x, VInt y => Z.compare x y
  | VRaw x, VRaw y => lex N.compare x y
  | VStr x, VStr y => lex N.compare x y
  | VSeq x, VSeq y =>
      (fix go x y := match x, y with
       | [], [] => Eq | [], _ :: _ => Lt | _ :: _, [] => Gt
       | p :: x', q :: y' => match vcmp p q with Eq => go x' y' | r => r end
       end) x y
  | VSet x, VSet y =>
      (fix go x y := match x, y with
       | [], [] => Eq | [], _ :: _ => Lt | _ :: _, [] => Gt
       | p :: x', q :: y' => match vcmp p q with Eq => go x' y' | r => r end
       end) x y
  | VMap x, VMap y =>
      (fix go x y := match x, y with
       | [], [] => Eq | [], _ :: _ => Lt | _ :: _, [] => Gt
       | (p1, p2) :: x', (q1, q2) :: y' =>
           match vcmp p1 q1 with
           | Eq => match vcmp p2 q2 with Eq => go x' y' | r => r end
           | r => r
           end
       end) x y
  | VPair x1 x2, VPair y1 y2 => match vcmp x1 y1 with Eq => vcmp x2 y2 | r => r end
  | VOpt None, VOpt None => Eq
  | VOpt None, VOpt (Some _) => Lt
  | VOpt (Some _), VOpt None => Gt
  | VOpt (Some x), VOpt (Some y) => vcmp x y
  | VVar i x, VVar j y => match Nat.compare i j with Eq => vcmp x y | r => r end
  | _, _ => Nat.compare (kind a) (kind b)
  end.

(** [std::map::insert]: keeps the present element. *)
Fixpoint map_insert (m : list (val * val)) (k v : val) : list (val * val) :=
  match m with
  | [] => [(k, v)]
  | (k', v') :: m' =>
      match vcmp k k' with
      | Lt => (k, v) :: m
      | Eq => m
      | Gt => (k', v') :: map_insert m' k v
      end
  end.

(** [std::set::insert]. *)
Fixpoint set_insert (m : list val) (k : val) : list val :=
  match m with
  | [] => [k]
  | k' :: m' =>
      match vcmp k k' with
      | Lt => k :: m
      | Eq => m
      | Gt => k' :: set_insert m' k
      end
  end.

(** Object representations of integers. *)
Fixpoint le_bytes (w : nat) (n : Z) : list N :=
  match w with
  | O => []
  | S w' => Z.to_N (n mod 256) :: le_bytes w' (n / 256)
  end.

Fixpoint of_le_bytes (bs : list N) : Z :=
  match bs with
  | [] => 0
  | b :: bs' => Z.of_N b + 256 * of_le_bytes bs'
  end%Z.

Definition arrange (o : order) (bs : list N) : list N :=
  match o with Big => rev bs | _ => bs end.

Definition int_bytes (o : order) (w : nat) (z : Z) : list N := arrange o (le_bytes w z).

Definition bytes_int (o : order) (signed : bool) (bs : list N) : Z :=
  let u := of_le_bytes (arrange o bs) in
  let m := (2 ^ (8 * Z.of_nat (length bs)))%Z in
  if (signed && (m / 2 <=? u)%Z)%bool then (u - m)%Z else u.

(* ------------------------------------------------------------------ *)
(** ** The cursor *)

Definition size_modulus : N := 18446744073709551616.

(** binary_rw.hpp:63-65, the members of [cursor_base]; [asked] is the largest
    number of elements a container has been told to make room for. *)
Record cursor := mkcursor { buf : list N; pos : N; err : bool; asked : N }.

Definition size_bytes (c : cursor) : N := N.of_nat (length (buf c)).

(** A cursor over a fresh buffer, binary_rw.hpp:22-31. *)
Definition open_buffer (b : list N) : cursor := mkcursor b 0 false 0.

Definition set_pos (c : cursor) (p : N) : cursor := mkcursor (buf c) p (err c) (asked c).
Definition set_buf (c : cursor) (b : list N) : cursor := mkcursor b (pos c) (err c) (asked c).

(** binary_rw.hpp:57 [notify_error]; also plain [err_ = true]. *)
Definition notify_error (c : cursor) : cursor := mkcursor (buf c) (pos c) true (asked c).

(** [resize(n)] or [reserve(n)] on a container. *)
Definition ask (c : cursor) (n : N) : cursor :=
  mkcursor (buf c) (pos c) (err c) (N.max n (asked c)).

(** binary_rw.hpp:47-50 [left]. *)
Definition left (c : cursor) : N :=
  ((size_bytes c + size_modulus - pos c) mod size_modulus)%N.

(** binary_rw.hpp:45 [empty]. *)
Definition at_end (c : cursor) : bool := (left c <=? 0)%N.

(** The smallest [std::ptrdiff_t]. *)
Definition ptrdiff_min : Z := (-9223372036854775808)%Z.

(** binary_rw.hpp:33-43 [skip].  Negating the smallest offset overflows: UB. *)
Definition skip (c : cursor) (off : Z) : outcome cursor :=
  let c := if ((0 <? off)%Z && (left c <? Z.to_N off)%N)%bool then notify_error c else c in
  if (off <? 0)%Z then
    if (off =? ptrdiff_min)%Z then UB
    else
      let c := if (pos c <? Z.to_N (- off))%N then notify_error c else c in
      if err c then Ok c
      else Ok (set_pos c (Z.to_N ((Z.of_N (pos c) + off) mod Z.of_N size_modulus)))
  else
    if err c then Ok c
    else Ok (set_pos c (Z.to_N ((Z.of_N (pos c) + off) mod Z.of_N size_modulus))).

(** [memcpy(data, buffer_.data() + at, size)]; reading outside is UB. *)
Definition copy_out (b : list N) (at_ size : N) : outcome (list N) :=
  if (N.of_nat (length b) <? at_ + size)%N then UB
  else Ok (firstn (N.to_nat size) (skipn (N.to_nat at_) b)).

(** binary_rw.hpp:153-160 [peek_impl]; [None] is false. *)
Definition peek_impl (c : cursor) (size : N) : outcome (option (list N)) :=
  if (err c || (left c <? size)%N)%bool then Ok None
  else
    bs <- copy_out (buf c) (pos c) size ;;
    Ok (Some bs).

(** binary_rw.hpp:162-170 [read_impl]. *)
Definition read_impl (c : cursor) (size : N) : outcome (cursor * option (list N)) :=
  r <- peek_impl c size ;;
  match r with
  | Some bs => Ok (set_pos c ((pos c + size) mod size_modulus)%N, Some bs)
  | None => Ok (notify_error c, None)
  end.

(** binary_rw.hpp:138-150 [span]. *)
Definition span (c : cursor) (count : N) (move_cursor : bool) : outcome (cursor * list N) :=
  let c := if (left c <? count)%N then notify_error c else c in
  if err c then Ok (c, [])
  else
    bs <- copy_out (buf c) (pos c) count ;;
    Ok (if move_cursor then set_pos c ((pos c + count) mod size_modulus)%N else c, bs).

(* ------------------------------------------------------------------ *)
(** ** Reading *)

(** [for (i = 0; i < n; ++i) body] with [break]: the body's flag says stop.
    Binary recursion so that a loop that stops early is cheap whatever [n]. *)
Fixpoint loop_pos {S} (n : positive) (body : S -> outcome (S * bool)) (s : S)
  : outcome (S * bool) :=
  match n with
  | xH => body s
  | xO n' =>
      ' (s1, stop) <- loop_pos n' body s ;;
      if stop : bool then Ok (s1, true) else loop_pos n' body s1
  | xI n' =>
      ' (s0, stop0) <- body s ;;
      if stop0 : bool then Ok (s0, true)
      else
        ' (s1, stop) <- loop_pos n' body s0 ;;
        if stop : bool then Ok (s1, true) else loop_pos n' body s1
  end.

Definition loop {S} (n : N) (body : S -> outcome (S * bool)) (s : S) : outcome (S * bool) :=
  match n with
  | N0 => Ok (s, false)
  | Npos p => loop_pos p body s
  end.

(** binary_rw.hpp:68-70 [is_simple]: arithmetic types and enums. *)
Definition is_simple (t : ty) : bool :=
  match t with
  | TInt Native _ _ => true
  | TRaw simple _ => simple
  | _ => false
  end.

(** [sizeof] of the fixed-size types. *)
Definition width (t : ty) : nat :=
  match t with
  | TInt _ _ w => w
  | TRaw _ w => w
  | _ => 0
  end.

(** The value of a fixed-size type with the given object representation. *)
Definition of_repr (t : ty) (bs : list N) : val :=
  match t with
  | TInt o s _ => VInt (bytes_int o s bs)
  | _ => VRaw bs
  end.

(** Object representation of a fixed-size value. *)
Definition repr (t : ty) (v : val) : list N :=
  match t, v with
  | TInt o _ w, VInt z => int_bytes o w z
  | _, VRaw bs => bs
  | _, _ => []
  end.

(** The value-initialised object [T{}], binary_rw.hpp:123 and 132. *)
Fixpoint dflt (t : ty) : val :=
  match t with
  | TInt _ _ _ => VInt 0
  | TRaw _ w => VRaw (repeat 0%N w)
  | TStr => VStr []
  | TVec _ => VSeq []
  | TMap _ _ => VMap []
  | TSet _ => VSet []
  | TPair a b => VPair (dflt a) (dflt b)
  | TOpt _ => VOpt None
  | TVar [] => VOpt None   (* std::variant<> cannot be constructed *)
  | TVar (t0 :: _) => VVar 0 (dflt t0)
  | TRec ts => VSeq (map dflt ts)
  end.

(** Cut a byte string into chunks of [w] bytes: the elements of a span. *)
Fixpoint chunks (n : nat) (w : nat) (bs : list N) : list (list N) :=
  match n with
  | O => []
  | S n' => firstn w bs :: chunks n' w (skipn w bs)
  end.

(** binary_rw.hpp:90-97 [read_raw] into a fixed-size object. *)
Definition read_raw (t : ty) (old : val) (c : cursor) : outcome (cursor * val) :=
  ' (c1, r) <- read_impl c (N.of_nat (width t)) ;;
  match r with
  | Some bs => Ok (c1, of_repr t bs)
  | None => Ok (c1, old)
  end.

(** [r.read<std::uintN_t>()] as used for sizes and tags: binary_rw.hpp:110-126
    with [read_binary] of a native unsigned integer; a failed read gives 0. *)
Definition read_uint (w : nat) (c : cursor) : outcome (cursor * N) :=
  if err c then Ok (c, 0%N)
  else
    ' (c1, r) <- read_impl c (N.of_nat w) ;;
    match r with
    | Some bs => Ok (c1, Z.to_N (bytes_int Native false bs))
    | None => Ok (c1, 0%N)
    end.

(** [read_binary(r, value)]: integers and raw types binary_rw.hpp:174-178 and
    endian.hpp:18-24; strings string.hpp:19-34; vectors vector.hpp:31-71 and
    86-90; maps map.hpp:21-36; sets set.hpp:19-35; pairs pair.hpp:17-26;
    optionals optional.hpp:17-25; variants variant.hpp:11-32 and 42-50; user types
    tests/binary_rw_test.cpp:778-783, every member with operator>>
    (binary_rw.hpp:187-192), which looks at no error.
    [old] is the destination's value before the call. *)
Fixpoint read_binary (t : ty) (old : val) (c : cursor) {struct t} : outcome (cursor * val) :=
  match t with
  | TInt _ _ _ | TRaw _ _ => read_raw t old c
  | TStr =>
      ' (c1, size) <- read_uint 4 c ;;
      if (size =? 0)%N then Ok (c1, VStr [])
      else
        ' (c2, r) <- read_impl (ask c1 size) size ;;
        if err c2 then Ok (c2, VStr [])
        else match r with
             | Some bs => Ok (c2, VStr bs)
             | None => Ok (c2, VStr [])
             end
  | TVec t1 =>
      ' (c1, size) <- read_uint 4 c ;;
      if is_simple t1 then
        if (size =? 0)%N then Ok (c1, VSeq [])
        else
          ' (c2, r) <- read_impl (ask c1 size) (size * N.of_nat (width t1))%N ;;
          if err c2 then Ok (c2, VSeq [])
          else match r with
               | Some bs =>
                   Ok (c2, VSeq (map (of_repr t1) (chunks (N.to_nat size) (width t1) bs)))
               | None => Ok (c2, VSeq [])
               end
      else
        ' (st, _) <- loop size
          (fun st : cursor * list val =>
             let '(c, vec) := st in
             (* vec.push_back(r.read<T>()): binary_rw.hpp:119-126 *)
             ' (c1, v) <- (if err c then Ok (c, dflt t1) else read_binary t1 (dflt t1) c) ;;
             if err c1 then Ok ((c1, []), true) else Ok ((c1, vec ++ [v]), false))
          (ask c1 size, []) ;;
        Ok (fst st, VSeq (snd st))
  | TMap tk tv =>
      ' (c1, size) <- read_uint 4 c ;;
      ' (st, _) <- loop size
        (fun st : cursor * list (val * val) =>
           let '(c, m) := st in
           ' (c1, k) <- (if err c then Ok (c, dflt tk) else read_binary tk (dflt tk) c) ;;
           ' (c2, v) <- (if err c1 then Ok (c1, dflt tv) else read_binary tv (dflt tv) c1) ;;
           if err c2 then Ok ((c2, []), true) else Ok ((c2, map_insert m k v), false))
        (c1, []) ;;
      Ok (fst st, VMap (snd st))
  | TSet tk =>
      ' (c1, size) <- read_uint 4 c ;;
      ' (st, _) <- loop size
        (fun st : cursor * list val =>
           let '(c, m) := st in
           ' (c1, k) <- (if err c then Ok (c, dflt tk) else read_binary tk (dflt tk) c) ;;
           if err c1 then Ok ((c1, []), true) else Ok ((c1, set_insert m k), false))
        (c1, []) ;;
      Ok (fst st, VSet (snd st))
  | TPair ta tb =>
      match old with
      | VPair a b =>
          if err c then Ok (c, old)
          else
            ' (c1, a1) <- read_binary ta a c ;;
            if err c1 then Ok (c1, VPair a1 b)
            else
              ' (c2, b1) <- read_binary tb b c1 ;;
              Ok (c2, VPair a1 b1)
      | _ => UB
      end
  | TOpt t1 =>
      ' (c1, not_empty) <- read_uint 1 c ;;
      if (negb (err c1) && negb (not_empty =? 0)%N)%bool then
        ' (c2, v) <- (if err c1 then Ok (c1, dflt t1) else read_binary t1 (dflt t1) c1) ;;
        Ok (c2, VOpt (Some v))
      else Ok (c1, VOpt None)
  | TVar ts =>
      ' (c1, index) <- read_uint 1 c ;;
      if err c1 then Ok (c1, old)
      else
        (* detail::visit_by_index; [k] counts the alternatives passed *)
        (fix visit (ts : list ty) (index k : nat) : outcome (cursor * val) :=
           match ts with
           | [] => Ok (notify_error c1, old)
           | head :: tail =>
               match index with
               | O =>
                   ' (c2, v) <- (if err c1 then Ok (c1, dflt head)
                                 else read_binary head (dflt head) c1) ;;
                   if err c2 then Ok (c2, old) else Ok (c2, VVar k v)
               | S index' => visit tail index' (S k)
               end
           end) ts (N.to_nat index) 0
  | TRec ts =>
      match old with
      | VSeq olds =>
          ' (c1, vs) <-
            (fix members (ts : list ty) (olds : list val) (c : cursor) : outcome (cursor * list val) :=
               match ts, olds with
               | [], [] => Ok (c, [])
               | t0 :: ts', o :: olds' =>
                   ' (c1, v) <- read_binary t0 o c ;;
                   ' (c2, vs) <- members ts' olds' c1 ;;
                   Ok (c2, v :: vs)
               | _, _ => UB
               end) ts olds c ;;
          Ok (c1, VSeq vs)
      | _ => UB
      end
  end.

(** binary_rw.hpp:110-117 [read(T&)]; the flag is the returned bool. *)
Definition read_into (t : ty) (old : val) (c : cursor) : outcome (cursor * val * bool) :=
  if err c then Ok (c, old, false)
  else
    ' (c1, v) <- read_binary t old c ;;
    Ok (c1, v, negb (err c1)).

(** binary_rw.hpp:119-126 [read<T>()]. *)
Definition read_value (t : ty) (c : cursor) : outcome (cursor * val) :=
  if err c then Ok (c, dflt t) else read_binary t (dflt t) c.

(** binary_rw.hpp:79-88 [peek(T&)] for fixed-size types. *)
Definition peek (t : ty) (old : val) (c : cursor) : outcome (val * bool) :=
  r <- peek_impl c (N.of_nat (width t)) ;;
  match r with
  | Some bs => Ok (of_repr t bs, true)
  | None => Ok (old, false)
  end.

(** The public operations of a reader, with their arguments. *)
Inductive reader_op :=
| RRead (t : ty) (old : val)
| RExtract (t : ty) (old : val)
| RPeek (t : ty)
| RSkip (off : Z)
| RSpan (count : N) (move_cursor : bool)
| RNotify.

Definition reader_step (c : cursor) (o : reader_op) : outcome cursor :=
  match o with
  | RRead t old => ' (c1, _, _) <- read_into t old c ;; Ok c1
  | RExtract t old => ' (c1, _) <- read_binary t old c ;; Ok c1
  | RPeek t => ' _ <- peek t (dflt t) c ;; Ok c
  | RSkip off => skip c off
  | RSpan count mv => ' (c1, _) <- span c count mv ;; Ok c1
  | RNotify => Ok (notify_error c)
  end.

Fixpoint reader_run (c : cursor) (os : list reader_op) : outcome cursor :=
  match os with
  | [] => Ok c
  | o :: os' => c1 <- reader_step c o ;; reader_run c1 os'
  end.

(* ------------------------------------------------------------------ *)
(** ** Writing *)

(** [memcpy(buffer_.data() + at, data, size)]; writing outside is UB. *)
Definition copy_in (b : list N) (at_ : N) (data : list N) : outcome (list N) :=
  if (N.of_nat (length b) <? at_ + N.of_nat (length data))%N then UB
  else Ok (firstn (N.to_nat at_) b ++ data ++ skipn (N.to_nat at_ + length data) b).

(** binary_rw.hpp:230-242 [write_impl]. *)
Definition write_impl (c : cursor) (data : list N) : outcome cursor :=
  let size := N.of_nat (length data) in
  if (err c || (left c <? size)%N)%bool then Ok (notify_error c)
  else
    b <- copy_in (buf c) (pos c) data ;;
    Ok (set_pos (set_buf c b) ((pos c + size) mod size_modulus)%N).

(** [w << static_cast<std::uint32_t>(n)] and the 8-bit variant. *)
Definition write_uint (w : nat) (n : N) (c : cursor) : outcome cursor :=
  write_impl c (int_bytes Native w (Z.of_N n mod 2 ^ (8 * Z.of_nat w))).

(** [for (x : l) body(x)]. *)
Fixpoint for_each {A} (f : A -> cursor -> outcome cursor) (l : list A) (c : cursor)
  : outcome cursor :=
  match l with
  | [] => Ok c
  | x :: l' => c1 <- f x c ;; for_each f l' c1
  end.

(** [write_binary(w, value)]: binary_rw.hpp:246-258, endian.hpp:9-16,
    string.hpp:11-17, vector.hpp:11-29 and 80-84, map.hpp:9-19, set.hpp:9-17,
    pair.hpp:9-15, optional.hpp:9-15, variant.hpp:35-40, user types
    tests/binary_rw_test.cpp:785-790.  A value that is not
    of the type cannot occur in a typed program: UB. *)
Fixpoint write_binary (t : ty) (v : val) (c : cursor) {struct t} : outcome cursor :=
  match t, v with
  | TInt _ _ _, VInt _ | TRaw _ _, VRaw _ => write_impl c (repr t v)
  | TStr, VStr s =>
      c1 <- write_uint 4 (N.of_nat (length s)) c ;;
      match s with
      | [] => Ok c1
      | _ => write_impl c1 s
      end
  | TVec t1, VSeq l =>
      c1 <- write_uint 4 (N.of_nat (length l)) c ;;
      if is_simple t1 then write_impl c1 (concat (map (repr t1) l))
      else for_each (write_binary t1) l c1
  | TMap tk tv, VMap l =>
      c1 <- write_uint 4 (N.of_nat (length l)) c ;;
      for_each (fun kv c => c2 <- write_binary tk (fst kv) c ;; write_binary tv (snd kv) c2) l c1
  | TSet tk, VSet l =>
      c1 <- write_uint 4 (N.of_nat (length l)) c ;;
      for_each (write_binary tk) l c1
  | TPair ta tb, VPair a b =>
      c1 <- write_binary ta a c ;;
      write_binary tb b c1
  | TOpt t1, VOpt o =>
      match o with
      | None => write_uint 1 0 c
      | Some v1 => c1 <- write_uint 1 1 c ;; write_binary t1 v1 c1
      end
  | TVar ts, VVar i v1 =>
      c1 <- write_uint 1 (N.of_nat i) c ;;
      (fix visit (ts : list ty) (i : nat) : outcome cursor :=
         match ts, i with
         | t0 :: _, O => write_binary t0 v1 c1
         | _ :: ts', S i' => visit ts' i'
         | [], _ => UB
         end) ts i
  | TRec ts, VSeq vs =>
      (fix members (ts : list ty) (vs : list val) (c : cursor) : outcome cursor :=
         match ts, vs with
         | [], [] => Ok c
         | t0 :: ts', v0 :: vs' => c1 <- write_binary t0 v0 c ;; members ts' vs' c1
         | _, _ => UB
         end) ts vs c
  | _, _ => UB
  end.
