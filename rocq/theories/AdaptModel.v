(** Model of include/kl/binary_rw.hpp and include/kl/binary_rw/*.hpp with user
    types whose [read_binary] and [write_binary] are arbitrary code.

    What user code does with a reader or writer is a [prog] or [wprog]: it can
    look at it, call its public functions in any order with arguments that depend
    on everything seen so far, stream values of other types, return or throw.
    Exceptions carry what the destination holds when they leave the function.
    Moves, copies and allocation do not throw.  A destination that is not of the
    type cannot occur in a typed program. *)
From Coq Require Import List NArith ZArith Bool.
From Verif Require Import Base BinModel.
Import ListNotations.

(** How a call ends: it returns, throws, or the behaviour is undefined. *)
Inductive ending (A : Type) :=
| Done (c : cursor) (a : A)
| Threw (c : cursor) (a : A)
| Undef.
Arguments Done {A}.
Arguments Threw {A}.
Arguments Undef {A}.

(** The types: those without user types (with the functions of BinModel.v), the
    containers of others, and user types with their [T{}], [read_binary] and
    [write_binary]. *)
Inductive uty :=
| UStd (t : ty)
| UVec (t : uty)
| UMap (k t : uty)
| USet (t : uty)
| UPair (a b : uty)
| UOpt (t : uty)
| UVar (ts : list uty)
| UUser (fresh : val) (rd : val -> prog) (wr : val -> wprog)

(** The body of [read_binary(binary_reader&, T&)]; what the functions of
    binary_rw.hpp:33-57 and 79-150 and operator>> (187-200) return decides how it
    goes on, [h] is what it does when one throws. *)
with prog :=
| PRet (v : val)
| PThrow (v : val)
| PLook (k : bool -> N -> N -> prog)                      (* err(), left(), pos() *)
| PNotify (k : prog)                                      (* notify_error() *)
| PSkip (off : Z) (k : prog)                              (* skip(off) *)
| PSpan (count : N) (move_cursor : bool) (k : list N -> prog)
| PPeek (size : N) (k : option (list N) -> prog)          (* peek of a [size]-byte object *)
| PRaw (size : N) (k : option (list N) -> prog)           (* read_raw, read_span *)
| PExtract (t : uty) (old : val) (k h : val -> prog)      (* r >> x *)
| PRead (t : uty) (old : val) (k : val -> bool -> prog) (h : val -> prog)   (* r.read(x) *)

(** The body of [write_binary(binary_writer&, const T&)]. *)
with wprog :=
| WRet
| WThrow
| WLook (k : bool -> N -> N -> wprog)
| WNotify (k : wprog)
| WSkip (off : Z) (k : wprog)
| WRaw (bs : list N) (k : wprog)                          (* write_raw, write_span *)
| WInsert (t : uty) (v : val) (k h : wprog).              (* w << v *)

(** [T{}], binary_rw.hpp:123. *)
Fixpoint fresh_of (t : uty) : val :=
  match t with
  | UStd t => dflt t
  | UVec _ => VSeq []
  | UMap _ _ => VMap []
  | USet _ => VSet []
  | UPair a b => VPair (fresh_of a) (fresh_of b)
  | UOpt _ => VOpt None
  | UVar [] => VOpt None
  | UVar (t0 :: _) => VVar 0 (fresh_of t0)
  | UUser v _ _ => v
  end.

Definition ended (o : outcome (cursor * val)) : ending val :=
  match o with
  | Ok (c, v) => Done c v
  | _ => Undef
  end.

(** binary_rw.hpp:119-126 [r.read<T>()]. *)
Definition read_fresh (rd : val -> cursor -> ending val) (fresh : val) (c : cursor) : ending val :=
  if err c then Done c fresh else rd fresh c.

(** The loops of vector.hpp:61-70, map.hpp:27-35 and set.hpp:26-34: [item] makes
    the next container of the last one.  The second flag says that it threw. *)
Definition fill {R} (none : R) (item : R -> cursor -> ending R) (st : cursor * R * bool)
  : outcome (cursor * R * bool * bool) :=
  match item (snd (fst st)) (fst (fst st)) with
  | Done c r => if err c then Ok ((c, none, false), true) else Ok ((c, r, false), false)
  | Threw c _ => Ok ((c, snd (fst st), true), true)
  | Undef => UB
  end.

Definition filled {R} (wrap : R -> val) (o : outcome (cursor * R * bool * bool)) : ending val :=
  match o with
  | Ok ((c, r, threw), _) => if threw then Threw c (wrap r) else Done c (wrap r)
  | _ => Undef
  end.

(** One element: [vec.push_back(r.read<T>())], [map.insert({r.read<K>(),
    r.read<V>()})] and [set.insert(r.read<T>())]. *)
Definition push_item (rd : cursor -> ending val) (vec : list val) (c : cursor) : ending (list val) :=
  match rd c with
  | Done c1 v => Done c1 (vec ++ [v])
  | Threw c1 _ => Threw c1 vec
  | Undef => Undef
  end.

Definition map_item (rk rv : cursor -> ending val) (m : list (val * val)) (c : cursor) : ending (list (val * val)) :=
  match rk c with
  | Done c1 k =>
      match rv c1 with
      | Done c2 v => Done c2 (map_insert m k v)
      | Threw c2 _ => Threw c2 m
      | Undef => Undef
      end
  | Threw c1 _ => Threw c1 m
  | Undef => Undef
  end.

Definition set_item (rd : cursor -> ending val) (m : list val) (c : cursor) : ending (list val) :=
  match rd c with
  | Done c1 k => Done c1 (set_insert m k)
  | Threw c1 _ => Threw c1 m
  | Undef => Undef
  end.

(** Element types that vectors read and write at once, vector.hpp:73-77. *)
Definition at_once (t : uty) : option ty :=
  match t with
  | UStd t0 => if is_simple t0 then Some t0 else None
  | _ => None
  end.

(** [read_binary(r, value)]; for the lines see BinModel.v. *)
Fixpoint uread (t : uty) (old : val) (c : cursor) {struct t} : ending val :=
  match t with
  | UStd t0 => ended (read_binary t0 old c)
  | UVec t1 =>
      match at_once t1 with
      | Some t0 => ended (read_binary (TVec t0) old c)
      | None =>
          match read_uint 4 c with
          | Ok (c1, size) =>
              filled VSeq (loop size (fill [] (push_item (read_fresh (uread t1) (fresh_of t1))))
                (ask c1 size, [], false))
          | _ => Undef
          end
      end
  | UMap tk tv =>
      match read_uint 4 c with
      | Ok (c1, size) =>
          filled VMap (loop size (fill [] (map_item (read_fresh (uread tk) (fresh_of tk))
              (read_fresh (uread tv) (fresh_of tv)))) (c1, [], false))
      | _ => Undef
      end
  | USet tk =>
      match read_uint 4 c with
      | Ok (c1, size) =>
          filled VSet (loop size (fill [] (set_item (read_fresh (uread tk) (fresh_of tk)))) (c1, [], false))
      | _ => Undef
      end
  | UPair ta tb =>
      if err c then Done c old
      else
        let '(a, b) := match old with VPair a b => (a, b) | _ => (fresh_of ta, fresh_of tb) end in
        match uread ta a c with
        | Done c1 a1 =>
            if err c1 then Done c1 (VPair a1 b)
            else
              match uread tb b c1 with
              | Done c2 b1 => Done c2 (VPair a1 b1)
              | Threw c2 b1 => Threw c2 (VPair a1 b1)
              | Undef => Undef
              end
        | Threw c1 a1 => Threw c1 (VPair a1 b)
        | Undef => Undef
        end
  | UOpt t1 =>
      match read_uint 1 c with
      | Ok (c1, not_empty) =>
          if (negb (err c1) && negb (not_empty =? 0)%N)%bool then
            match read_fresh (uread t1) (fresh_of t1) c1 with
            | Done c2 v => Done c2 (VOpt (Some v))
            | Threw c2 _ => Threw c2 old
            | Undef => Undef
            end
          else Done c1 (VOpt None)
      | _ => Undef
      end
  | UVar ts =>
      match read_uint 1 c with
      | Ok (c1, index) =>
          if err c1 then Done c1 old
          else
            (fix visit (ts : list uty) (index k : nat) : ending val :=
               match ts with
               | [] => Done (notify_error c1) old
               | head :: tail =>
                   match index with
                   | O =>
                       match read_fresh (uread head) (fresh_of head) c1 with
                       | Done c2 v => if err c2 then Done c2 old else Done c2 (VVar k v)
                       | Threw c2 _ => Threw c2 old
                       | Undef => Undef
                       end
                   | S index' => visit tail index' (S k)
                   end
               end) ts (N.to_nat index) 0
      | _ => Undef
      end
  | UUser _ rd _ => run (rd old) c
  end

(** User code. *)
with run (p : prog) (c : cursor) {struct p} : ending val :=
  match p with
  | PRet v => Done c v
  | PThrow v => Threw c v
  | PLook k => run (k (err c) (left c) (pos c)) c
  | PNotify k => run k (notify_error c)
  | PSkip off k => match skip c off with Ok c1 => run k c1 | _ => Undef end
  | PSpan count mv k => match span c count mv with Ok (c1, bs) => run (k bs) c1 | _ => Undef end
  | PPeek size k => match peek_impl c size with Ok r => run (k r) c | _ => Undef end
  | PRaw size k => match read_impl c size with Ok (c1, r) => run (k r) c1 | _ => Undef end
  | PExtract t old k h =>
      match uread t old c with
      | Done c1 v => run (k v) c1
      | Threw c1 v => run (h v) c1
      | Undef => Undef
      end
  | PRead t old k h =>
      if err c then run (k old false) c
      else
        match uread t old c with
        | Done c1 v => run (k v (negb (err c1))) c1
        | Threw c1 v => run (h v) c1
        | Undef => Undef
        end
  end.

(** [for (x : l) w << x]; an exception leaves the loop. *)
Fixpoint write_each {A} (f : A -> cursor -> ending unit) (l : list A) (c : cursor) : ending unit :=
  match l with
  | [] => Done c tt
  | x :: l' =>
      match f x c with
      | Done c1 _ => write_each f l' c1
      | r => r
      end
  end.

Definition then_write (r : ending unit) (f : cursor -> ending unit) : ending unit :=
  match r with
  | Done c _ => f c
  | _ => r
  end.

Definition wrote (o : outcome cursor) : ending unit :=
  match o with
  | Ok c => Done c tt
  | _ => Undef
  end.

(** [write_binary(w, value)]; for the lines see BinModel.v. *)
Fixpoint uwrite (t : uty) (v : val) (c : cursor) {struct t} : ending unit :=
  match t, v with
  | UStd t0, _ => wrote (write_binary t0 v c)
  | UVec t1, VSeq l =>
      match at_once t1 with
      | Some t0 => wrote (write_binary (TVec t0) v c)
      | None => then_write (wrote (write_uint 4 (N.of_nat (length l)) c)) (write_each (uwrite t1) l)
      end
  | UMap tk tv, VMap l =>
      then_write (wrote (write_uint 4 (N.of_nat (length l)) c))
        (write_each (fun kv c => then_write (uwrite tk (fst kv) c) (uwrite tv (snd kv))) l)
  | USet tk, VSet l =>
      then_write (wrote (write_uint 4 (N.of_nat (length l)) c)) (write_each (uwrite tk) l)
  | UPair ta tb, VPair a b => then_write (uwrite ta a c) (uwrite tb b)
  | UOpt t1, VOpt o =>
      match o with
      | None => wrote (write_uint 1 0 c)
      | Some v1 => then_write (wrote (write_uint 1 1 c)) (uwrite t1 v1)
      end
  | UVar ts, VVar i v1 =>
      then_write (wrote (write_uint 1 (N.of_nat i) c))
        (fun c1 =>
           (fix visit (ts : list uty) (i : nat) : ending unit :=
              match ts, i with
              | t0 :: _, O => uwrite t0 v1 c1
              | _ :: ts', S i' => visit ts' i'
              | [], _ => Undef
              end) ts i)
  | UUser _ _ wr, _ => wrun (wr v) c
  | _, _ => Undef
  end

with wrun (p : wprog) (c : cursor) {struct p} : ending unit :=
  match p with
  | WRet => Done c tt
  | WThrow => Threw c tt
  | WLook k => wrun (k (err c) (left c) (pos c)) c
  | WNotify k => wrun k (notify_error c)
  | WSkip off k => match skip c off with Ok c1 => wrun k c1 | _ => Undef end
  | WRaw bs k => match write_impl c bs with Ok c1 => wrun k c1 | _ => Undef end
  | WInsert t v k h =>
      match uwrite t v c with
      | Done c1 _ => wrun k c1
      | Threw c1 _ => wrun h c1
      | Undef => Undef
      end
  end.
