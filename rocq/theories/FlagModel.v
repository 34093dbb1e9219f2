(** [bool] in binary streams: kl/binary_rw.hpp:90-97 [read_raw] copies any byte into it, and the adapters in
    kl/binary_rw/*.hpp then move what they have read.  Of the bytes only 0 and 1 are values of [bool]; to move a [bool] that holds
    another one is undefined.

    The types are those of BinModel with the places of [bool] marked; the reader is BinModel's, with the moves.
    Simplifications: [return value;] of [read<T>()] (binary_rw.hpp:119-126) is elided; moving a user type moves its members, moving a
    vector, map or set moves no element; comparing keys looks at nothing but what is moved with them (key types have no [bool] in containers). *)
From Coq Require Import List NArith ZArith Arith Bool.
From Verif Require Import Base BinModel.
Import ListNotations.
Local Open Scope outcome_scope.

Inductive fty :=
| FPlain (t : ty)                   (* any type without bool *)
| FFlag                             (* bool *)
| FVec (t : fty) | FMap (k t : fty) | FSet (t : fty) | FPair (a b : fty) | FOpt (t : fty) | FVar (ts : list fty) | FRec (ts : list fty).

(** A [bool] is one byte. *)
Fixpoint erase (t : fty) : ty :=
  match t with
  | FPlain t => t
  | FFlag => TInt Native false 1
  | FVec t => TVec (erase t)
  | FMap k t => TMap (erase k) (erase t)
  | FSet t => TSet (erase t)
  | FPair a b => TPair (erase a) (erase b)
  | FOpt t => TOpt (erase t)
  | FVar ts => TVar (map erase ts)
  | FRec ts => TRec (map erase ts)
  end.

(** Whether the value can be moved: every [bool] that is moved is 0 or 1. *)
Fixpoint movable (t : fty) (v : val) {struct t} : bool :=
  match t, v with
  | FFlag, VInt z => ((z =? 0) || (z =? 1))%Z
  | FPair ta tb, VPair a b => movable ta a && movable tb b
  | FOpt t, VOpt (Some v) => movable t v
  | FVar ts, VVar i v =>
      (fix pick (ts : list fty) (i : nat) : bool :=
         match ts, i with
         | t0 :: _, O => movable t0 v
         | _ :: ts', S i' => pick ts' i'
         | [], _ => true
         end) ts i
  | FRec ts, VSeq vs =>
      (fix members (ts : list fty) (vs : list val) : bool :=
         match ts, vs with
         | t0 :: ts', v0 :: vs' => movable t0 v0 && members ts' vs'
         | _, _ => true
         end) ts vs
  | _, _ => true
  end.

(** [read_binary(r, value)]: vectors vector.hpp:31-71, maps map.hpp:21-36, sets set.hpp:19-35, pairs pair.hpp:17-26, optionals
    optional.hpp:17-25, variants variant.hpp:11-32 and 42-50.  Elements, keys and mapped values, contents of optionals are moved also
    after an error, alternatives of variants are not. *)
Fixpoint read_flags (t : fty) (old : val) (c : cursor) {struct t} : outcome (cursor * val) :=
  match t with
  | FPlain t => read_binary t old c
  | FFlag => read_raw (TInt Native false 1) old c
  | FVec t1 =>
      if is_simple (erase t1) then read_binary (TVec (erase t1)) old c
      else
        ' (c1, size) <- read_uint 4 c ;;
        ' (st, _) <- loop size
          (fun st : cursor * list val =>
             let '(c, vec) := st in
             ' (c1, v) <- (if err c then Ok (c, dflt (erase t1)) else read_flags t1 (dflt (erase t1)) c) ;;
             if movable t1 v then (if err c1 then Ok ((c1, []), true) else Ok ((c1, vec ++ [v]), false)) else UB)
          (ask c1 size, []) ;;
        Ok (fst st, VSeq (snd st))
  | FMap tk tv =>
      ' (c1, size) <- read_uint 4 c ;;
      ' (st, _) <- loop size
        (fun st : cursor * list (val * val) =>
           let '(c, m) := st in
           ' (c1, k) <- (if err c then Ok (c, dflt (erase tk)) else read_flags tk (dflt (erase tk)) c) ;;
           ' (c2, v) <- (if err c1 then Ok (c1, dflt (erase tv)) else read_flags tv (dflt (erase tv)) c1) ;;
           if movable tk k && movable tv v then (if err c2 then Ok ((c2, []), true) else Ok ((c2, map_insert m k v), false)) else UB)
        (c1, []) ;;
      Ok (fst st, VMap (snd st))
  | FSet tk =>
      ' (c1, size) <- read_uint 4 c ;;
      ' (st, _) <- loop size
        (fun st : cursor * list val =>
           let '(c, m) := st in
           ' (c1, k) <- (if err c then Ok (c, dflt (erase tk)) else read_flags tk (dflt (erase tk)) c) ;;
           if movable tk k then (if err c1 then Ok ((c1, []), true) else Ok ((c1, set_insert m k), false)) else UB)
        (c1, []) ;;
      Ok (fst st, VSet (snd st))
  | FPair ta tb =>
      match old with
      | VPair a b =>
          if err c then Ok (c, old)
          else
            ' (c1, a1) <- read_flags ta a c ;;
            if err c1 then Ok (c1, VPair a1 b)
            else
              ' (c2, b1) <- read_flags tb b c1 ;;
              Ok (c2, VPair a1 b1)
      | _ => UB
      end
  | FOpt t1 =>
      ' (c1, not_empty) <- read_uint 1 c ;;
      if (negb (err c1) && negb (not_empty =? 0)%N)%bool then
        ' (c2, v) <- (if err c1 then Ok (c1, dflt (erase t1)) else read_flags t1 (dflt (erase t1)) c1) ;;
        if movable t1 v then Ok (c2, VOpt (Some v)) else UB
      else Ok (c1, VOpt None)
  | FVar ts =>
      ' (c1, index) <- read_uint 1 c ;;
      if err c1 then Ok (c1, old)
      else
        (fix visit (ts : list fty) (index k : nat) : outcome (cursor * val) :=
           match ts with
           | [] => Ok (notify_error c1, old)
           | head :: tail =>
               match index with
               | O =>
                   ' (c2, v) <- (if err c1 then Ok (c1, dflt (erase head)) else read_flags head (dflt (erase head)) c1) ;;
                   if err c2 then Ok (c2, old) else if movable head v then Ok (c2, VVar k v) else UB
               | S index' => visit tail index' (S k)
               end
           end) ts (N.to_nat index) 0
  | FRec ts =>
      match old with
      | VSeq olds =>
          ' (c1, vs) <-
            (fix members (ts : list fty) (olds : list val) (c : cursor) : outcome (cursor * list val) :=
               match ts, olds with
               | [], [] => Ok (c, [])
               | t0 :: ts', o :: olds' =>
                   ' (c1, v) <- read_flags t0 o c ;;
                   ' (c2, vs) <- members ts' olds' c1 ;;
                   Ok (c2, v :: vs)
               | _, _ => UB
               end) ts olds c ;;
          Ok (c1, VSeq vs)
      | _ => UB
      end
  end.
