(** What is asked of user code, and how containers of user types are read. *)
From Coq Require Import List NArith ZArith Bool.
From Verif Require Import Base BinModel BinSpec AdaptModel.
Import ListNotations.

(** Types read without looking at what the destination held. *)
Definition overwritten (t : ty) : Prop :=
  match t with
  | TPair _ _ | TRec _ | TVar _ => False
  | _ => True
  end.

(** User code that passes no impossible argument: never PTRDIFF_MIN to skip,
    bytes are bytes, and the values it writes are values of their types.
    Nothing is asked about what it does, or whether it looks at errors. *)
Fixpoint careful (t : uty) : Prop :=
  match t with
  | UStd t0 => wf_ty t0 /\ overwritten t0
  | UVec t1 | USet t1 | UOpt t1 => careful t1
  | UMap a b | UPair a b => careful a /\ careful b
  | UVar ts => 1 <= length ts <= 256 /\
      (fix all (ts : list uty) : Prop :=
         match ts with [] => True | t0 :: ts' => careful t0 /\ all ts' end) ts
  | UUser _ rd _ => forall old, careful_reader (rd old)
  end
with careful_reader (p : prog) : Prop :=
  match p with
  | PRet _ | PThrow _ => True
  | PLook k => forall e l n, careful_reader (k e l n)
  | PNotify k => careful_reader k
  | PSkip off k => ptrdiff_ok off /\ careful_reader k
  | PSpan _ _ k => forall bs, careful_reader (k bs)
  | PPeek _ k | PRaw _ k => forall r, careful_reader (k r)
  | PExtract t _ k h => careful t /\ (forall v, careful_reader (k v)) /\ (forall v, careful_reader (h v))
  | PRead t _ k h => careful t /\ (forall v b, careful_reader (k v b)) /\ (forall v, careful_reader (h v))
  end.

(** The values of a type; those of a user type are the ones its writer can be
    given: it then passes no impossible argument on. *)
Fixpoint value_of (t : uty) (v : val) {struct t} : Prop :=
  match t, v with
  | UStd t0, _ => has_ty t0 v
  | UVec t1, VSeq l => Forall (value_of t1) l
  | UMap tk tv, VMap l => Forall (fun kv => value_of tk (fst kv) /\ value_of tv (snd kv)) l
  | USet tk, VSet l => Forall (value_of tk) l
  | UPair ta tb, VPair a b => value_of ta a /\ value_of tb b
  | UOpt t1, VOpt (Some v1) => value_of t1 v1
  | UOpt t1, VOpt None => True
  | UVar ts, VVar i v1 =>
      (fix pick (ts : list uty) (i : nat) : Prop :=
         match ts, i with
         | t0 :: _, O => value_of t0 v1
         | _ :: ts', S i' => pick ts' i'
         | [], _ => False
         end) ts i
  | UUser _ _ wr, _ => careful_writer (wr v)
  | _, _ => False
  end
with careful_writer (p : wprog) {struct p} : Prop :=
  match p with
  | WRet | WThrow => True
  | WLook k => forall e l n, careful_writer (k e l n)
  | WNotify k => careful_writer k
  | WSkip off k => ptrdiff_ok off /\ careful_writer k
  | WRaw bs k => Forall is_octet bs /\ careful_writer k
  | WInsert t v k h => value_of t v /\ careful_writer k /\ careful_writer h
  end.

(** The cursor a call ends with satisfies [P]; the behaviour is defined. *)
Definition ends_with {A} (P : cursor -> Prop) (r : ending A) : Prop :=
  match r with
  | Done c _ | Threw c _ => P c
  | Undef => False
  end.

(** Elements made one after another, none of them with an error. *)
Inductive in_turn {A} (makes : cursor -> A -> cursor -> Prop) : cursor -> list A -> cursor -> Prop :=
| turn_none c : in_turn makes c [] c
| turn_next c a c1 l c2 : makes c a c1 -> err c1 = false -> in_turn makes c1 l c2 -> in_turn makes c (a :: l) c2.

(** Reading a fresh object of the type. *)
Definition makes (t : uty) (c : cursor) (v : val) (c' : cursor) : Prop := uread t (fresh_of t) c = Done c' v.

Definition makes_both (tk tv : uty) (c : cursor) (kv : val * val) (c' : cursor) : Prop :=
  exists c1, makes tk c (fst kv) c1 /\ err c1 = false /\ makes tv c1 (snd kv) c'.

Definition fails_at (t : uty) (c c' : cursor) : Prop := exists v, uread t (fresh_of t) c = Threw c' v.

(** Exactly how a container is read: [n] is the number in front, [c1] the
    place after it, [gathers items v] says that [v] is what the container holds
    with these elements.  The container is complete, or empty after an error, or
    keeps what came before an exception. *)
Definition read_in_turn {A} (makes : cursor -> A -> cursor -> Prop) (throws : cursor -> cursor -> Prop)
  (gathers : list A -> val -> Prop) (empty : val) (c : cursor) (r : ending val) : Prop :=
  match r with
  | Done c' v =>
      if err c' then v = empty
      else exists n c1 items, rest c = number 4 n ++ rest c1 /\ buf c1 = buf c /\ err c1 = false /\
             in_turn makes c1 items c' /\ N.of_nat (length items) = n /\ gathers items v
  | Threw c' v =>
      exists n c1 items c2, rest c = number 4 n ++ rest c1 /\ buf c1 = buf c /\ err c1 = false /\
        in_turn makes c1 items c2 /\ (N.of_nat (length items) < n)%N /\ throws c2 c' /\ gathers items v
  | Undef => False
  end.

Definition gathers_vec (items : list val) (v : val) : Prop := v = VSeq items.
Definition gathers_set (items : list val) (v : val) : Prop :=
  exists l, v = VSet l /\ increasing l /\ forall k, In k l <-> In k items.
Definition gathers_map (items : list (val * val)) (v : val) : Prop :=
  exists l, v = VMap l /\ first_of_each items l.

(** ** Adapters that fit together *)

(** [v] is written as the bytes [bs] wherever there is room for them. *)
Definition writes_as (t : uty) (v : val) (bs : list N) : Prop :=
  forall c, inside c -> err c = false -> (pos c + N.of_nat (length bs) <= size_bytes c)%N ->
  exists c', uwrite t v c = Done c' tt /\ err c' = false /\ pos c' = (pos c + N.of_nat (length bs))%N /\
    buf c' = stored (buf c) (N.to_nat (pos c)) bs.

(** A fresh object reads [v] of the bytes [bs], whatever follows them. *)
Definition reads_as (t : uty) (v : val) (bs : list N) : Prop :=
  forall c pre post, inside c -> err c = false -> buf c = pre ++ bs ++ post -> pos c = N.of_nat (length pre) ->
  exists c', makes t c v c' /\ err c' = false /\ buf c' = buf c /\ pos c' = N.of_nat (length (pre ++ bs)).

Definition carried (t : uty) (v : val) (bs : list N) : Prop :=
  Forall is_octet bs /\ writes_as t v bs /\ reads_as t v bs.

(** The representation of values of any type, given that the adapters of user
    types agree about theirs. *)
Fixpoint agreed (t : uty) (v : val) (bs : list N) {struct t} : Prop :=
  match t with
  | UStd t0 => wf_ty t0 /\ has_ty t0 v /\ bs = encode t0 v
  | UVec t1 => exists l parts, v = VSeq l /\ fits l /\ Forall2 (agreed t1) l parts /\
      bs = number 4 (N.of_nat (length l)) ++ concat parts
  | UMap tk tv => exists l parts, v = VMap l /\ fits l /\ increasing (map fst l) /\
      Forall2 (fun kv p => exists p1 p2, p = p1 ++ p2 /\ agreed tk (fst kv) p1 /\ agreed tv (snd kv) p2) l parts /\
      bs = number 4 (N.of_nat (length l)) ++ concat parts
  | USet tk => exists l parts, v = VSet l /\ fits l /\ increasing l /\ Forall2 (agreed tk) l parts /\
      bs = number 4 (N.of_nat (length l)) ++ concat parts
  | UPair ta tb => exists p1 p2 a b, v = VPair a b /\ bs = p1 ++ p2 /\ agreed ta a p1 /\ agreed tb b p2
  | UOpt t1 => (v = VOpt None /\ bs = [0%N]) \/
      (exists v1 bs1, v = VOpt (Some v1) /\ bs = 1%N :: bs1 /\ agreed t1 v1 bs1)
  | UVar ts => exists i v1 bs1, v = VVar i v1 /\ bs = N.of_nat i :: bs1 /\ i < 256 /\
      (fix pick (ts : list uty) (i : nat) : Prop :=
         match ts, i with
         | t0 :: _, O => agreed t0 v1 bs1
         | _ :: ts', S i' => pick ts' i'
         | [], _ => False
         end) ts i
  | UUser _ _ _ => carried t v bs
  end.

(** ** Types without user types, and members streamed one after another *)

(** [r >> a; r >> b; ...] and [w << a; w << b; ...] for a user type. *)
Fixpoint as_user (t : ty) : uty :=
  match t with
  | TVec t1 => UVec (as_user t1)
  | TMap tk tv => UMap (as_user tk) (as_user tv)
  | TSet tk => USet (as_user tk)
  | TPair ta tb => UPair (as_user ta) (as_user tb)
  | TOpt t1 => UOpt (as_user t1)
  | TVar ts => UVar (map as_user ts)
  | TRec ts => UUser (dflt (TRec ts))
      (fun old =>
         (fix members (ts : list ty) (olds done : list val) : prog :=
            match ts, olds with
            | t0 :: ts', o :: olds' =>
                PExtract (as_user t0) o (fun v => members ts' olds' (done ++ [v])) (fun v => PThrow (VSeq (done ++ v :: olds')))
            | _, _ => PRet (VSeq done)
            end) ts (match old with VSeq olds => olds | _ => [] end) [])
      (fun v =>
         (fix members (ts : list ty) (vs : list val) : wprog :=
            match ts, vs with
            | t0 :: ts', v0 :: vs' => WInsert (as_user t0) v0 (members ts' vs') WThrow
            | _, _ => WRet
            end) ts (match v with VSeq vs => vs | _ => [] end))
  | _ => UStd t
  end.
