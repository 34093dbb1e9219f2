(** The wire format and the value domain, independent of cursors and loops. *)
From Coq Require Import List NArith ZArith Arith Bool.
From Verif Require Import BinModel.
Import ListNotations.

Definition is_octet (b : N) : Prop := (b < 256)%N.

(** Byte number [i] (0 is the least significant) of an integer in two's
    complement. *)
Definition byte_of (z : Z) (i : nat) : N := Z.to_N ((z / 256 ^ Z.of_nat i) mod 256).

(** A 32-bit (or narrower) little endian unsigned number. *)
Definition number (w : nat) (n : N) : list N := map (byte_of (Z.of_N n)) (seq 0 w).

(** The bytes a value is written as. *)
Fixpoint encode (t : ty) (v : val) {struct t} : list N :=
  match t, v with
  | TInt o _ w, VInt z =>
      map (byte_of z) (match o with Big => rev (seq 0 w) | _ => seq 0 w end)
  | TRaw _ _, VRaw bs => bs
  | TStr, VStr s => number 4 (N.of_nat (length s)) ++ s
  | TVec t1, VSeq l => number 4 (N.of_nat (length l)) ++ concat (map (encode t1) l)
  | TMap tk tv, VMap l =>
      number 4 (N.of_nat (length l)) ++
      concat (map (fun kv => encode tk (fst kv) ++ encode tv (snd kv)) l)
  | TSet tk, VSet l => number 4 (N.of_nat (length l)) ++ concat (map (encode tk) l)
  | TPair ta tb, VPair a b => encode ta a ++ encode tb b
  | TOpt t1, VOpt None => [0%N]
  | TOpt t1, VOpt (Some v1) => 1%N :: encode t1 v1
  | TVar ts, VVar i v1 =>
      number 1 (N.of_nat i) ++
      (fix pick (ts : list ty) (i : nat) : list N :=
         match ts, i with
         | t0 :: _, O => encode t0 v1
         | _ :: ts', S i' => pick ts' i'
         | [], _ => []
         end) ts i
  | TRec ts, VSeq vs =>
      (fix members (ts : list ty) (vs : list val) : list N :=
         match ts, vs with
         | t0 :: ts', v0 :: vs' => encode t0 v0 ++ members ts' vs'
         | _, _ => []
         end) ts vs
  | _, _ => []
  end.

(** Types that exist in C++: integers have at least one byte, variants have
    between 1 and 256 alternatives. *)
Fixpoint wf_ty (t : ty) : Prop :=
  match t with
  | TInt _ _ w => 1 <= w <= 16
  | TRaw _ w => w <= 256
  | TStr => True
  | TVec t1 | TSet t1 | TOpt t1 => wf_ty t1
  | TMap a b | TPair a b => wf_ty a /\ wf_ty b
  | TVar ts => 1 <= length ts <= 256 /\
      (fix all (ts : list ty) : Prop :=
         match ts with [] => True | t0 :: ts' => wf_ty t0 /\ all ts' end) ts
  | TRec ts =>
      (fix all (ts : list ty) : Prop :=
         match ts with [] => True | t0 :: ts' => wf_ty t0 /\ all ts' end) ts
  end.

(** Every key is less than all later ones. *)
Fixpoint increasing (l : list val) : Prop :=
  match l with
  | [] => True
  | x :: l' => Forall (fun y => vcmp x y = Lt) l' /\ increasing l'
  end.

(** A size that fits the 32-bit size prefix. *)
Definition fits {A} (l : list A) : Prop := (N.of_nat (length l) < 2 ^ 32)%N.

Definition in_range (signed : bool) (w : nat) (z : Z) : Prop :=
  if signed then (- (2 ^ (8 * Z.of_nat w - 1)) <= z < 2 ^ (8 * Z.of_nat w - 1))%Z
  else (0 <= z < 2 ^ (8 * Z.of_nat w))%Z.

(** The values of a type (with at most 2^32-1 elements per container). *)
Fixpoint has_ty (t : ty) (v : val) {struct t} : Prop :=
  match t, v with
  | TInt _ s w, VInt z => in_range s w z
  | TRaw _ w, VRaw bs => length bs = w /\ Forall is_octet bs
  | TStr, VStr s => Forall is_octet s /\ fits s
  | TVec t1, VSeq l => Forall (has_ty t1) l /\ fits l
  | TMap tk tv, VMap l =>
      Forall (fun kv => has_ty tk (fst kv) /\ has_ty tv (snd kv)) l /\
      increasing (map fst l) /\ fits l
  | TSet tk, VSet l => Forall (has_ty tk) l /\ increasing l /\ fits l
  | TPair ta tb, VPair a b => has_ty ta a /\ has_ty tb b
  | TOpt t1, VOpt None => True
  | TOpt t1, VOpt (Some v1) => has_ty t1 v1
  | TVar ts, VVar i v1 =>
      (fix pick (ts : list ty) (i : nat) : Prop :=
         match ts, i with
         | t0 :: _, O => has_ty t0 v1
         | _ :: ts', S i' => pick ts' i'
         | [], _ => False
         end) ts i
  | TRec ts, VSeq vs =>
      (fix members (ts : list ty) (vs : list val) : Prop :=
         match ts, vs with
         | [], [] => True
         | t0 :: ts', v0 :: vs' => has_ty t0 v0 /\ members ts' vs'
         | _, _ => False
         end) ts vs
  | _, _ => False
  end.

(** The empty value of the container types. *)
Definition empty_container (t : ty) : option val :=
  match t with
  | TStr => Some (VStr [])
  | TVec _ => Some (VSeq [])
  | TMap _ _ => Some (VMap [])
  | TSet _ => Some (VSet [])
  | _ => None
  end.

(** A cursor whose buffer is real memory (fewer than 2^63 bytes) and whose
    position is inside it. *)
Definition inside (c : cursor) : Prop :=
  (pos c <= size_bytes c)%N /\ (size_bytes c < 2 ^ 63)%N /\ Forall is_octet (buf c).

(** The buffer [b] with [data] stored at offset [at_]. *)
Definition stored (b : list N) (at_ : nat) (data : list N) : list N :=
  firstn at_ b ++ data ++ skipn (at_ + length data) b.

(** Offsets that can be negated: every [ptrdiff_t] but the least. *)
Definition ptrdiff_ok (off : Z) : Prop := (- 2 ^ 63 < off < 2 ^ 63)%Z.

(** Operations a C++ caller can make. *)
Definition op_ok (o : reader_op) : Prop :=
  match o with
  | RRead t old | RExtract t old => wf_ty t /\ has_ty t old
  | RPeek t => wf_ty t
  | RSkip off => ptrdiff_ok off
  | RSpan _ _ | RNotify => True
  end.

(** Where [skip(off)] should end up, if it can. *)
Definition target (c : cursor) (off : Z) : Z := (Z.of_N (pos c) + off)%Z.

(* ------------------------------------------------------------------ *)
(** ** What the reader accepts *)

(** The bytes not read yet. *)
Definition rest (c : cursor) : list N := skipn (N.to_nat (pos c)) (buf c).

(** [l] lists the keys of [items] in increasing order, each with the value it
    has where it occurs first. *)
Definition first_of_each (items l : list (val * val)) : Prop :=
  increasing (map fst l) /\
  forall k v, In (k, v) l <-> exists a b, items = a ++ (k, v) :: b /\ ~ In k (map fst a).

(** [bs] is a representation of [v].  Wider than [encode]: any non-zero byte
    marks a present optional, and the elements of maps and sets may be in any
    order and repeated. *)
Fixpoint represents (t : ty) (bs : list N) (v : val) {struct t} : Prop :=
  match t with
  | TInt _ s w => exists z, v = VInt z /\ in_range s w z /\ bs = encode t v
  | TRaw _ w => v = VRaw bs /\ length bs = w
  | TStr => exists s, v = VStr s /\ fits s /\ bs = number 4 (N.of_nat (length s)) ++ s
  | TVec t1 => exists l parts, v = VSeq l /\ fits l /\ Forall2 (represents t1) parts l /\
      bs = number 4 (N.of_nat (length l)) ++ concat parts
  | TMap tk tv => exists items parts l, v = VMap l /\ fits items /\
      Forall2 (fun p kv => exists p1 p2, p = p1 ++ p2 /\ represents tk p1 (fst kv) /\ represents tv p2 (snd kv))
        parts items /\
      first_of_each items l /\
      bs = number 4 (N.of_nat (length items)) ++ concat parts
  | TSet tk => exists items parts l, v = VSet l /\ fits items /\ Forall2 (represents tk) parts items /\
      increasing l /\ (forall k, In k l <-> In k items) /\
      bs = number 4 (N.of_nat (length items)) ++ concat parts
  | TPair ta tb => exists p1 p2 a b, v = VPair a b /\ bs = p1 ++ p2 /\ represents ta p1 a /\ represents tb p2 b
  | TOpt t1 =>
      (bs = [0%N] /\ v = VOpt None) \/
      (exists b bs1 v1, b <> 0%N /\ bs = b :: bs1 /\ v = VOpt (Some v1) /\ represents t1 bs1 v1)
  | TVar ts => exists i v1 bs1, v = VVar i v1 /\ bs = number 1 (N.of_nat i) ++ bs1 /\
      (fix pick (ts : list ty) (i : nat) : Prop :=
         match ts, i with
         | t0 :: _, O => represents t0 bs1 v1
         | _ :: ts', S i' => pick ts' i'
         | [], _ => False
         end) ts i
  | TRec ts => exists vs, v = VSeq vs /\
      (fix members (ts : list ty) (bs : list N) (vs : list val) : Prop :=
         match ts, vs with
         | [], [] => bs = []
         | t0 :: ts', v0 :: vs' => exists p1 p2, bs = p1 ++ p2 /\ represents t0 p1 v0 /\ members ts' p2 vs'
         | _, _ => False
         end) ts bs vs
  end.

(** What [operator>>] on a stream that has failed before leaves in a
    destination that held [old]: containers and optionals are emptied, the rest
    is kept; each member of a user type by itself. *)
Fixpoint blanked (t : ty) (old : val) {struct t} : val :=
  match t, old with
  | TStr, _ => VStr []
  | TVec _, _ => VSeq []
  | TMap _ _, _ => VMap []
  | TSet _, _ => VSet []
  | TOpt _, _ => VOpt None
  | TRec ts, VSeq olds =>
      VSeq ((fix members (ts : list ty) (olds : list val) : list val :=
         match ts, olds with
         | t0 :: ts', o :: olds' => blanked t0 o :: members ts' olds'
         | _, _ => []
         end) ts olds)
  | _, _ => old
  end.

(** The same for the members of a user type. *)
Fixpoint all_blanked (ts : list ty) (olds : list val) : list val :=
  match ts, olds with
  | t0 :: ts', o :: olds' => blanked t0 o :: all_blanked ts' olds'
  | _, _ => []
  end.

(** What a failed read of the unread bytes [bs] leaves in a destination that
    held [old]: containers are empty, fixed-size values and variants keep what
    they had, an optional keeps the partly read value, and a pair keeps its
    second half if the first one failed.  In a user type the members before the
    one that failed have their new values and those after it are [blanked]. *)
Fixpoint leaves (t : ty) (old : val) (bs : list N) (v : val) {struct t} : Prop :=
  match t with
  | TInt _ _ _ | TRaw _ _ | TVar _ => v = old
  | TStr => v = VStr []
  | TVec _ => v = VSeq []
  | TMap _ _ => v = VMap []
  | TSet _ => v = VSet []
  | TPair ta tb => exists a b a' b', old = VPair a b /\ v = VPair a' b' /\
      ((leaves ta a bs a' /\ b' = b) \/
       (exists p post, bs = p ++ post /\ represents ta p a' /\ leaves tb b post b'))
  | TOpt t1 =>
      (bs = [] /\ v = VOpt None) \/
      (exists b post v1, b <> 0%N /\ bs = b :: post /\ v = VOpt (Some v1) /\ leaves t1 (dflt t1) post v1)
  | TRec ts => exists olds vs, old = VSeq olds /\ v = VSeq vs /\
      (fix members (ts : list ty) (olds : list val) (bs : list N) (vs : list val) : Prop :=
         match ts, olds, vs with
         | t0 :: ts', o :: olds', v0 :: vs' =>
             (leaves t0 o bs v0 /\ vs' = all_blanked ts' olds') \/
             (exists p post, bs = p ++ post /\ represents t0 p v0 /\ members ts' olds' post vs')
         | _, _, _ => False
         end) ts olds bs vs
  end.

(** Types [peek] can be used with. *)
Definition fixed_size (t : ty) : Prop :=
  match t with TInt _ _ _ | TRaw _ _ => True | _ => False end.
