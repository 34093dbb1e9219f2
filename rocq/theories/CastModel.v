(** Objects as bytes: [kl::bit_cast] of kl/utility.hpp:19-33, [peek], [read_raw], [read_span] of kl/binary_rw.hpp:78-107 and
    [write_raw], [write_span] of kl/binary_rw.hpp:206-228 on trivially copyable types with padding.

    Simplifications: the layout is that of the usual ABIs for little endian machines (members in order, each at the next multiple of its alignment, no bit
    fields, no bases, no virtual functions); floating point numbers and enums are numbers of their size; an object of 80-bit [long double] is
    10 bytes of value in 16.  Padding holds any bytes.  Copying an object copies its members: what is in the padding of the copy is
    left open. *)
From Coq Require Import List NArith ZArith Arith Bool.
From Verif Require Import Base BinModel.
Import ListNotations.
Local Open Scope outcome_scope.

Inductive lay :=
| LNum (signed : bool) (n k : nat)   (* a number of n bytes in 2^k *)
| LBool
| LArr (n : nat) (t : lay)
| LStruct (ts : list lay).

Inductive cv := CNum (z : Z) | CBool (b : bool) | CSeq (vs : list cv).

(** [alignof] *)
Fixpoint alignof (t : lay) : nat :=
  match t with
  | LNum _ _ k => 2 ^ k
  | LBool => 1
  | LArr _ t => alignof t
  | LStruct ts => fold_right Nat.max 1 (map alignof ts)
  end.

(** From [off] to the next multiple of [a]. *)
Definition gap (off a : nat) : nat := (a - off mod a) mod a.

(** [sizeof]; an empty structure has one byte. *)
Fixpoint sizeof (t : lay) : nat :=
  match t with
  | LNum _ _ k => 2 ^ k
  | LBool => 1
  | LArr n t => n * sizeof t
  | LStruct ts =>
      let e := (fix ends (off : nat) (ts : list lay) : nat :=
                  match ts with
                  | [] => off
                  | t :: ts' => ends (off + gap off (alignof t) + sizeof t) ts'
                  end) 0 ts in
      Nat.max 1 (e + gap e (fold_right Nat.max 1 (map alignof ts)))
  end.

(** The bytes of a value; [None] is padding. *)
Fixpoint store (t : lay) (v : cv) {struct t} : list (option N) :=
  match t, v with
  | LNum _ n k, CNum z => map Some (int_bytes Native n z) ++ repeat None (2 ^ k - n)
  | LBool, CBool b => [Some (if b then 1%N else 0%N)]
  | LArr _ t, CSeq vs => concat (map (store t) vs)
  | LStruct ts, CSeq vs =>
      let body := (fix members (off : nat) (ts : list lay) (vs : list cv) : list (option N) :=
                     match ts, vs with
                     | t :: ts', v :: vs' =>
                         let g := gap off (alignof t) in
                         repeat None g ++ store t v ++ members (off + g + sizeof t) ts' vs'
                     | _, _ => []
                     end) 0 ts vs in
      body ++ repeat None (sizeof (LStruct ts) - length body)
  | _, _ => []
  end.

(** The value of the object at the front of [bs].  A [bool] that is neither 0 nor 1 is undefined. *)
Fixpoint load (t : lay) (bs : list N) {struct t} : outcome cv :=
  match t with
  | LNum s n _ => if length bs <? n then UB else Ok (CNum (bytes_int Native s (firstn n bs)))
  | LBool => match bs with
             | b :: _ => if (b =? 0)%N then Ok (CBool false) else if (b =? 1)%N then Ok (CBool true) else UB
             | [] => UB
             end
  | LArr n t =>
      vs <- (fix elements (n : nat) (bs : list N) : outcome (list cv) :=
               match n with
               | O => Ok []
               | S n' =>
                   v <- load t bs ;;
                   vs <- elements n' (skipn (sizeof t) bs) ;;
                   Ok (v :: vs)
               end) n bs ;;
      Ok (CSeq vs)
  | LStruct ts =>
      vs <- (fix members (off : nat) (ts : list lay) (bs : list N) : outcome (list cv) :=
               match ts with
               | [] => Ok []
               | t :: ts' =>
                   let g := gap off (alignof t) in
                   v <- load t (skipn g bs) ;;
                   vs <- members (off + g + sizeof t) ts' (skipn (g + sizeof t) bs) ;;
                   Ok (v :: vs)
               end) 0 ts bs ;;
      Ok (CSeq vs)
  end.

(** Padding gets the bytes [pad]. *)
Fixpoint fill (pad : nat -> N) (cells : list (option N)) : list N :=
  match cells with
  | [] => []
  | Some b :: cells' => b :: fill (fun i => pad (S i)) cells'
  | None :: cells' => pad 0 :: fill (fun i => pad (S i)) cells'
  end.

(** An object of value [v]. *)
Definition object (t : lay) (pad : nat -> N) (v : cv) : list N := fill pad (store t v).

(** [return to;]: the object itself, or a copy whose padding is [pad]. *)
Definition give_back (t : lay) (copied : option (nat -> N)) (bytes : list N) : outcome (list N) :=
  match copied with
  | None => Ok bytes
  | Some pad => v <- load t bytes ;; Ok (object t pad v)
  end.

(** utility.hpp:20-24: the sizes are equal; functions do not return arrays. *)
Definition castable (from to : lay) : bool :=
  (sizeof to =? sizeof from) && match to with LArr _ _ => false | _ => true end.

(** utility.hpp:24-32 [bit_cast] *)
Definition bit_cast (to : lay) (copied : option (nat -> N)) (from : list N) : outcome (list N) :=
  give_back to copied (firstn (sizeof to) from).

(** binary_rw.hpp:90-97 [read_raw]; 99-107 [read_span] is this for an array. *)
Definition read_object (t : lay) (old : list N) (c : cursor) : outcome (cursor * list N) :=
  ' (c1, r) <- read_impl c (N.of_nat (sizeof t)) ;;
  match r with
  | Some bs => Ok (c1, bs)
  | None => Ok (c1, old)
  end.

(** binary_rw.hpp:78-88 [peek] *)
Definition peek_object (t : lay) (old : list N) (c : cursor) : outcome (list N) :=
  r <- peek_impl c (N.of_nat (sizeof t)) ;;
  match r with
  | Some bs => Ok bs
  | None => Ok old
  end.

(** binary_rw.hpp:207-217 [write_raw]; 219-227 [write_span] is this for an array. *)
Definition write_object (t : lay) (bytes : list N) (c : cursor) : outcome cursor :=
  write_impl c (firstn (sizeof t) bytes).
