(** kl/exception_info.hpp:113-257: the tagged values attached to an exception.
    Nodes live in a heap addressed by number; [std::shared_ptr] is such an
    address, and a node stays as long as it is reachable, so nodes are never
    removed from the heap here.  Tags are compared by [typeid], as numbers. *)
From Coq Require Import List NArith Arith Bool.
From Verif Require Import Base.
Import ListNotations.
Local Open Scope outcome_scope.

Section xinfo.
Variable V : Type.

(** exception_info.hpp:24-34, 79-111: a node. *)
Record node := mknode { ntag : nat; nvalue : V; nnext : option nat }.

(** The heap, and the [head_] of every [exception_info] object. *)
Record world := mkworld { heap : list node; heads : list (option nat) }.

Definition empty_world : world := mkworld [] [].

(** [make_shared]; the new address is the length of the heap. *)
Definition alloc (h : list node) (n : node) : list node * nat := (h ++ [n], List.length h).

(** exception_info.hpp:137-155 [set]. *)
Definition set (w : world) (o tag : nat) (v : V) : outcome world :=
  head <- rd (heads w) o ;;
  let '(h, p) := alloc (heap w) (mknode tag v head) in
  Ok (mkworld h (upd (heads w) o (Some p))).

(** exception_info.hpp:167-181: the loop of [unset].  [prev] is the node whose
    [next_] is under inspection, [None] for [head_].  [fuel] bounds the walk;
    running out is [UB], excluded by the theorems. *)
Fixpoint unset_loop (fuel : nat) (w : world) (o tag : nat) (prev : option nat) (cur : option nat) : outcome world :=
  match fuel with
  | O => UB
  | S fuel' =>
      match cur with
      | None => Ok w
      | Some p =>
          n <- rd (heap w) p ;;
          if Nat.eqb (ntag n) tag then
            match prev with
            | Some q =>
                m <- rd (heap w) q ;;
                Ok (mkworld (upd (heap w) q (mknode (ntag m) (nvalue m) (nnext n))) (heads w))
            | None => Ok (mkworld (heap w) (upd (heads w) o (nnext n)))
            end
          else unset_loop fuel' w o tag (Some p) (nnext n)
      end
  end.

(** exception_info.hpp:157-184 [unset]. *)
Definition unset (w : world) (o tag : nat) : outcome world :=
  head <- rd (heads w) o ;;
  unset_loop (S (List.length (heap w))) w o tag None head.

(** exception_info.hpp:192-204 [get]: the address of the first node with the tag. *)
Fixpoint find_loop (fuel : nat) (h : list node) (tag : nat) (cur : option nat) : outcome (option nat) :=
  match fuel with
  | O => UB
  | S fuel' =>
      match cur with
      | None => Ok None
      | Some p =>
          n <- rd h p ;;
          if Nat.eqb (ntag n) tag then Ok (Some p) else find_loop fuel' h tag (nnext n)
      end
  end.

Definition find (w : world) (o tag : nat) : outcome (option nat) :=
  head <- rd (heads w) o ;;
  find_loop (S (List.length (heap w))) (heap w) tag head.

Definition get (w : world) (o tag : nat) : outcome (option V) :=
  p <- find w o tag ;;
  match p with
  | None => Ok None
  | Some p => n <- rd (heap w) p ;; Ok (Some (nvalue n))
  end.

(** Assignment through the pointer returned by the non-const [get]. *)
Definition poke (w : world) (o tag : nat) (v : V) : outcome world :=
  p <- find w o tag ;;
  match p with
  | None => Ok w
  | Some p => n <- rd (heap w) p ;; Ok (mkworld (upd (heap w) p (mknode (ntag n) v (nnext n))) (heads w))
  end.

(** exception_info.hpp:117-130: construction, copy construction and copy
    assignment; object [o] is created at the end of [heads]. *)
Definition construct (w : world) : world := mkworld (heap w) (heads w ++ [None]).
Definition copy (w : world) (o : nat) : outcome world :=
  head <- rd (heads w) o ;; Ok (mkworld (heap w) (heads w ++ [head])).
Definition assign (w : world) (dst src : nat) : outcome world :=
  head <- rd (heads w) src ;;
  _ <- rd (heads w) dst ;;
  Ok (mkworld (heap w) (upd (heads w) dst head)).

(** exception_info.hpp:206-223 [diagnostic_info]: the nodes in the order they are
    printed, newest first. *)
Fixpoint listing_loop (fuel : nat) (h : list node) (cur : option nat) : outcome (list (nat * V)) :=
  match fuel with
  | O => UB
  | S fuel' =>
      match cur with
      | None => Ok []
      | Some p => n <- rd h p ;; r <- listing_loop fuel' h (nnext n) ;; Ok ((ntag n, nvalue n) :: r)
      end
  end.

Definition listing (w : world) (o : nat) : outcome (list (nat * V)) :=
  head <- rd (heads w) o ;; listing_loop (S (List.length (heap w))) (heap w) head.

(** A history of operations on objects. *)
Inductive op :=
| Set_ (o tag : nat) (v : V)
| Unset (o tag : nat)
| Poke (o tag : nat) (v : V)
| Construct
| Copy (o : nat)
| Assign (dst src : nat).

Definition step (w : world) (a : op) : outcome world :=
  match a with
  | Set_ o tag v => set w o tag v
  | Unset o tag => unset w o tag
  | Poke o tag v => poke w o tag v
  | Construct => Ok (construct w)
  | Copy o => copy w o
  | Assign dst src => assign w dst src
  end.

Fixpoint run (w : world) (ops : list op) : outcome world :=
  match ops with
  | [] => Ok w
  | a :: ops' => w' <- step w a ;; run w' ops'
  end.
End xinfo.
Arguments mknode {V}. Arguments ntag {V}. Arguments nvalue {V}. Arguments nnext {V}.
Arguments mkworld {V}. Arguments heap {V}. Arguments heads {V}.
Arguments empty_world {V}.
Arguments set {V}. Arguments unset {V}. Arguments get {V}. Arguments poke {V}. Arguments find {V}.
Arguments unset_loop {V}. Arguments find_loop {V}. Arguments listing {V}. Arguments listing_loop {V}.
Arguments construct {V}. Arguments copy {V}. Arguments assign {V}. Arguments step {V}. Arguments run {V}.
Arguments Set_ {V}. Arguments Unset {V}. Arguments Poke {V}. Arguments Construct {V}.
Arguments Copy {V}. Arguments Assign {V}.
