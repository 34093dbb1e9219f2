(** What the class templates of TmplModel.v are for. *)
From Coq Require Import String List Arith NArith Bool.
From Verif Require Import TmplModel.
Import ListNotations.
Local Open Scope string_scope.
Local Open Scope list_scope.

(** [n<args...>::m] is [t]. *)
Definition has_member (W : world) (n : string) (args : list ty) (m : string) (t : ty) : Prop :=
  exists k, forall f, k <= f -> member_of W f n args m = Some t.
(** [n<args...>::template m<k>::type] is [t]. *)
Definition has_nested (W : world) (n : string) (args : list ty) (m : string) (k : N) (t : ty) : Prop :=
  exists b, forall f, b <= f -> nested_of W f n args m k "type" = Some t.

(** A program that uses it is ill-formed. *)
Definition ill_formed (W : world) (n : string) (args : list ty) : Prop := forall f, inst W f n args = None.
Definition no_member (W : world) (n : string) (args : list ty) (m : string) : Prop :=
  forall f, member_of W f n args m = None.
Definition no_nested (W : world) (n : string) (args : list ty) (m : string) (k : N) : Prop :=
  forall f, nested_of W f n args m k "type" = None.

(** An argument; an expanded pack is none. *)
Definition argument (t : ty) : Prop := is_pack t = false.

(** The predicate [P<T>::value] is [p T]. *)
Definition decides (W : world) (P : string) (p : ty -> bool) : Prop :=
  forall t, argument t -> has_member W P [t] "value" (number (p t)).

Definition pack (ts : list ty) : ty := App "type_pack" ts.

(** A pack at the end of the list is spread, and one at its end again. *)
Inductive spreads : list ty -> list ty -> Prop :=
| spreads_none : forall ts, (forall us ts', ts <> (ts' ++ [pack us])) -> spreads ts ts
| spreads_last : forall ts us vs, spreads us vs -> spreads (ts ++ [pack us]) (ts ++ vs).

(** All arguments, also those inside of packs. *)
Inductive arguments : list ty -> Prop :=
| arguments_nil : arguments []
| arguments_cons : forall t ts, argument t -> (forall us, t = pack us -> arguments us) -> arguments ts -> arguments (t :: ts).

(** What can be called, the class of its operator or member function, what it returns, what it takes. *)
Notation plain := (mkfq false false no_ref false false).
Definition plain_or_const (q : fq) : Prop := q = plain \/ q = mkfq true false no_ref false false.
Inductive signature (W : world) : ty -> option ty -> ty -> list ty -> Prop :=
| sig_function : forall r ts, argument r -> signature W (Fn r ts plain) None r ts
| sig_pointer : forall r ts, argument r -> signature W (Ptr (Fn r ts plain)) None r ts
| sig_method : forall c r ts q, argument c -> argument r -> plain_or_const q -> signature W (MemPtr c (Fn r ts q)) (Some c) r ts
| sig_object : forall t d r ts q, is_class (no_cv t) = true -> argument d -> argument r -> plain_or_const q ->
    w_call W (no_cv t) = Some (d, Fn r ts q) -> signature W t (Some d) r ts
| sig_lref : forall t c r ts, argument t -> signature W t c r ts -> signature W (Lref t) c r ts
| sig_rref : forall t c r ts, argument t -> signature W t c r ts -> signature W (Rref t) c r ts.

(** The same with any qualifiers: everything C++ lets a program call by name. *)
Inductive callable (W : world) : ty -> Prop :=
| call_function : forall r ts q, callable W (Fn r ts q)
| call_pointer : forall r ts q, callable W (Ptr (Fn r ts q))
| call_method : forall c r ts q, callable W (MemPtr c (Fn r ts q))
| call_object : forall t d r ts q, is_class (no_cv t) = true -> w_call W (no_cv t) = Some (d, Fn r ts q) -> callable W t
| call_cv : forall c v t, callable W t -> callable W (Cv c v t)
| call_lref : forall t, callable W t -> callable W (Lref t)
| call_rref : forall t, callable W t -> callable W (Rref t).

Definition all_equal (ts : list ty) : Prop := forall a b, In a ts -> In b ts -> a = b.

(** What [remove_cvref] takes off. *)
Definition bare (t : ty) : Prop := match t with Cv _ _ _ | Lref _ | Rref _ | Pack _ => False | _ => True end.
Inductive qualified (t : ty) : ty -> Prop :=
| qualified_no : qualified t t
| qualified_cv : forall c v, qualified t (Cv c v t).
Inductive referring (t : ty) : ty -> Prop :=
| referring_no : forall u, qualified t u -> referring t u
| referring_l : forall u, qualified t u -> referring t (Lref u)
| referring_r : forall u, qualified t u -> referring t (Rref u).

(** Conditions that hold up to the first false one; what is behind that one does not matter. *)
Inductive conditions (W : world) : list ty -> bool -> Prop :=
| conditions_nil : conditions W [] true
| conditions_true : forall b bs k rest v, k <> 0%N -> has_member W b bs "value" (Num k) -> conditions W rest v -> conditions W (App b bs :: rest) v
| conditions_false : forall b bs rest, has_member W b bs "value" (Num 0) -> conditions W (App b bs :: rest) false.
