(** Name lookup, said with namespaces inside each other. *)
From Coq Require Import List Arith Bool.
From Verif Require Import Base NsModel.
Import ListNotations.

(** [n] is [m] or inside it. *)
Definition inside (n m : list nat) : Prop := exists x, n = x ++ m.

(** The innermost namespace both are inside. *)
Definition nearest (n m k : list nat) : Prop :=
  inside n k /\ inside m k /\ forall j, inside n j -> inside m j -> inside k j.

(** The function is declared in the namespace, before [at_]. *)
Definition declares (P : program) (n : list nat) (t : nat) (f : func) (at_ : nat) : Prop :=
  exists d, In d (decls P) /\ d_ns d = n /\ d_token d = t /\ d_func d = f /\ d_at d < at_.

(** [using namespace q;] is in effect at the place, written in [m]. *)
Definition nominates (P : program) (p : place) (m q : list nat) : Prop :=
  (m = p_ns p /\ In q (p_directives p)) \/
  exists u, In u (directives P) /\ u_in u = m /\ u_of u = q /\ u_at u < p_at p /\ inside (p_ns p) m.

(** The function is a member of the namespace [n], or appears to be one. *)
Definition introduced (P : program) (p : place) (t : nat) (n : list nat) (f : func) : Prop :=
  declares P n t f (p_at p) \/
  exists m q, nominates P p m q /\ nearest m q n /\ declares P q t f (p_at p).

(** The function is named in the block, or is in the innermost namespace around the place in which there is any function
    of that name. *)
Definition seen (P : program) (p : place) (t : nat) (f : func) : Prop :=
  In (t, f) (p_decls p) \/
  ((forall g, ~ In (t, g) (p_decls p)) /\
   exists n, inside (p_ns p) n /\ introduced P p t n f /\
     forall k g, inside (p_ns p) k -> inside k n -> k <> n -> ~ introduced P p t k g).

(** The function is found for an operand of type [e]. *)
Definition reached (P : program) (p : place) (t : nat) (e : enum) (f : func) : Prop :=
  seen P p t f \/ declares P (e_ns e) t f (p_known p).

(** The headers' functions go by their names everywhere. *)
Definition name_of (f : func) (t : nat) : Prop :=
  match f with
  | Global o | Inner o => t = token o
  | Put => t = token Shl
  | Get => t = token Shr
  | Other _ => True
  end.
Definition proper (P : program) (p : place) : Prop :=
  (forall d, In d (decls P) -> name_of (d_func d) (d_token d)) /\
  (forall t f, In (t, f) (p_decls p) -> name_of f t) /\
  p_at p <= p_known p.

(** The operands of an operator applied to an enum; enums are shifted by [x]. *)
Definition operands (o : op) (e : enum) (x : ty) : list ty :=
  match o with
  | Plus | Inc | Not => [Enum e]
  | Post_inc => [Enum e; Int]
  | Shl | Shr | Shl_eq | Shr_eq => [Enum e; x]
  | Or | And | Xor | Or_eq | And_eq | Xor_eq => [Enum e; Enum e]
  end.

(** Not an operator that changes its operand. *)
Definition computes (o : op) : Prop := match o with Plus | Or | And | Xor | Not | Shl | Shr => True | _ => False end.

Definition shift (o : op) : Prop := match o with Shl | Shr | Shl_eq | Shr_eq => True | _ => False end.

Definition number (x : ty) : Prop := match x with Int | Small _ | Wide _ => True | _ => False end.

(** No other function of the program can be called with the operands. *)
Definition alone (P : program) (args : list ty) : Prop := forall n, ranks args (other P n) = None.

Definition enabled (P : program) (e : enum) (o : op) : Prop := traits P (Enum e) (trait_of o) = Some true.

(** Not [e << n] with an enum that is not scoped and an [n] that [int] is not as good for. *)
Definition settled (o : op) (e : enum) (x : ty) : Prop :=
  forall n, x = Wide n -> match o with Shl | Shr => True | _ => False end -> e_scoped e = true.

(** The operator in the global namespace is used, if its traits enable it; the one of [enums::operators] is. *)
Definition by_traits (P : program) (p : place) (o : op) (e : enum) : Prop :=
  enabled P e o /\ reached P p (token o) e (Global o).
Definition by_name (P : program) (p : place) (o : op) (e : enum) : Prop := reached P p (token o) e (Inner o).

(** Some function of that name is in a namespace around the place, other than the global one. *)
Definition hidden (P : program) (p : place) (t : nat) : Prop :=
  exists k g, inside (p_ns p) k /\ k <> [] /\ introduced P p t k g.

(** The program includes the header before [at_]. *)
Definition includes (P : program) (header : nat -> list decl) (at_ : nat) : Prop :=
  exists h, h < at_ /\ incl (header h) (decls P).
