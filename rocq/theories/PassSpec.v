(** What the slots of a signal are to be given: without copies, moves and layers of functions. *)
From Coq Require Import List Arith Bool.
From Verif Require Import PassModel.
Import ListNotations.

(** The category of an expression, and what a parameter of a category may be given. *)
Inductive category := L | C | X.
Definition category_of (e : expr) : category := match e with LValue _ => L | ConstLValue _ => C | XValue _ => X end.
Definition object_of (e : expr) : nat := match e with LValue a | ConstLValue a | XValue a => a end.
Inductive accepts : param -> category -> Prop :=
| accepts_moved : forall b, accepts (mkparam Value b) X
| accepts_copied : forall c, accepts (mkparam Value true) c
| accepts_ref : forall b, accepts (mkparam Ref b) L
| accepts_const : forall b c, accepts (mkparam CRef b) c
| accepts_rvalue : forall b, accepts (mkparam RRef b) X.
(** An argument of the signature arrives at the function as an rvalue if it is passed by value. *)
Definition arrives (p : param) : category := match p_pass p with Value | RRef => X | Ref => L | CRef => C end.
Definition repeatable (p : param) : Prop := p_pass p <> RRef /\ (p_pass p = Value -> p_copy p = true).

Section Spec.
Variable V : Type.
Local Notation cell := (cell V).
Local Notation slot := (slot V).
Local Notation signal := (signal V).
Local Notation log := (log V).

(** The emission compiles. *)
Inductive well_formed : signal -> list category -> Prop :=
| wf_signal : forall ps ss cs, Forall repeatable ps -> Forall2 accepts ps cs -> Forall (fits (map arrives ps)) ss ->
    well_formed (Signal V ps ss) cs
with fits : list category -> slot -> Prop :=
| fits_function : forall cs id qs f, Forall2 accepts qs cs -> fits cs (Function V id qs f)
| fits_member : forall cs id qs f, Forall2 accepts qs cs -> fits cs (Member V id qs f)
| fits_chain : forall cs sg, well_formed sg cs -> fits cs (Chain V sg).

(** The functions that are called, in order. *)
Fixpoint functions (sg : signal) : list nat :=
  match sg with
  | Signal _ _ ss => flat_map (fun s => match s with Function _ id _ _ | Member _ id _ _ => [id] | Chain _ sg' => functions sg' end) ss
  end.

(** Variables of the caller. *)
Definition env := nat -> cell.
Definition set (v : env) (x : nat) (c : cell) : env := fun y => if Nat.eqb y x then c else v y.

(** What an argument is for those who get it: a value of its own, a variable that it can change, one that it can only look at,
    one that it may take the value out of. *)
Inductive arg := Const (c : cell) | Var (x : nat) | View (x : nat) | Own (x : nat).
Definition arg_of (e : expr) : arg := match e with LValue a => Var a | ConstLValue a => View a | XValue a => Own a end.
Definition look (v : env) (a : arg) : cell := match a with Const c => c | Var x | View x | Own x => v x end.

Definition settle (p : param) (a : arg) (v : env) : env * arg :=
  match p_pass p, a with
  | Value, Own x => (set v x (Moved V), Const (v x))
  | Value, _ => (v, Const (look v a))
  | CRef, (Var x | Own x) => (v, View x)
  | _, _ => (v, a)
  end.
Fixpoint settle_all (ps : list param) (l : list arg) (v : env) : env * list arg :=
  match ps, l with
  | p :: ps', a :: l' => let '(v, a) := settle p a v in let '(v, l) := settle_all ps' l' v in (v, a :: l)
  | _, _ => (v, [])
  end.
(** Only variables passed by reference keep what a function does to them. *)
Fixpoint changed (ps : list param) (l : list arg) (cs : list cell) (v : env) : env :=
  match ps, l, cs with
  | p :: ps', a :: l', c :: cs' =>
      changed ps' l' cs' (match p_pass p, a with Ref, Var x => set v x c | _, _ => v end)
  | _, _, _ => v
  end.
Definition deliver_to (id : nat) (ps : list param) (f : body V) (l : list arg) (v : env) : env * log :=
  let '(v, l) := settle_all ps l v in
  let seen := map (look v) l in (changed ps l (f seen) v, [(id, seen)]).
Fixpoint deliver_slot (s : slot) (l : list arg) (v : env) {struct s} : env * log :=
  match s with
  | Function _ id ps f | Member _ id ps f => deliver_to id ps f l v
  | Chain _ sg => deliver sg l v
  end
with deliver (sg : signal) (l : list arg) (v : env) {struct sg} : env * log :=
  match sg with
  | Signal _ ps ss =>
      let '(v, l) := settle_all ps l v in
      (fix each (ss : list slot) (v : env) : env * log :=
         match ss with
         | [] => (v, [])
         | s :: ss' => let '(v, g) := deliver_slot s l v in let '(v, g') := each ss' v in (v, g ++ g')
         end) ss v
  end.

(** How often an argument is copied. *)
Definition copied (p : param) (c : category) : nat := match p_pass p, c with Value, (L | C) => 1 | _, _ => 0 end.
Definition total (l : list nat) : nat := fold_right plus 0 l.
Definition values (ps : list param) : nat := total (map (fun p => match p_pass p with Value => 1 | _ => 0 end) ps).
Fixpoint cost (sg : signal) (cs : list category) {struct sg} : nat :=
  match sg with
  | Signal _ ps ss =>
      total (zip copied ps cs) +
      total (map (fun s => values ps +
                   match s with
                   | Function _ _ qs _ | Member _ _ qs _ => total (zip copied qs (map arrives ps))
                   | Chain _ sg' => cost sg' (map arrives ps)
                   end) ss)
  end.
End Spec.

(** The arguments whose objects are moved into parameters. *)
Definition given_away (ps : list param) (es : list expr) (x : nat) : Prop :=
  exists p, In (p, XValue x) (combine ps es) /\ p_pass p = Value.
(** No object is given away and passed a second time. *)
Definition given_once (es : list expr) : Prop :=
  forall x, In (XValue x) es -> count_occ Nat.eq_dec (map object_of es) x = 1.

(** What functions see that change one object after another. *)
Fixpoint succession (V : Type) (fs : list (nat * (cell V -> cell V))) (c : cell V) : list (nat * list (cell V)) :=
  match fs with [] => [] | (id, f) :: fs' => (id, [c]) :: succession V fs' (f c) end.
