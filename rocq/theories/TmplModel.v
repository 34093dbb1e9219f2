(** The class templates of include/kl/utility.hpp, include/kl/meta.hpp and
    include/kl/type_traits.hpp, and the rules of C++ by which a compiler picks a
    specialization and instantiates it.

    A template is a primary (which may be only declared) and partial specializations, all
    as data below.  For given arguments every specialization whose pattern matches is a
    candidate; the one that is more specialized than all other candidates is taken, the
    primary when there is none; two candidates none of which is better are ambiguous.
    Instantiating a class evaluates its assertions, its base and its member types.

    [None]: the program is ill-formed.

    Simplified: aliases [X_t<...>] and variables [X_v<...>] are written out as the member
    [type] or [value] of [X]; parameter packs only at the end of a list; default template
    arguments, member functions and access control are left out; class templates of the
    standard library are given by the standard's description ([std_class]). *)
From Coq Require Import String List Arith NArith Bool.
Import ListNotations.
Local Open Scope string_scope.
Local Open Scope list_scope.

(** Qualifiers of a function type. *)
Inductive ref_q := no_ref | ref_l | ref_r.
Record fq := mkfq { q_const : bool; q_volatile : bool; q_ref : ref_q; q_noexcept : bool; q_ellipsis : bool }.
Definition fq0 : fq := mkfq false false no_ref false false.
Definition fq_const : fq := mkfq true false no_ref false false.

(** Template arguments, and patterns for them. *)
Inductive ty :=
| Name (n : string)                      (* a fundamental type, a class or an enum *)
| App (n : string) (args : list ty)      (* a specialization of a class template *)
| Cv (c v : bool) (t : ty)               (* [const], [volatile] *)
| Lref (t : ty) | Rref (t : ty) | Ptr (t : ty)
| MemPtr (cls t : ty)                    (* [t cls::*] *)
| Fn (ret : ty) (args : list ty) (q : fq)
| Num (n : N)                            (* a value *)
| Member (cls t : ty) (n : string)       (* the value [&cls::n], of type [t cls::*] *)
| Tm (n : string)                        (* a class template *)
| Var (x : string) | Pack (x : string).  (* template parameters *)

Definition ref_eqb (a b : ref_q) : bool :=
  match a, b with no_ref, no_ref | ref_l, ref_l | ref_r, ref_r => true | _, _ => false end.
Definition fq_eqb (a b : fq) : bool :=
  Bool.eqb (q_const a) (q_const b) && Bool.eqb (q_volatile a) (q_volatile b) && ref_eqb (q_ref a) (q_ref b)
  && Bool.eqb (q_noexcept a) (q_noexcept b) && Bool.eqb (q_ellipsis a) (q_ellipsis b).

Fixpoint ty_eqb (a b : ty) : bool :=
  let fix lists (xs ys : list ty) : bool :=
    match xs, ys with
    | [], [] => true
    | x :: xs', y :: ys' => ty_eqb x y && lists xs' ys'
    | _, _ => false
    end in
  match a, b with
  | Name x, Name y => String.eqb x y
  | App x xs, App y ys => String.eqb x y && lists xs ys
  | Cv c v x, Cv c' v' y => Bool.eqb c c' && Bool.eqb v v' && ty_eqb x y
  | Lref x, Lref y | Rref x, Rref y | Ptr x, Ptr y => ty_eqb x y
  | MemPtr c x, MemPtr d y => ty_eqb c d && ty_eqb x y
  | Fn r xs p, Fn s ys q => ty_eqb r s && lists xs ys && fq_eqb p q
  | Num x, Num y => N.eqb x y
  | Member c x n, Member d y m => ty_eqb c d && ty_eqb x y && String.eqb n m
  | Tm x, Tm y => String.eqb x y
  | Var x, Var y => String.eqb x y
  | Pack x, Pack y => String.eqb x y
  | _, _ => false
  end.
Fixpoint tys_eqb (xs ys : list ty) : bool :=
  match xs, ys with
  | [], [] => true
  | x :: xs', y :: ys' => ty_eqb x y && tys_eqb xs' ys'
  | _, _ => false
  end.

(** What parameters stand for; one that is not a pack stands for a list of one. *)
Definition env := list (string * list ty).
Fixpoint lookup {A} (x : string) (en : list (string * A)) : option A :=
  match en with [] => None | (y, v) :: en' => if String.eqb x y then Some v else lookup x en' end.
Definition bind_to (x : string) (v : list ty) (en : env) : option env :=
  match lookup x en with
  | None => Some ((x, v) :: en)
  | Some w => if tys_eqb v w then Some en else None
  end.

Definition is_pack (t : ty) : bool := match t with Pack _ => true | _ => false end.

(** Deduction: the parameters of pattern [p] for which it is [t]. *)
Fixpoint deduce (p t : ty) (en : env) : option env :=
  let fix list_deduce (ps ts : list ty) (en : env) : option env :=
    match ps with
    | [] => match ts with [] => Some en | _ => None end
    | p :: ps' =>
        match p with
        | Pack x => match ps' with [] => bind_to x ts en | _ => None end
        | _ =>
            match ts with
            | [] => None
            | t :: ts' => match deduce p t en with Some en' => list_deduce ps' ts' en' | None => None end
            end
        end
    end in
  match p, t with
  | Var x, _ => if is_pack t then None else bind_to x [t] en
  | Name a, Name b => if String.eqb a b then Some en else None
  | App a ps, App b ts => if String.eqb a b then list_deduce ps ts en else None
  | Lref p', Lref t' | Rref p', Rref t' | Ptr p', Ptr t' => deduce p' t' en
  | MemPtr c p', MemPtr d t' =>
      match deduce c d en with Some en' => deduce p' t' en' | None => None end
  | Fn r ps q, Fn s ts q' =>
      if fq_eqb q q'
      then match deduce r s en with Some en' => list_deduce ps ts en' | None => None end
      else None
  | Num a, Num b => if N.eqb a b then Some en else None
  | Member c p' x, Member d t' _ =>
      match deduce c d en with
      | Some en1 => match deduce p' t' en1 with Some en2 => bind_to x [t] en2 | None => None end
      | None => None
      end
  | Tm a, Tm b => if String.eqb a b then Some en else None
  | _, _ => None
  end.
Fixpoint deduce_list (ps ts : list ty) (en : env) : option env :=
  match ps with
  | [] => match ts with [] => Some en | _ => None end
  | p :: ps' =>
      match p with
      | Pack x => match ps' with [] => bind_to x ts en | _ => None end
      | _ =>
          match ts with
          | [] => None
          | t :: ts' => match deduce p t en with Some en' => deduce_list ps' ts' en' | None => None end
          end
      end
  end.

(** The parameters replaced; a pack becomes the list it stands for. *)
Fixpoint subst (en : env) (t : ty) : option (list ty) :=
  let one (t : ty) : option ty := match subst en t with Some [u] => Some u | _ => None end in
  let fix many (ts : list ty) : option (list ty) :=
    match ts with
    | [] => Some []
    | t :: ts' =>
        match subst en t, many ts' with Some us, Some vs => Some (us ++ vs) | _, _ => None end
    end in
  match t with
  | Var x | Pack x => lookup x en
  | App n ts => match many ts with Some us => Some [App n us] | None => None end
  | Cv c v t' => match one t' with Some u => Some [Cv c v u] | None => None end
  | Lref t' => match one t' with Some u => Some [Lref u] | None => None end
  | Rref t' => match one t' with Some u => Some [Rref u] | None => None end
  | Ptr t' => match one t' with Some u => Some [Ptr u] | None => None end
  | MemPtr c t' => match one c, one t' with Some d, Some u => Some [MemPtr d u] | _, _ => None end
  | Fn r ts q => match one r, many ts with Some s, Some us => Some [Fn s us q] | _, _ => None end
  | _ => Some [t]
  end.

(** Expressions in the bodies of templates. *)
Inductive ex :=
| T (t : ty)
| Of (n : ty) (args : list ex) (m : string)   (* [n<args...>::m]; [n] is a template or a parameter *)
| Pred (e : ex)                               (* [e - 1] *)
| Size (x : string)                           (* [sizeof...(x)] *)
| Succ (e : ex)                               (* [1 + e] *)
| Less (a b : ex)
| Both (a b : ex)                             (* [a && b], both instantiated *)
| CallOp (e : ex).                            (* [decltype(&e::operator())] *)

Inductive member :=
| Alias (e : ex)
| Nested (p : string) (m : string) (e : ex).  (* [template <size_t p> struct { using m = e; }] *)

Record class := mkclass {
  c_args : list ty;                           (* the pattern *)
  c_asserts : list ex;
  c_base : option (ty * list ex);
  c_members : list (string * member) }.
(** A primary without a body is only declared. *)
Record template := mktemplate { t_params : list ty; t_primary : option class; t_special : list class }.

(** * The headers *)

(** meta.hpp:9-20 *)
Definition push_front_t : template := mktemplate [Var "T"; Var "TypePack"] None
  [mkclass [Var "T"; App "type_pack" [Pack "Args"]] [] None
     [("type", Alias (T (App "type_pack" [Var "T"; Pack "Args"])))]].

(** meta.hpp:22-49 *)
Definition filter_t : template := mktemplate [Var "Predicate"; Pack ""] None
  [mkclass [Var "Predicate"] [] None [("type", Alias (T (App "type_pack" [])))];
   mkclass [Var "Predicate"; Var "Head"; Pack "Tail"] [] None
     [("type", Alias (Of (Tm "std::conditional")
        [Of (Var "Predicate") [T (Var "Head")] "value";
         Of (Tm "push_front") [T (Var "Head"); Of (Tm "filter") [T (Var "Predicate"); T (Pack "Tail")] "type"] "type";
         Of (Tm "filter") [T (Var "Predicate"); T (Pack "Tail")] "type"] "type"))];
   mkclass [Var "Predicate"; App "type_pack" [Pack "List"]] [] None
     [("type", Alias (Of (Tm "filter") [T (Var "Predicate"); T (Pack "List")] "type"))]].

(** utility.hpp:49-65 *)
Definition at_type_t : template := mktemplate [Var "N"; Var "Head"; Pack "Tail"]
  (Some (mkclass [Var "N"; Var "Head"; Pack "Tail"] [Less (T (Var "N")) (Succ (Size "Tail"))] None
     [("type", Alias (Of (Tm "at_type") [Pred (T (Var "N")); T (Pack "Tail")] "type"))]))
  [mkclass [Num 0; Var "Head"; Pack "Tail"] [] None [("type", Alias (T (Var "Head")))]].

(** utility.hpp:67-75 *)
Definition type_pack_t : template := mktemplate [Pack "Ts"]
  (Some (mkclass [Pack "Ts"] [] (Some (Tm "std::integral_constant", [Size "Ts"]))
     [("extract", Nested "N" "type" (Of (Tm "at_type") [T (Var "N"); T (Pack "Ts")] "type"))]))
  [].

(** type_traits.hpp:20-74 *)
Definition func_traits_t : template := mktemplate [Var "F"]
  (Some (mkclass [Var "F"] []
     (Some (Tm "func_traits", [CallOp (Of (Tm "std::remove_reference") [T (Var "F")] "type")])) []))
  [mkclass [Fn (Var "Ret") [Pack "Args"] fq0] [] None
     [("return_type", Alias (T (Var "Ret")));
      ("signature_type", Alias (T (Fn (Var "Ret") [Pack "Args"] fq0)));
      ("args_type", Alias (T (App "type_pack" [Pack "Args"])));
      ("arity", Alias (Size "Args"));
      ("arg", Nested "N" "type" (Of (Tm "at_type") [T (Var "N"); T (Pack "Args")] "type"))];
   mkclass [Ptr (Fn (Var "Ret") [Pack "Args"] fq0)] []
     (Some (Tm "func_traits", [T (Fn (Var "Ret") [Pack "Args"] fq0)])) [];
   mkclass [MemPtr (Var "Class") (Fn (Var "Ret") [Pack "Args"] fq0)] []
     (Some (Tm "func_traits", [T (Fn (Var "Ret") [Pack "Args"] fq0)]))
     [("class_type", Alias (T (Var "Class")))];
   mkclass [MemPtr (Var "Class") (Fn (Var "Ret") [Pack "Args"] fq_const)] []
     (Some (Tm "func_traits", [T (Fn (Var "Ret") [Pack "Args"] fq0)]))
     [("class_type", Alias (T (Var "Class")))];
   mkclass [Lref (Var "F")] [] (Some (Tm "func_traits", [T (Var "F")])) [];
   mkclass [Rref (Var "F")] [] (Some (Tm "func_traits", [T (Var "F")])) []].

(** type_traits.hpp:76-84 *)
Definition member_pointer_traits_t : template := mktemplate [Var "Ptr"] None
  [mkclass [Member (Var "Class") (Var "Value") "Ptr"] [] None
     [("value_type", Alias (T (Var "Value"))); ("class_type", Alias (T (Var "Class")))]].

(** type_traits.hpp:92-108 *)
Definition is_same_t : template := mktemplate [Var "T"; Var "U"; Pack "Rest"]
  (Some (mkclass [Var "T"; Var "U"; Pack "Rest"] []
     (Some (Tm "std::integral_constant",
        [Both (Of (Tm "std::is_same") [T (Var "T"); T (Var "U")] "value")
              (Of (Tm "is_same") [T (Var "U"); T (Pack "Rest")] "value")])) []))
  [mkclass [Var "T"; Var "U"] []
     (Some (Tm "std::integral_constant", [Of (Tm "std::is_same") [T (Var "T"); T (Var "U")] "value"])) []].

(** type_traits.hpp:110-118 *)
Definition remove_cvref_t : template := mktemplate [Var "T"]
  (Some (mkclass [Var "T"] [] None
     [("type", Alias (Of (Tm "std::remove_cv") [Of (Tm "std::remove_reference") [T (Var "T")] "type"] "type"))]))
  [].

(** utility.hpp:17-19: [enable_if<Ts...>] is the member [type] of this. *)
Definition enable_if_t : template := mktemplate [Pack "Ts"]
  (Some (mkclass [Pack "Ts"] [] None
     [("type", Alias (Of (Tm "std::enable_if")
        [Of (Tm "std::conjunction") [T (Pack "Ts")] "value"; T (Name "bool")] "type"))]))
  [].

Definition kl_templates : list (string * template) :=
  [("push_front", push_front_t); ("filter", filter_t); ("at_type", at_type_t); ("type_pack", type_pack_t);
   ("func_traits", func_traits_t); ("member_pointer_traits", member_pointer_traits_t); ("is_same", is_same_t);
   ("remove_cvref", remove_cvref_t); ("enable_if", enable_if_t)].

(** * Instantiation *)

(** A member of an instance: a type or value, or a template of its own. *)
Inductive thing :=
| Is (t : ty)
| Inner (en : env) (p m : string) (e : ex).
Definition instance := list (string * thing).

(** The rest of the program: its class templates; for a class that has exactly one [operator()]
    which is not a template, the class that declares it and its type. *)
Record world := mkworld { w_class : string -> list ty -> option instance; w_call : ty -> option (ty * ty) }.

Fixpoint no_cv (t : ty) : ty := match t with Cv _ _ t' => no_cv t' | _ => t end.
Definition no_reference (t : ty) : ty := match t with Lref t' | Rref t' => t' | _ => t end.
Definition is_class (t : ty) : bool := match t with Name _ | App _ _ => true | _ => false end.
Definition number (b : bool) : ty := Num (if b then 1 else 0).

(** The standard's class templates. *)
Definition std_class (n : string) (args : list ty) : option instance :=
  if String.eqb n "std::integral_constant" then
    match args with [Num k] => Some [("value", Is (Num k))] | _ => None end
  else if String.eqb n "std::conditional" then
    match args with [Num k; a; b] => Some [("type", Is (if N.eqb k 0 then b else a))] | _ => None end
  else if String.eqb n "std::remove_reference" then
    match args with [t] => Some [("type", Is (no_reference t))] | _ => None end
  else if String.eqb n "std::remove_cv" then
    match args with [t] => Some [("type", Is (no_cv t))] | _ => None end
  else if String.eqb n "std::is_same" then
    match args with [a; b] => Some [("value", Is (number (ty_eqb a b)))] | _ => None end
  else if String.eqb n "std::enable_if" then
    match args with
    | [Num k; t] => Some (if N.eqb k 0 then [] else [("type", Is t)])
    | _ => None
    end
  else None.

(** [p] is at least as specialized as [q]: [q] can be deduced from [p]. *)
Definition at_least (p q : class) : bool :=
  match deduce_list (c_args q) (c_args p) [] with Some _ => true | None => false end.
Definition better (p q : class) : bool := at_least p q && negb (at_least q p).

Definition matching (cs : list class) (args : list ty) : list (class * env) :=
  flat_map (fun c => match deduce_list (c_args c) args [] with Some en => [(c, en)] | None => [] end) cs.
(** The candidates that are better than all others. *)
Fixpoint best (before after : list (class * env)) : list (class * env) :=
  match after with
  | [] => []
  | c :: after' =>
      ((if forallb (fun d => better (fst c) (fst d)) (before ++ after') then [c] else []) ++ best (before ++ [c]) after')
  end.
Definition choose (t : template) (args : list ty) : option (class * env) :=
  match deduce_list (t_params t) args [] with
  | None => None                                   (* wrong number of arguments *)
  | Some _ =>
      match matching (t_special t) args with
      | [] =>
          match t_primary t with
          | Some c => match deduce_list (c_args c) args [] with Some en => Some (c, en) | None => None end
          | None => None
          end
      | cs => match best [] cs with [c] => Some c | _ => None end
      end
  end.

Definition single {A} (l : option (list A)) : option A := match l with Some [a] => Some a | _ => None end.

Fixpoint ev (W : world) (fuel : nat) (en : env) (e : ex) : option (list ty) :=
  match fuel with
  | O => None
  | S f =>
      match e with
      | T t => subst en t
      | Of n args m =>
          match single (subst en n), evs W f en args with
          | Some (Tm t), Some vs =>
              match inst W f t vs with
              | Some c => match lookup m c with Some (Is u) => Some [u] | _ => None end
              | None => None
              end
          | _, _ => None
          end
      | Pred a => match single (ev W f en a) with Some (Num k) => Some [Num (k - 1)] | _ => None end
      | Size x => match lookup x en with Some l => Some [Num (N.of_nat (length l))] | None => None end
      | Succ a => match single (ev W f en a) with Some (Num k) => Some [Num (1 + k)] | _ => None end
      | Less a b =>
          match single (ev W f en a), single (ev W f en b) with
          | Some (Num j), Some (Num k) => Some [number (N.ltb j k)]
          | _, _ => None
          end
      | Both a b =>
          match single (ev W f en a), single (ev W f en b) with
          | Some (Num j), Some (Num k) => Some [number (negb (N.eqb j 0) && negb (N.eqb k 0))]
          | _, _ => None
          end
      | CallOp a =>
          match single (ev W f en a) with
          | Some t =>
              if is_class (no_cv t)
              then match w_call W (no_cv t) with Some (d, sig) => Some [MemPtr d sig] | None => None end
              else None
          | None => None
          end
      end
  end
with evs (W : world) (fuel : nat) (en : env) (es : list ex) : option (list ty) :=
  match fuel with
  | O => None
  | S f =>
      match es with
      | [] => Some []
      | e :: es' => match ev W f en e, evs W f en es' with Some us, Some vs => Some (us ++ vs) | _, _ => None end
      end
  end
with inst (W : world) (fuel : nat) (n : string) (args : list ty) : option instance :=
  match fuel with
  | O => None
  | S f =>
      match lookup n kl_templates with
      | None =>
          (* [std::conjunction<B, Bs...>] is [B] if that is false or the last, the rest is not looked at *)
          if String.eqb n "std::conjunction" then
            match args with
            | [] => Some [("value", Is (Num 1))]
            | App b bs :: rest =>
                match inst W f b bs with
                | Some c =>
                    match lookup "value" c with
                    | Some (Is (Num k)) =>
                        match rest with
                        | [] => Some c
                        | _ => if N.eqb k 0 then Some c else inst W f n rest
                        end
                    | _ => None
                    end
                | None => None
                end
            | _ => None
            end
          else match std_class n args with Some c => Some c | None => w_class W n args end
      | Some t =>
          match choose t args with
          | None => None
          | Some (c, en) =>
              match evs W f en (c_asserts c) with
              | Some vs =>
                  if existsb (ty_eqb (Num 0)) vs then None
                  else
                    match
                      match c_base c with
                      | None => Some []
                      | Some (b, bargs) =>
                          match b, evs W f en bargs with
                          | Tm b', Some ws => inst W f b' ws
                          | _, _ => None
                          end
                      end
                    with
                    | Some inherited =>
                        match things W f en (c_members c) with
                        | Some own => Some (own ++ inherited)
                        | None => None
                        end
                    | None => None
                    end
              | None => None
              end
          end
      end
  end
with things (W : world) (fuel : nat) (en : env) (ms : list (string * member)) : option instance :=
  match fuel with
  | O => None
  | S f =>
      match ms with
      | [] => Some []
      | (x, Alias e) :: ms' =>
          match single (ev W f en e), things W f en ms' with
          | Some u, Some rest => Some ((x, Is u) :: rest)
          | _, _ => None
          end
      | (x, Nested p m e) :: ms' =>
          match things W f en ms' with Some rest => Some ((x, Inner en p m e) :: rest) | None => None end
      end
  end.

(** [n<args...>::m], and [n<args...>::template m<k>::m']. *)
Definition member_of (W : world) (fuel : nat) (n : string) (args : list ty) (m : string) : option ty :=
  match inst W fuel n args with
  | Some c => match lookup m c with Some (Is t) => Some t | _ => None end
  | None => None
  end.
Definition nested_of (W : world) (fuel : nat) (n : string) (args : list ty) (m : string) (k : N) (m' : string)
  : option ty :=
  match inst W fuel n args with
  | Some c =>
      match lookup m c with
      | Some (Inner en p x e) => if String.eqb x m' then single (ev W fuel ((p, [Num k]) :: en) e) else None
      | _ => None
      end
  | None => None
  end.
