(** Views and the objects they refer to: [kl::range] (kl/range.hpp:9-94), [kl::stream_join] (kl/stream_join.hpp:8-57) and [kl::zipped],
    [kl::enumerated] (kl/zip.hpp:147-231) in programs that declare variables, print and loop.

    Simplifications: one type of container; a holder is any object with a container [items] and a function [items()] that returns a reference to it;
    [iota] stands for both iota ranges, [enumerated(e)] is [zipped(iota, e)]; elements are not modelled, loops run their body once; no assignment.
    Lifetimes are those of C++17: temporaries die at the end of the full expression, except one that [auto&&] of a loop is bound to. *)
From Coq Require Import List Arith Bool.
From Verif Require Import Base.
Import ListNotations.
Local Open Scope outcome_scope.

Inductive vty := TCont | THolder | TIota | TRange | TJoin | TZip.

Inductive ex :=
| EVar (x : nat)
| EMake                  (* make(): a container *)
| EHolder                (* make_holder() *)
| EIota                  (* kl::iota_range<T>{a, b} *)
| EItems (e : ex)        (* e.items *)
| ECall (e : ex)         (* e.items() *)
| EMoved (e : ex)        (* std::move(e) *)
| ERange (e : ex)        (* kl::range(e) *)
| EJoin (e : ex)         (* kl::stream_join(e) *)
| EZip (es : list ex).   (* kl::zipped(es...) *)

Inductive stmt :=
| SAuto (e : ex)                      (* auto v = e; *)
| SPrint (e : ex)                     (* os << e; *)
| SFor (e : ex) (body : list stmt)    (* for (auto x : e) { body } *)
| SBlock (body : list stmt).

(** ** What compiles *)

(** zip.hpp:202-208 [is_borrowed_range] *)
Definition is_borrowed (t : vty) : bool := match t with TIota => true | _ => false end.

(** What has [begin] and [end]. *)
Definition iterable (t : vty) : bool := match t with TCont | TIota | TRange | TZip => true | THolder | TJoin => false end.

(** The type of an expression and whether it is an lvalue. *)
Fixpoint typ (tenv : list vty) (e : ex) {struct e} : option (vty * bool) :=
  match e with
  | EVar x => option_map (fun t => (t, true)) (nth_error tenv x)
  | EMake => Some (TCont, false)
  | EHolder => Some (THolder, false)
  | EIota => Some (TIota, false)
  | EItems e => match typ tenv e with Some (THolder, l) => Some (TCont, l) | _ => None end
  | ECall e => match typ tenv e with Some (THolder, _) => Some (TCont, true) | _ => None end
  | EMoved e => option_map (fun tl => (fst tl, false)) (typ tenv e)
  | ERange e =>                                          (* range.hpp:37-50: any container, by reference *)
      match typ tenv e with Some (TCont, _) => Some (TRange, false) | _ => None end
  | EJoin e =>                                           (* stream_join.hpp:11 and 53-57; [*i++] needs more than iota_iterator offers *)
      match typ tenv e with Some (TCont, _) | Some (TRange, _) => Some (TJoin, false) | _ => None end
  | EZip es =>                                           (* zip.hpp:211-222 with the assertion [is_safely_zipped] *)
      if negb (length es =? 0) &&
         forallb (fun e => match typ tenv e with Some (t, l) => iterable t && (l || is_borrowed t) | None => false end) es
      then Some (TZip, false) else None
  end.

Fixpoint check (tenv : list vty) (s : stmt) {struct s} : option (list vty) :=
  match s with
  | SAuto e => option_map (fun tl => tenv ++ [fst tl]) (typ tenv e)
  | SPrint e => match typ tenv e with Some (TJoin, _) => Some tenv | _ => None end
  | SFor e body =>
      match typ tenv e with
      | Some (t, _) =>
          if iterable t then
            match (fix all (tenv : list vty) (ss : list stmt) : option (list vty) :=
                     match ss with
                     | [] => Some tenv
                     | s :: ss' => match check tenv s with Some tenv' => all tenv' ss' | None => None end
                     end) tenv body with
            | Some _ => Some tenv
            | None => None
            end
          else None
      | None => None
      end
  | SBlock body =>
      match (fix all (tenv : list vty) (ss : list stmt) : option (list vty) :=
               match ss with
               | [] => Some tenv
               | s :: ss' => match check tenv s with Some tenv' => all tenv' ss' | None => None end
               end) tenv body with
      | Some _ => Some tenv
      | None => None
      end
  end.

(** ** Objects *)

(** Containers and holders own their elements; ranges and zipped ranges hold iterators; joiners hold a reference to the sequence object
    (stream_join.hpp:47); iota ranges refer to nothing. *)
Inductive kind := Owner | Points | Joins | Numbers.

Record obj := mkobj { okind : kind; orefs : list nat; oalive : bool }.
Definition heap := list obj.

Definition alive (h : heap) (id : nat) : bool := match nth_error h id with Some o => oalive o | None => false end.
Definition refs_of (h : heap) (id : nat) : list nat := match nth_error h id with Some o => orefs o | None => [] end.
Definition kind_of (h : heap) (id : nat) : kind := match nth_error h id with Some o => okind o | None => Owner end.

(** The end of the lives of all objects from [a] on, but for [keep]. *)
Definition kill (a : nat) (keep : option nat) (h : heap) : heap :=
  map (fun io => let '(i, o) := io in
         if (i <? a) || match keep with Some k => i =? k | None => false end then o else mkobj (okind o) (orefs o) false)
      (combine (seq 0 (length h)) h).

(** What is looked at when an object with these references is used: what it refers to and what that refers to. *)
Definition touched (h : heap) (refs : list nat) : list nat := refs ++ flat_map (refs_of h) refs.
Definition usable (h : heap) (id : nat) : bool := alive h id && forallb (alive h) (touched h (refs_of h id)).

(** ** Expressions *)

(** A glvalue denotes an object; a prvalue is what a new object is made from. *)
Inductive res := Place (id : nat) | Value (k : kind) (refs : list nat).

(** A reference is bound: prvalues become temporaries. *)
Definition bind_ref (r : res) (h : heap) : nat * heap :=
  match r with
  | Place id => (id, h)
  | Value k refs => (length h, h ++ [mkobj k refs true])
  end.

(** [begin(seq)]: iterators of a container refer to it, those of ranges are copied. *)
Definition begin_of (h : heap) (id : nat) : list nat :=
  match kind_of h id with
  | Owner => [id]
  | Points => refs_of h id
  | Joins | Numbers => []
  end.

Fixpoint eval (env : list nat) (e : ex) (h : heap) {struct e} : res * heap :=
  match e with
  | EVar x => (Place (nth x env 0), h)
  | EMake | EHolder => (Value Owner [], h)
  | EIota => (Value Numbers [], h)
  | EItems e | ECall e | EMoved e =>
      let '(r, h1) := eval env e h in
      let '(id, h2) := bind_ref r h1 in
      (Place id, h2)
  | ERange e =>                                          (* range.hpp:37-50 *)
      let '(r, h1) := eval env e h in
      let '(id, h2) := bind_ref r h1 in
      (Value Points (begin_of h2 id), h2)
  | EJoin e =>                                           (* stream_join.hpp:11 *)
      let '(r, h1) := eval env e h in
      let '(id, h2) := bind_ref r h1 in
      (Value Joins [id], h2)
  | EZip es =>                                           (* zip.hpp:147-153 *)
      let '(refs, h1) :=
        (fix args (es : list ex) (h : heap) : list nat * heap :=
           match es with
           | [] => ([], h)
           | e :: es' =>
               let '(r, h1) := eval env e h in
               let '(id, h2) := bind_ref r h1 in
               let '(refs, h3) := args es' h2 in
               (begin_of h2 id ++ refs, h3)
           end) es h in
      (Value Points refs, h1)
  end.

(** ** Statements *)

(** Whether [auto&&] extends the life of the temporary: it is bound to it or to a member of it. *)
Fixpoint extends (e : ex) : bool :=
  match e with
  | EItems e => extends e
  | EVar _ | ECall _ | EMoved _ => false
  | EMake | EHolder | EIota | ERange _ | EJoin _ | EZip _ => true
  end.

(** What [auto v] is made from: glvalues are copied. *)
Definition copied (r : res) (h : heap) : kind * list nat :=
  match r with
  | Place id => (kind_of h id, refs_of h id)
  | Value k refs => (k, refs)
  end.

Fixpoint run (env : list nat) (h : heap) (s : stmt) {struct s} : outcome (list nat * heap) :=
  match s with
  | SAuto e =>
      let '(r, h1) := eval env e h in
      let '(k, refs) := copied r h1 in
      Ok (env ++ [length h1], kill (length h) None h1 ++ [mkobj k refs true])
  | SPrint e =>                                          (* stream_join.hpp:25-43 *)
      let '(r, h1) := eval env e h in
      let '(id, h2) := bind_ref r h1 in
      if usable h2 id then Ok (env, kill (length h) None h2) else UB
  | SFor e body =>
      let '(r, h1) := eval env e h in
      let '(id, h2) := bind_ref r h1 in
      let h3 := kill (length h) (if extends e then Some id else None) h2 in
      if usable h3 id then
        ' (_, h4) <- (fix all (env : list nat) (h : heap) (ss : list stmt) : outcome (list nat * heap) :=
                        match ss with
                        | [] => Ok (env, h)
                        | s :: ss' => ' (env1, h1) <- run env h s ;; all env1 h1 ss'
                        end) env h3 body ;;
        Ok (env, kill (length h) None h4)
      else UB
  | SBlock body =>
      ' (_, h1) <- (fix all (env : list nat) (h : heap) (ss : list stmt) : outcome (list nat * heap) :=
                      match ss with
                      | [] => Ok (env, h)
                      | s :: ss' => ' (env1, h1) <- run env h s ;; all env1 h1 ss'
                      end) env h body ;;
      Ok (env, kill (length h) None h1)
  end.

(** A whole function. *)
Definition compiles (ss : list stmt) : bool := match check [] (SBlock ss) with Some _ => true | None => false end.
Definition run_all (ss : list stmt) : outcome (list nat * heap) := run [] [] (SBlock ss).
