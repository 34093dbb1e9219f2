(** What a path text means, independent of the model. *)
From Coq Require Import List NArith Arith Bool.
Import ListNotations.

Notation text := (list N) (only parsing).

Definition slash : N := 47.
Definition percent : N := 37.
Definition dot : text := [46%N].
Definition dotdot : text := [46%N; 46%N].

(** The pieces of a text between slashes (always at least one piece). *)
Fixpoint pieces (s : text) : list text :=
  match s with
  | [] => [[]]
  | c :: t =>
      if N.eqb c slash then [] :: pieces t
      else match pieces t with
           | p :: ps => (c :: p) :: ps
           | [] => [[c]]
           end
  end.

(** Value of a hexadecimal digit. *)
Definition hex_value (c : N) : option N :=
  if (48 <=? c)%N && (c <=? 57)%N then Some (c - 48)%N
  else if (65 <=? c)%N && (c <=? 70)%N then Some (c - 55)%N
  else if (97 <=? c)%N && (c <=? 102)%N then Some (c - 87)%N
  else None.

(** Percent decoding; [None] if an escape is malformed or denotes a slash. *)
Fixpoint unescape (s : text) : option text :=
  match s with
  | [] => Some []
  | c :: t =>
      if N.eqb c percent then
        match t with
        | h :: l :: t' =>
            match hex_value h, hex_value l with
            | Some a, Some b =>
                if N.eqb (16 * a + b) slash then None
                else option_map (cons (16 * a + b)%N) (unescape t')
            | _, _ => None
            end
        | _ => None
        end
      else option_map (cons c) (unescape t)
  end.

(** Effect of one piece on the segments collected so far. *)
Definition apply_piece (segs : list text) (piece : text) : option (list text) :=
  if list_eq_dec N.eq_dec piece [] then Some segs
  else if list_eq_dec N.eq_dec piece dot then Some segs
  else if list_eq_dec N.eq_dec piece dotdot then Some (removelast segs)
  else option_map (fun d => segs ++ [d]) (unescape piece).

Fixpoint apply_pieces (segs : list text) (ps : list text) : option (list text) :=
  match ps with
  | [] => Some segs
  | p :: ps' =>
      match apply_piece segs p with
      | Some segs' => apply_pieces segs' ps'
      | None => None
      end
  end.

(** The meaning of a path text: its segment list, or [None] if malformed. *)
Definition path_meaning (s : text) : option (list text) := apply_pieces [] (pieces s).

(** Segments joined by slashes. *)
Fixpoint join (segs : list text) : text :=
  match segs with
  | [] => []
  | [s] => s
  | s :: rest => s ++ slash :: join rest
  end.

(** What a segment list produced by parsing always satisfies. *)
Definition segment_ok (s : text) : Prop := s <> [] /\ ~ In slash s.

(** A piece that is kept as a segment (others are dropped or remove one). *)
Definition kept (p : text) : Prop := p <> [] /\ p <> dot /\ p <> dotdot.

(** [rest] (what follows a percent sign) does not start with two hexadecimal
    digits denoting a character other than a slash. *)
Definition bad_escape (rest : text) : Prop :=
  ~ exists h l t x y, rest = h :: l :: t /\ hex_value h = Some x /\ hex_value l = Some y
                      /\ (16 * x + y)%N <> slash.
