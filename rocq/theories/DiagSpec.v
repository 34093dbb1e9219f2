(** How the description of an exception should read. *)
From Coq Require Import String List NArith ZArith Bool.
From Verif Require Import Base PathModel ScalarSpec XinfoModel XinfoSpec DiagModel.
Import ListNotations.
Local Open Scope list_scope.

(** A line of the text. *)
Definition ended (l : str) : str := l ++ [10%N].

(** The byte as two hexadecimal digits, the higher first. *)
Definition hex_digit (n c : N) : Prop :=
  (n < 10 /\ c = 48 + n)%N \/ (10 <= n /\ n < 16 /\ c = 65 + (n - 10))%N.
Definition in_hex (b : N) (s : str) : Prop :=
  exists h l ch cl, b = (16 * h + l)%N /\ hex_digit h ch /\ hex_digit l cl /\ s = [ch; cl].

(** Words with one space between two. *)
Fixpoint spaced (ws : list str) : str :=
  match ws with
  | [] => []
  | [w] => w
  | w :: ws' => w ++ [32%N] ++ spaced ws'
  end.

(** The line about a tag with a name and its value. *)
Inductive line_about (name : str) : value -> str -> Prop :=
| about_text s : line_about name (Streamed s Fine) (name ++ codes " = " ++ s)
| about_bytes bs ws : Forall2 in_hex bs ws -> line_about name (Opaque bs) (name ++ codes " = [" ++ spaced ws ++ codes "]").

(** The first line. *)
Definition place_line (pl : place) (s : str) : Prop :=
  exists before after, s = before ++ codes ": throw_with_info in function " ++ after /\
    match p_file pl with
    | Some f => exists n, decimal (p_line pl) n /\ before = f ++ codes "(" ++ n ++ codes ")"
    | None => before = codes "<unknown-file>"
    end /\
    match p_function pl with Some f => after = f | None => after = codes "<unknown-function>" end.

(** Values whose [operator<<] only writes; bytes are bytes. *)
Definition plain (v : value) : Prop :=
  match v with Streamed _ f => f = Fine | Opaque bs => Forall (fun b => b < 256)%N bs end.

(** The values of one tag in the order of the lines. *)
Definition of_tag (tag : nat) (l : list (nat * value)) : list value :=
  map snd (filter (fun p => Nat.eqb tag (fst p)) l).

(** Names and values that can be told apart in the text: no new line, no equals sign in names; all values of
    a type have an [operator<<] or none has. *)
Definition readable (has_operator : str -> bool) (names : nat -> str) (p : nat * value) : Prop :=
  ~ In 10%N (names (fst p)) /\ ~ In 61%N (names (fst p)) /\
  match snd p with
  | Streamed s f => f = Fine /\ ~ In 10%N s /\ has_operator (names (fst p)) = true
  | Opaque bs => Forall (fun b => b < 256)%N bs /\ has_operator (names (fst p)) = false
  end.

Definition one_line (pl : place) : Prop :=
  match p_file pl with Some f => ~ In 10%N f | None => True end /\
  match p_function pl with Some f => ~ In 10%N f | None => True end.
