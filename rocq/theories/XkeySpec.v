(** What extra fields hold, and for how long their keys can be used. *)
From Coq Require Import List NArith Arith Bool.
From Verif Require Import Base XkeyModel.
Import ListNotations.

(** A container that finds what it holds. *)
Definition finds (probe : list str -> str -> list nat) : Prop :=
  forall texts s i, nth_error texts i = Some s -> In i (probe texts s).

(** A lookup compares with at least one key, if there is one: [std::map]. *)
Definition ordered (probe : list str -> str -> list nat) : Prop :=
  forall texts s, texts <> [] -> exists i, i < length texts /\ In i (probe texts s).

(** The key can be used if its characters are alive. *)
Definition usable (live : nat -> bool) (k : key) : Prop :=
  match k with mkkey Inside _ => True | mkkey (At r) _ => live r = true end.

Section Extras.
Context {V D : Type}.

(** What the document says: members of names that are not reserved, the first of each name. *)
Inductive said (reserved : list str) (read : D -> outcome V) : list (option str * D) -> list (str * V) -> list (str * V) -> Prop :=
| said_nil acc : said reserved read [] acc acc
| said_reserved n d ms acc out : In n reserved -> said reserved read ms acc out -> said reserved read ((Some n, d) :: ms) acc out
| said_again n d v ms acc out : ~ In n reserved -> read d = Ok v -> In n (map fst acc) ->
    said reserved read ms acc out -> said reserved read ((Some n, d) :: ms) acc out
| said_new n d v ms acc out : ~ In n reserved -> read d = Ok v -> ~ In n (map fst acc) ->
    said reserved read ms (acc ++ [(n, v)]) out -> said reserved read ((Some n, d) :: ms) acc out.

(** What patching makes of it: members that are there are patched, others are made. *)
Inductive patched (reserved : list str) (patch : D -> V -> outcome V) (fresh : V) :
    list (option str * D) -> list (str * V) -> list (str * V) -> Prop :=
| patched_nil acc : patched reserved patch fresh [] acc acc
| patched_reserved n d ms acc out : In n reserved -> patched reserved patch fresh ms acc out ->
    patched reserved patch fresh ((Some n, d) :: ms) acc out
| patched_there n d v v' a b ms out : ~ In n reserved -> patch d v = Ok v' ->
    patched reserved patch fresh ms (a ++ (n, v') :: b) out ->
    patched reserved patch fresh ((Some n, d) :: ms) (a ++ (n, v) :: b) out
| patched_new n d v ms acc out : ~ In n reserved -> ~ In n (map fst acc) -> patch d fresh = Ok v ->
    patched reserved patch fresh ms (acc ++ [(n, v)]) out ->
    patched reserved patch fresh ((Some n, d) :: ms) acc out.

Definition texts (m : list (key * V)) : list (str * V) := map (fun e => (chars (fst e), snd e)) m.

Definition only_reserved (reserved : list str) (ms : list (option str * D)) : Prop :=
  Forall (fun x => exists n, fst x = Some n /\ In n reserved) ms.
End Extras.
