(** C179: a path set from its own text. *)
From Coq Require Import List NArith Arith Bool Lia.
From Verif Require Import Base PathModel PathSpec SelfModel SelfSamples SelfProofs SelfZeroProofs.
Import ListNotations.

(** A view that does not begin at the first character is parsed as a copy of it would be. *)
Theorem own_text : forall o r n q, 1 <= r ->
  match path_set q (window (buf o) r n) with
  | POk p => exists o2, o_set o r n = OOk o2 /\ seen o2 = p
  | PThrow p => exists o2, o_set o r n = OThrow o2 /\ seen o2 = p
  | PUB => False
  end.
Proof. exact set_own. Qed.
Print Assumptions own_text.

(** Views of a parsed path begin at a later character unless they are views of its first segment, so that
    [p.set(p.joined(k))] and [p.set(p\[k\])] are of that kind for every [k] but 0. *)
Theorem own_text_views : forall q s o k seg, path_set q s = POk (seen o) -> nth_error (segs_ o) k = Some seg ->
  (1 <= k -> 1 <= seg_offset seg) /\ seg_offset seg + seg_length seg <= size o /\
  joined (seen o) k = Ok (window (buf o) (seg_offset seg) (size o - seg_offset seg)) /\
  path_at (seen o) k = Ok (window (buf o) (seg_offset seg) (seg_length seg)).
Proof. exact own_views. Qed.
Print Assumptions own_text_views.

(** For the first segment it fails: a copy of the whole text would leave the path as it is, the view gives null characters. *)
Theorem own_text_refuted :
  exists o t o2, path_set path_default t = POk (seen o) /\ joined (seen o) 0 = Ok t /\
    o_set o 0 (size o) = OOk o2 /\ seen o2 <> seen o /\ path_at (seen o2) 0 = Ok [0; 0]%N.
Proof.
  exists own_abcde, abcde. destruct (o_set own_abcde 0 (size own_abcde)) as [o2|o2|] eqn:E; try (vm_compute in E; discriminate).
  exists o2. assert (S2 : forall x, o_set own_abcde 0 (size own_abcde) = OOk x -> seen x = mkpath [0; 0; 47; 0; 47; 0; 0]%N [mkseg 0 2; mkseg 3 1; mkseg 5 2]).
  { intros x Ex. assert (X : match o_set own_abcde 0 (size own_abcde) with OOk y => seen y | _ => path_default end
      = mkpath [0; 0; 47; 0; 47; 0; 0]%N [mkseg 0 2; mkseg 3 1; mkseg 5 2]) by (vm_compute; reflexivity). rewrite Ex in X. exact X. }
  split; [vm_compute; reflexivity|]. split; [vm_compute; reflexivity|]. split; [reflexivity|]. rewrite (S2 o2 E). split; [discriminate|vm_compute; reflexivity].
Qed.
Print Assumptions own_text_refuted.

(** It fails in the same way for every parsed path: no segment keeps a single character, only the lengths stay. *)
Theorem own_text_first : forall q s o segs, path_set q s = POk (seen o) -> path_meaning s = Some segs -> segs <> [] -> Forall kept segs ->
  exists o2, o_set o 0 (size o) = OOk o2 /\
    path_size (seen o2) = length segs /\ forall i, i < length segs -> path_at (seen o2) i = Ok (repeat 0%N (length (nth i segs []))).
Proof. exact set_zero. Qed.
Print Assumptions own_text_first.

(** Without its first segment; one segment of it; with escapes in the text that is read again. *)
Example own_later : match o_set own_abcde 3 4 with OOk o => value_ (seen o) | _ => [] end = [99; 47; 100; 101]%N.
Proof. vm_compute. reflexivity. Qed.
Example own_last : match o_set own_abcde 5 2 with OOk o => seen o | _ => path_default end = mkpath [100; 101]%N [mkseg 0 2].
Proof. vm_compute. reflexivity. Qed.
Example own_escape :
  match o_set (mkown (fun j => nth j [97; 47; 37; 54; 49; 47; 46; 46; 47; 98]%N 0%N) 10 []) 2 8 with OOk o => value_ (seen o) | _ => [] end = [98]%N.
Proof. vm_compute. reflexivity. Qed.
