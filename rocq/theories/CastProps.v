(** C174: objects as bytes. *)
From Coq Require Import List NArith ZArith Arith Bool Lia.
From Verif Require Import Base BinModel BinSpec CastModel CastSpec CastProofs CastLayProofs CastMainProofs CastSamples.
Import ListNotations.

(** The layout: sizes are multiples of the alignment, structures end at the first multiple behind their last member and are aligned as their members need. *)
Theorem layouts : forall t, real t -> 1 <= sizeof t /\ Nat.divide (alignof t) (sizeof t) /\
  match t with
  | LNum _ _ k => sizeof t = 2 ^ k /\ alignof t = 2 ^ k
  | LBool => sizeof t = 1 /\ alignof t = 1
  | LArr n u => sizeof t = n * sizeof u /\ alignof t = alignof u
  | LStruct ts =>
      (exists e, members_end 0 ts e /\ first_multiple (alignof t) (Nat.max 1 e) (sizeof t)) /\
      (forall u, In u ts -> Nat.divide (alignof u) (alignof t)) /\
      (forall a, (forall u, In u ts -> Nat.divide (alignof u) a) -> Nat.divide (alignof t) a)
  end.
Proof. exact layout_laws. Qed.
Print Assumptions layouts.

Example header_layout : sizeof header = 12 /\ alignof header = 4 /\ sizeof entry = 16 /\
  store header header_value = [Some 7; None; None; None; Some 2; Some 1; Some 0; Some 0; Some 1; None; None; None]%N.
Proof. repeat split. Qed.

(** The result of a cast means what its bytes mean, copied or not; this is undefined exactly if a byte of a bool is neither 0 nor 1. *)
Theorem cast_means_its_bytes : forall from to copied bs, real from -> real to -> castable from to = true -> Forall is_octet bs -> length bs = sizeof from ->
  obind (bit_cast to copied bs) (load to) = load to bs /\
  (load to bs = UB <-> exists i b, holds to i Flag /\ nth_error bs i = Some b /\ (2 <= b)%N) /\
  (load to bs = UB \/ exists v, load to bs = Ok v /\ value to v).
Proof. exact cast_read. Qed.
Print Assumptions cast_means_its_bytes.

Example cast_signed : castable u32 i32 = true /\
  obind (bit_cast i32 (Some (fun _ => 9%N)) (object u32 (fun _ => 9%N) (CNum 4294967294))) (load i32) = Ok (CNum (-2)) /\
  castable u8 LBool = true /\ bit_cast LBool (Some (fun _ => 0%N)) (object u8 (fun _ => 0%N) (CNum 2)) = UB /\
  castable u32 u64 = false /\ castable u64 (LArr 2 u32) = false.
Proof. repeat split. Qed.

(** Casting there and back gives every value again exactly if its bytes are covered by those of the other type. *)
Theorem cast_there_and_back : forall from to, real from -> real to -> castable from to = true ->
  ((forall v pad r1 r2, value from v -> octets pad -> octets_of r1 -> octets_of r2 ->
      obind (bit_cast to r1 (object from pad v)) (fun o => obind (bit_cast from r2 o) (load from)) = Ok v) <-> covered from to).
Proof. exact back_iff. Qed.
Print Assumptions cast_there_and_back.

Example small_there_and_back : castable small u32 = true /\
  obind (bit_cast u32 (Some (fun _ => 9%N)) (object small (fun _ => 5%N) (CSeq [CNum 515; CNum 4])))
    (fun o => obind (bit_cast small None o) (load small)) = Ok (CSeq [CNum 515; CNum 4]) /\
  obind (bit_cast small (Some (fun _ => 9%N)) (object u32 (fun _ => 0%N) (CNum 1)))
    (fun o => obind (bit_cast u32 None o) (load u32)) = Ok (CNum (1 + 9 * 256 ^ 3)).
Proof. repeat split. Qed.

(** It does not for all types of the same size. *)
Theorem cast_there_and_back_refuted :
  ~ (forall from to v pad r1 r2, real from -> real to -> castable from to = true -> castable to from = true ->
       value from v -> octets pad -> octets_of r1 -> octets_of r2 ->
       obind (bit_cast to r1 (object from pad v)) (fun o => obind (bit_cast from r2 o) (load from)) = Ok v).
Proof.
  intros H. specialize (H u32 small (CNum 1) (fun _ => 0%N) (Some (fun _ => 9%N)) None). discriminate H.
  - cbn. lia.
  - cbn. lia.
  - reflexivity.
  - reflexivity.
  - constructor. cbn. lia.
  - intros i. reflexivity.
  - intros i. reflexivity.
  - exact I.
Qed.
Print Assumptions cast_there_and_back_refuted.

(** An object written with write_raw or write_span is read and peeked as the same value. *)
Theorem raw_round_trip : forall t v pad old c, real t -> value t v -> octets pad -> inside c -> err c = false ->
  (pos c + N.of_nat (sizeof t) <= size_bytes c)%N ->
  exists c', write_object t (object t pad v) c = Ok c' /\ err c' = false /\ pos c' = (pos c + N.of_nat (sizeof t))%N /\
    size_bytes c' = size_bytes c /\
    exists bytes, load t bytes = Ok v /\
      read_object t old (set_pos c' (pos c)) = Ok (c', bytes) /\ peek_object t old (set_pos c' (pos c)) = Ok bytes.
Proof. exact raw_trip. Qed.
Print Assumptions raw_round_trip.

Example header_written : value header header_value /\
  write_object header (object header (fun i => N.of_nat (100 + i)) header_value) (open_buffer (repeat 0%N 14)) =
  Ok (mkcursor [7; 101; 102; 103; 2; 1; 0; 0; 1; 109; 110; 111; 0; 0]%N 12 false 0).
Proof. split; [|reflexivity]. repeat constructor; cbn; lia. Qed.

(** The bytes of an object are those of its value exactly if its type has no padding; in padding they are whatever the memory holds. *)
Theorem raw_bytes_known : forall t, real t ->
  ((forall v pad pad', value t v -> octets pad -> octets pad' -> object t pad v = object t pad' v) <-> forall i, ~ padding t i) /\
  (forall i, padding t i -> forall v pad, value t v -> nth_error (object t pad v) i = Some (pad i)).
Proof. exact known_bytes. Qed.
Print Assumptions raw_bytes_known.

(** Equal values may be written as different bytes. *)
Theorem raw_bytes_refuted :
  ~ (forall t v pad pad' c, real t -> value t v -> octets pad -> octets pad' -> inside c ->
       write_object t (object t pad v) c = write_object t (object t pad' v) c).
Proof.
  intros H. specialize (H header header_value (fun _ => 0%N) (fun _ => 1%N) (open_buffer (repeat 0%N 12))). discriminate H.
  - cbn. lia.
  - repeat constructor; cbn; lia.
  - intros i. reflexivity.
  - intros i. reflexivity.
  - split; [cbn; lia|]. split; [reflexivity|]. repeat constructor.
Qed.
Print Assumptions raw_bytes_refuted.
