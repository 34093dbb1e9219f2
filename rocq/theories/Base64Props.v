(** Property theorems for Base64 (C01-C05). *)
From Coq Require Import String List NArith Arith.
From Verif Require Import Base Base64Model Base64Spec Base64Proofs.
Import ListNotations.
Local Open Scope N_scope.

(** C01: decoding what was encoded gives the bytes back, both alphabets. *)
Theorem base64_roundtrip : forall s : list N, Forall is_byte s ->
  exists t, base64_encode s = Ok t /\ base64_decode t = Ok (Some s).
Proof.
  exact (fun s Hs => ex_intro _ _ (conj (encode_ok false s Hs) (roundtrip false s _ Hs (encode_ok false s Hs)))).
Qed.
Print Assumptions base64_roundtrip.

Theorem base64url_roundtrip : forall s : list N, Forall is_byte s ->
  exists t, base64url_encode s = Ok t /\ base64url_decode t = Ok (Some s).
Proof.
  exact (fun s Hs => ex_intro _ _ (conj (encode_ok true s Hs) (roundtrip true s _ Hs (encode_ok true s Hs)))).
Qed.
Print Assumptions base64url_roundtrip.

(** C02: the encoders compute the RFC 4648 encoding ... *)
Theorem base64_encode_is_rfc4648 : forall s : list N, Forall is_byte s ->
  base64_encode s = Ok (rfc_encode false s) /\ base64url_encode s = Ok (rfc_encode true s).
Proof. exact (fun s Hs => conj (encode_ok false s Hs) (encode_ok true s Hs)). Qed.
Print Assumptions base64_encode_is_rfc4648.

(** ... whose shape is: alphabet characters, then at most two '='; the length
    is 4*ceil(n/3) (standard) or ceil(4n/3) without padding (URL). *)
Theorem base64_encode_shape : forall s : list N, Forall is_byte s ->
  exists body pad,
    base64_encode s = Ok (body ++ repeat pad_char pad)
    /\ Forall (fun c => In c (rfc_alphabet false)) body
    /\ (pad <= 2)%nat
    /\ List.length (body ++ repeat pad_char pad) = (4 * ((List.length s + 2) / 3))%nat.
Proof. exact (rfc_encode_shape false). Qed.
Print Assumptions base64_encode_shape.

Theorem base64url_encode_shape : forall s : list N, Forall is_byte s ->
  exists body pad,
    base64url_encode s = Ok (body ++ repeat pad_char pad)
    /\ Forall (fun c => In c (rfc_alphabet true)) body
    /\ (pad <= 2)%nat
    /\ pad = 0%nat /\ List.length body = ((4 * List.length s + 2) / 3)%nat.
Proof. exact (rfc_encode_shape true). Qed.
Print Assumptions base64url_encode_shape.

(** C03: exact acceptance condition and result of the decoders. *)
Theorem base64_decode_accepts_iff : forall t b, Forall is_byte t ->
  base64_decode t = Ok (Some b) <->
  exists body pad, t = body ++ repeat pad_char pad /\ accepted false body pad
                   /\ b = rfc_decode_body false body.
Proof. exact (decode_impl_iff false). Qed.
Print Assumptions base64_decode_accepts_iff.

Theorem base64url_decode_accepts_iff : forall t b, Forall is_byte t ->
  base64url_decode t = Ok (Some b) <->
  exists body pad, t = body ++ repeat pad_char pad /\ accepted true body pad
                   /\ b = rfc_decode_body true body.
Proof. exact (decode_impl_iff true). Qed.
Print Assumptions base64url_decode_accepts_iff.

Theorem base64_decode_rejects_iff : forall t, Forall is_byte t ->
  base64_decode t = Ok None <->
  ~ exists body pad, t = body ++ repeat pad_char pad /\ accepted false body pad.
Proof. exact (decode_impl_none false). Qed.
Print Assumptions base64_decode_rejects_iff.

Theorem base64url_decode_rejects_iff : forall t, Forall is_byte t ->
  base64url_decode t = Ok None <->
  ~ exists body pad, t = body ++ repeat pad_char pad /\ accepted true body pad.
Proof. exact (decode_impl_none true). Qed.
Print Assumptions base64url_decode_rejects_iff.

(** C04: for every text the decoder ends without an out-of-bounds access, and
    when it succeeds the number of bytes written is the size of the buffer. *)
Theorem base64_decode_in_bounds : forall url t, Forall is_byte t ->
  exists r, base64_decode_run url t = Ok r /\
    match r with Some (buf, written) => written = List.length buf | None => True end.
Proof. exact decode_run_filled. Qed.
Print Assumptions base64_decode_in_bounds.

(** C05: canonical texts are reproduced by re-encoding ... *)
Theorem base64_canonical_reencode : forall url t b,
  Forall is_byte t ->
  (exists body pad, t = body ++ repeat pad_char pad /\ canonical_text url body
     /\ (forall x, body <> x ++ [pad_char]) /\ (url = true -> pad = 0%nat)) ->
  base64_decode_impl url t = Ok (Some b) -> base64_encode_impl url b = Ok t.
Proof. exact canonical_roundtrip. Qed.
Print Assumptions base64_canonical_reencode.

(** ... but the decoders accept other texts too, so decoding is not injective. *)
Theorem base64_decode_injective_refuted :
  exists t1 t2 b, t1 <> t2 /\ Forall is_byte t1 /\ Forall is_byte t2
    /\ base64_decode t1 = Ok (Some b) /\ base64_decode t2 = Ok (Some b).
Proof.
  exists (codes "QQ=="), (codes "QR=="), [65].
  repeat split; try (vm_compute; reflexivity); try (repeat constructor). vm_compute. discriminate.
Qed.
Print Assumptions base64_decode_injective_refuted.

Theorem base64url_decode_injective_refuted :
  exists t1 t2 b, t1 <> t2 /\ Forall is_byte t1 /\ Forall is_byte t2
    /\ base64url_decode t1 = Ok (Some b) /\ base64url_decode t2 = Ok (Some b).
Proof.
  exists (codes "QUJD"), (codes "QUJD="), [65; 66; 67].
  repeat split; try (vm_compute; reflexivity); try (repeat constructor). vm_compute. discriminate.
Qed.
Print Assumptions base64url_decode_injective_refuted.

(* ---------- the hypotheses are met by concrete cases ---------- *)

Example ex_bytes : Forall is_byte [72; 101; 108; 108; 111].
Proof. repeat constructor. Qed.
Example ex_encode : base64_encode [72; 101; 108; 108; 111] = Ok (codes "SGVsbG8=").
Proof. vm_compute. reflexivity. Qed.
Example ex_encode_url : base64url_encode [251; 255; 254] = Ok (codes "-__-").
Proof. vm_compute. reflexivity. Qed.
Example ex_accepted : accepted false (codes "SGVsbG8") 1.
Proof.
  repeat split; [|repeat constructor]. apply Forall_forall. intros x Hx. apply index_of_in.
  vm_compute in Hx. repeat (destruct Hx as [<-|Hx]; [vm_compute; discriminate|]). destruct Hx.
Qed.
Example ex_reject : base64_decode (codes "SGVsbG8==") = Ok None.
Proof. vm_compute. reflexivity. Qed.
Example ex_canonical : exists body pad, codes "SGVsbG8=" = body ++ repeat pad_char pad
  /\ canonical_text false body /\ (forall x, body <> x ++ [pad_char]) /\ (false = true -> pad = 0%nat).
Proof.
  exists (codes "SGVsbG8"), 1%nat. repeat split; try reflexivity; try discriminate.
  - vm_compute. repeat constructor.
  - intros x Hx. apply (f_equal (fun l => last l 0)) in Hx. rewrite last_last in Hx.
    vm_compute in Hx. discriminate.
Qed.
