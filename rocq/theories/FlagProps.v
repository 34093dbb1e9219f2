(** C173: [bool] in binary streams. *)
From Coq Require Import List NArith ZArith Arith Bool.
From Verif Require Import Base BinModel BinSpec FlagModel FlagSpec FlagProofs FlagMainProofs FlagTripProofs FlagSamples.
Import ListNotations.

(** What was written from values whose bools are false or true is read back. *)
Theorem flags_round_trip : forall t v old c, wf_ty (erase t) -> has_ty (erase t) v -> has_ty (erase t) old -> proper t v ->
  ahead c (encode (erase t) v) ->
  exists c', read_flags t old c = Ok (c', v) /\ err c' = false /\ buf c' = buf c /\ pos c' = (pos c + N.of_nat (length (encode (erase t) v)))%N.
Proof. exact proper_round_trip. Qed.
Print Assumptions flags_round_trip.

Example settings_read : encode (erase settings) settings_value = settings_bytes /\ proper settings settings_value /\
  read_flags settings (dflt (erase settings)) (open_buffer settings_bytes) = Ok (mkcursor settings_bytes 12 false 1, settings_value).
Proof.
  split; [reflexivity|]. split; [|reflexivity]. apply p_pair; [repeat constructor|]. constructor. intros v [<-|[]]. repeat constructor.
Qed.

(** Reading is BinModel's or undefined. *)
Theorem flags_read_alike : forall t old c, read_flags t old c = UB \/ read_flags t old c = read_binary (erase t) old c.
Proof. exact flags_under. Qed.
Print Assumptions flags_read_alike.

(** It is always defined if no bool is in an element, key, mapped value, optional or alternative; if there is one, some bytes make it undefined. *)
Theorem flags_defined : forall t, streamable t -> wf_ty (erase t) ->
  (exposed t -> exists bs, Forall is_octet bs /\ forall c old, has_ty (erase t) old -> ahead c bs -> read_flags t old c = UB) /\
  (~ exposed t -> forall old c, inside c -> has_ty (erase t) old ->
     exists c' v, read_flags t old c = Ok (c', v) /\ read_binary (erase t) old c = Ok (c', v)).
Proof. exact defined_reading. Qed.
Print Assumptions flags_defined.

Example switches_undefined : exposed switches /\ streamable switches /\ wf_ty (erase switches) /\
  read_flags switches (VMap []) (open_buffer [1; 0; 0; 0; 0; 0; 0; 0; 2]%N) = UB /\
  (exists c, read_flags switches (VMap []) (open_buffer [1; 0; 0; 0; 0; 0; 0; 0; 1]%N) = Ok (c, VMap [(VStr [], VInt 1)])).
Proof. repeat split; try (apply e_mapped; left; constructor); try (cbn; auto with arith). eexists. reflexivity. Qed.

(** Values are always proper if there is no bool anywhere; if there is one, some bytes give a value that is not, or are undefined. *)
Theorem flags_proper : forall t, streamable t -> wf_ty (erase t) ->
  (flagged t -> exists bs, Forall is_octet bs /\ forall c old, has_ty (erase t) old -> ahead c bs ->
     read_flags t old c = UB \/ exists c' v, read_flags t old c = Ok (c', v) /\ err c' = false /\ ~ proper t v) /\
  (~ flagged t -> forall old c, inside c -> has_ty (erase t) old -> exists c' v, read_flags t old c = Ok (c', v) /\ proper t v).
Proof. exact proper_reading. Qed.
Print Assumptions flags_proper.

Example option_forged : ~ exposed option_ty /\ flagged option_ty /\
  exists c, read_flags option_ty (dflt (erase option_ty)) (open_buffer [7; 0; 0; 0; 0]%N) = Ok (c, VSeq [VInt 7; VStr []]) /\ err c = false /\
    ~ proper option_ty (VSeq [VInt 7; VStr []]).
Proof.
  split; [intros H; inversion H as [| | | | | | | |? t I X]; subst; destruct I as [<-|[<-|[]]]; inversion X|].
  split; [left; apply (c_rec _ FFlag); [now left | constructor]|].
  eexists. split; [reflexivity|]. split; [reflexivity|]. intros H. inversion H as [| | | | | | | | | |? ? F]; subst. inversion F as [|? ? ? ? P]; subst. inversion P.
Qed.

(** Neither holds for all types. *)
Theorem flags_checked_refuted :
  ~ (forall t old c, streamable t -> wf_ty (erase t) -> has_ty (erase t) old -> inside c -> read_flags t old c <> UB) /\
  ~ (forall t old c c' v, streamable t -> wf_ty (erase t) -> has_ty (erase t) old -> proper t old -> inside c ->
       read_flags t old c = Ok (c', v) -> proper t v).
Proof.
  split.
  - intros H. apply (H (FOpt FFlag) (VOpt None) (open_buffer [1; 2]%N)); try exact I; [cbn; auto with arith| |reflexivity].
    split; [discriminate|]. split; [reflexivity|]. repeat constructor.
  - intros H. assert (P : proper FFlag (VInt 2)); [|inversion P].
    apply (H FFlag (VInt 0) (open_buffer [2]%N) (mkcursor [2]%N 1 false 0) (VInt 2)); [exact I| | |constructor| |reflexivity].
    + cbn. auto with arith.
    + cbn. split; [discriminate | reflexivity].
    + split; [discriminate|]. split; [reflexivity|]. repeat constructor.
Qed.
Print Assumptions flags_checked_refuted.
