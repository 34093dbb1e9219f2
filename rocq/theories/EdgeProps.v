(** C51, C52, C62, C64-C66, C69, C70, C98: claims that fail, and exactly how. *)
From Coq Require Import List NArith ZArith Arith Bool Lia.
From Verif Require Import Base EdgeSpec.
From Verif Require EnumModel EnumSpec TextModel TextSpec SysModel SysSpec BinModel BinSpec ScalarSpec SerialModel.
From Verif Require EdgeProofs EdgeBinProofs EdgeYamlProofs.
Import ListNotations.

(** C51: with an unsigned 32-bit type each of two different iterators is before
    the other, and their difference is never negative. *)
Theorem enum_iterator_order_unsigned : forall a b,
  EnumSpec.of_type (EnumModel.mkity false 32) a -> EnumSpec.of_type (EnumModel.mkity false 32) b ->
  EnumModel.fa_minus (EnumModel.it_distance_to (EnumModel.mkity false 32)) a b =
    Ok (if (a <=? b)%Z then b - a else b - a + 2 ^ 32)%Z /\
  EnumModel.fa_lt (EnumModel.it_distance_to (EnumModel.mkity false 32)) a b = Ok (negb (a =? b)%Z).
Proof. exact EdgeProofs.unsigned32_order. Qed.
Print Assumptions enum_iterator_order_unsigned.

(** C51: with an unsigned 64-bit type the order is the wrong way round again. *)
Theorem enum_iterator_order_unsigned64 : forall a b,
  EnumSpec.of_type (EnumModel.mkity false 64) a -> EnumSpec.of_type (EnumModel.mkity false 64) b ->
  (- 2 ^ 63 < b - a < 2 ^ 63)%Z ->
  EnumModel.fa_minus (EnumModel.it_distance_to (EnumModel.mkity false 64)) a b = Ok (b - a)%Z /\
  EnumModel.fa_lt (EnumModel.it_distance_to (EnumModel.mkity false 64)) a b = Ok (b <? a)%Z.
Proof. exact EdgeProofs.unsigned64_order. Qed.
Print Assumptions enum_iterator_order_unsigned64.

(** C52: a closed range up to the largest value of its type is refused by the
    compiler if the type is as wide as [int], or if it is the whole type; in all
    other cases it compiles, has a huge count and nothing is in it. *)
Theorem closed_range_at_maximum_exactly : forall r, EnumSpec.int_type (EnumModel.rty r) ->
  EnumSpec.of_type (EnumModel.rty r) (EnumModel.rmin r) ->
  EnumModel.rmax r = EnumModel.ity_max (EnumModel.rty r) -> EnumModel.half_open r = false ->
  (EnumModel.compiles r = true <->
     EnumModel.ibits (EnumModel.rty r) < 32 /\ EnumModel.rmin r <> EnumModel.ity_min (EnumModel.rty r)) /\
  (EnumModel.compiles r = true ->
     EnumModel.count r = Some (2 ^ 64 - (EnumModel.rmin r - EnumModel.ity_min (EnumModel.rty r)))%Z) /\
  (forall e, EnumSpec.of_type (EnumModel.rty r) e -> EnumModel.in_range_e r e = false).
Proof. exact EdgeProofs.closed_at_maximum. Qed.
Print Assumptions closed_range_at_maximum_exactly.

(** C64: the assertion refuses empty ranges, and ranges whose length overflows a
    signed type; never a range for being reversed. *)
Theorem half_open_range_accepted_exactly : forall r, EnumSpec.int_type (EnumModel.rty r) ->
  EnumSpec.of_type (EnumModel.rty r) (EnumModel.rmin r) -> EnumSpec.of_type (EnumModel.rty r) (EnumModel.rmax r) ->
  EnumModel.half_open r = true ->
  (EnumModel.compiles r = true <->
     EnumModel.rmin r <> EnumModel.rmax r /\
     (EnumModel.isigned (EnumModel.promote (EnumModel.rty r)) = true ->
      EnumSpec.of_type (EnumModel.promote (EnumModel.rty r)) (EnumModel.rmax r - EnumModel.rmin r))).
Proof. exact EdgeProofs.half_open_compiles. Qed.
Print Assumptions half_open_range_accepted_exactly.

(** C62: a read that succeeds never asked for more elements than the buffer has
    bytes; one that fails asked for at most what a 32-bit size can say. *)
Theorem allocation_bounded_when_read : forall t old c c' v,
  BinSpec.wf_ty t -> solid t -> BinSpec.inside c -> BinSpec.has_ty t old -> BinModel.read_binary t old c = Ok (c', v) ->
  (BinModel.asked c' <= N.max (BinModel.asked c) 4294967295)%N /\
  (BinModel.err c' = false ->
     (BinModel.asked c' <= N.max (BinModel.asked c) (BinModel.size_bytes c))%N /\ (BinModel.pos c < BinModel.pos c')%N).
Proof. exact EdgeBinProofs.frugal_lemma. Qed.
Print Assumptions allocation_bounded_when_read.

(** C65: the terminator of a literal is one more character.  It stays on the last
    piece or becomes one; if it is a delimiter itself (the delimiters are a
    literal too) only an empty piece can be added. *)
Theorem split_literal_exactly : forall s ds ts, TextModel.split s ds false = Ok ts ->
  (~ In 0%N ds -> closed_off ds s -> TextModel.split (TextModel.literal s) ds false = Ok (ts ++ [[0%N]])) /\
  (~ In 0%N ds -> ~ closed_off ds s ->
     exists us u, ts = us ++ [u] /\ TextModel.split (TextModel.literal s) ds false = Ok (us ++ [u ++ [0%N]])) /\
  (In 0%N ds -> closed_off ds s -> TextModel.split (TextModel.literal s) ds false = Ok (ts ++ [[]])) /\
  (In 0%N ds -> ~ closed_off ds s -> TextModel.split (TextModel.literal s) ds false = Ok ts) /\
  (In 0%N ds -> TextModel.split (TextModel.literal s) ds true = TextModel.split s ds true).
Proof. exact EdgeProofs.split_literal_lemma. Qed.
Print Assumptions split_literal_exactly.

(** C65: delimiters given as a literal are those of the [std::string]. *)
Theorem split_literal_delimiters : forall s ds skip, ~ In 0%N s ->
  TextModel.split s (TextModel.literal ds) skip = TextModel.split s ds skip.
Proof. exact EdgeProofs.split_literal_delims. Qed.
Print Assumptions split_literal_delimiters.

(** C66: handed to one algorithm after the other, the outputs are joined each
    for itself and put one after the other without a delimiter. *)
Theorem outstream_joiner_reuse_exactly : forall (A : Type) (fmt : A -> TextModel.text) delim (xss : list (list A)) os,
  fold_left (fun os xs => fst (TextModel.copy_to fmt os (TextModel.make_joiner delim) xs)) xss os =
    os ++ concat (map (fun xs => TextSpec.intercalate delim (map fmt xs)) xss).
Proof. exact @EdgeProofs.joiner_each. Qed.
Print Assumptions outstream_joiner_reuse_exactly.

(** C69: [n] copies of one view unmap the same mapping [n] times. *)
Theorem file_view_copies_exactly : forall p v n, fst (SysModel.file_view p) = Some v ->
  (forall fd size, In (SysModel.Mmap fd size) (snd (SysModel.file_view p)) ->
     concat (map SysModel.destroy (repeat (SysModel.copy_view v) n)) =
       repeat (SysModel.Munmap (SysModel.mmap_answer p) size) n) /\
  ((forall fd size, ~ In (SysModel.Mmap fd size) (snd (SysModel.file_view p))) ->
     concat (map SysModel.destroy (repeat (SysModel.copy_view v) n)) = []).
Proof. exact (fun p v n H => conj (fun fd size => EdgeProofs.copies_unmap p v n fd size H) (EdgeProofs.copies_empty p v n H)). Qed.
Print Assumptions file_view_copies_exactly.

(** C70: which answers make the constructor throw. *)
Theorem file_view_throws_exactly : forall p, fst (SysModel.file_view p) = None <->
  SysModel.open_answer p = None \/ SysModel.fstat_answer p = None \/
  (exists n, SysModel.fstat_answer p = Some n /\ n <> 0%N) /\ SysModel.mmap_answer p = 0%N.
Proof. exact EdgeProofs.posix_throws. Qed.
Print Assumptions file_view_throws_exactly.

Theorem file_view_windows_throws_exactly : forall p, fst (SysModel.file_view_win p) = None <->
  (SysModel.create_answer p = None /\ SysModel.create2_answer p = None) \/
  ((SysModel.create_answer p <> None \/ SysModel.create2_answer p <> None) /\
   (exists n, SysModel.size_answer p = Some n /\ n <> 0%N) /\
   (SysModel.mapping_answer p = None \/ SysModel.view_answer p = 0%N)).
Proof. exact EdgeProofs.windows_throws. Qed.
Print Assumptions file_view_windows_throws_exactly.

(** C98: digits without a leading zero are that decimal number; with one they
    are an octal number, or refused if there is an 8 or a 9. *)
Theorem yaml_digits_exactly : forall ft t s n out, EnumSpec.int_type t -> ScalarSpec.numeral 10 s n ->
  ((forall s', s = 48%N :: s' -> s' = []) -> EnumSpec.of_type t (Z.of_N n) ->
     SerialModel.deser (SerialModel.Yaml ft) (SerialModel.TInt t) (SerialModel.JStr s) out = (SerialModel.VInt (Z.of_N n), None)) /\
  (forall s' m, s = 48%N :: s' -> ScalarSpec.numeral 8 s m -> EnumSpec.of_type t (Z.of_N m) ->
     SerialModel.deser (SerialModel.Yaml ft) (SerialModel.TInt t) (SerialModel.JStr s) out = (SerialModel.VInt (Z.of_N m), None)) /\
  (forall s', s = 48%N :: s' -> (forall m, ~ ScalarSpec.numeral 8 s m) ->
     SerialModel.deser (SerialModel.Yaml ft) (SerialModel.TInt t) (SerialModel.JStr s) out = (out, Some SerialModel.EDeser)).
Proof. exact EdgeYamlProofs.yaml_digits. Qed.
Print Assumptions yaml_digits_exactly.

(* ------------------------------------------------------------------ *)
(** ** Examples *)

Example ex_whole_type : EnumModel.compiles (EnumModel.mkerange (EnumModel.mkity false 8) 0 255 false) = false.
Proof. vm_compute. reflexivity. Qed.
Example ex_reversed : EnumModel.count (EnumModel.mkerange (EnumModel.mkity true 8) 7 3 true) = Some 18446744073709551612%Z.
Proof. vm_compute. reflexivity. Qed.
Example ex_overflow : EnumModel.compiles (EnumModel.mkerange (EnumModel.mkity true 32) (-2) 2147483647 true) = false.
Proof. vm_compute. reflexivity. Qed.
Example ex_literal :
  TextModel.split (TextModel.literal [65; 32]%N) [32]%N false = Ok [[65]; [0]]%N /\
  TextModel.split (TextModel.literal [65; 32; 66]%N) [32]%N false = Ok [[65]; [66; 0]]%N /\
  TextModel.split (TextModel.literal [65; 32; 66]%N) (TextModel.literal [32]%N) false = Ok [[65]; [66]]%N.
Proof. vm_compute. auto. Qed.
Example ex_reuse : fold_left (fun os xs => fst (TextModel.copy_to (fun x => [x]) os (TextModel.make_joiner [44]%N) xs))
  [[65; 66]; []; [67]]%N [] = [65; 44; 66; 67]%N.
Proof. vm_compute. reflexivity. Qed.
Example ex_solid : solid (BinModel.TVar [BinModel.TStr; BinModel.TVec (BinModel.TRaw true 8)]).
Proof. cbn. lia. Qed.
Example ex_asked : exists c' v, BinModel.read_binary (BinModel.TVec BinModel.TStr) (BinModel.VSeq [])
    (BinModel.open_buffer [2; 0; 0; 0; 0; 0; 0; 0; 0; 0; 0; 0]%N) = Ok (c', v) /\
  BinModel.err c' = false /\ BinModel.asked c' = 2%N.
Proof. eexists _, _. split; [vm_compute; reflexivity|]. auto. Qed.
