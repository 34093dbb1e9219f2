(** Structures for CastProps. *)
From Coq Require Import List NArith ZArith Arith Bool.
From Verif Require Import Base BinModel CastModel CastSpec.
Import ListNotations.
Local Open Scope Z_scope.

Definition u8 : lay := LNum false 1 0.
Definition u16 : lay := LNum false 2 1.
Definition u32 : lay := LNum false 4 2.
Definition i32 : lay := LNum true 4 2.
Definition u64 : lay := LNum false 8 3.

(** struct header { std::uint8_t kind; std::uint32_t size; bool last; }; *)
Definition header : lay := LStruct [u8; u32; LBool].
Definition header_value : cv := CSeq [CNum 7; CNum 258; CBool true].

(** struct entry { header h; std::uint16_t id; }; *)
Definition entry : lay := LStruct [header; u16].

(** struct small { std::uint16_t a; std::uint8_t b; }; as large as a 32-bit number *)
Definition small : lay := LStruct [u16; u8].

(** struct halves { std::uint16_t low, high; }; *)
Definition halves : lay := LStruct [u16; u16].
