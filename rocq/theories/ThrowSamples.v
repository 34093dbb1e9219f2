(** Exceptions for the examples. *)
From Coq Require Import List Bool.
From Verif Require Import ThrowModel ThrowSpec ThrowProofs.
Import ListNotations.

Definition usual : traits := mktraits false false true.
Definition abstract_like : traits := mktraits false true true.
Definition pub : kind := mkkind true false.
Definition priv : kind := mkkind false false.
Definition virt : kind := mkkind true true.

Definition std_class : cls := Cls Std abstract_like [].
(** [struct runtime : std::exception] *)
Definition runtime : cls := Cls (User 0) usual [(pub, std_class)].
(** [struct io_error : runtime] *)
Definition io_error : cls := Cls (User 1) usual [(pub, runtime)].
(** [struct code { int value = 0; virtual ~code(); }] *)
Definition code : cls := Cls (User 2) abstract_like [].
(** [struct coded : runtime, virtual code] *)
Definition coded : cls := Cls (User 3) usual [(pub, runtime); (virt, code)].
(** [class job_error : public runtime, code] *)
Definition job_error : cls := Cls (User 4) usual [(pub, runtime); (priv, code)].
(** [struct both : io_error, other], [struct other : std::exception]: two of [std::exception] *)
Definition other : cls := Cls (User 5) usual [(pub, std_class)].
Definition both : cls := Cls (User 6) usual [(pub, io_error); (pub, other)].
(** A diamond: [struct left : virtual code], [struct right : virtual code], [struct diamond : left, right] *)
Definition left_ : cls := Cls (User 7) usual [(virt, code)].
Definition right_ : cls := Cls (User 8) usual [(mkkind false true, code)].
Definition diamond : cls := Cls (User 9) usual [(pub, left_); (pub, right_)].
(** A class without virtual functions. *)
Definition bare : cls := Cls (User 10) usual [].

(** An object with a number in every part, the length of its path; virtual bases have 7. *)
Definition numbers (p : place) : datum nat nat :=
  match p_root p with Some _ => Own 7 | None => Own (length (p_path p)) end.
Definition zeros (p : place) : datum nat nat := Own 0.
Definition object (c : cls) : obj nat nat := mkobj c numbers.
Definition itself (c : cls) : reference nat nat := mkref (object c) whole c.
(** What [throw_with_info] throws, the information being [x]. *)
Definition thrown (c : cls) (x : nat) : obj nat nat := mkobj (with_class c) (with_data zeros (itself c) x).

Ltac each_part :=
  let p := fresh in let u := fresh in let d := fresh in let K := fresh "K" in
  intros p u d K; apply in_all' in K; vm_compute in K;
  repeat match type of K with _ \/ _ => destruct K as [K|K] | False => destruct K end; injection K as <- <- <-.
