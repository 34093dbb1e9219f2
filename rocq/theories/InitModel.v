(** [T json::deserialize<T>(value)] and its kin: json.hpp:880-899, yaml.hpp:688-707, serialization.hpp:212-223.  The object
    read into is [T out;], default-initialized, where all others that the library makes are [T out{}].

    [mi] says of a field whether the member has an initializer of its own; [g] are the contents of the storage, by the place
    of the scalar.  Constructors that the user provides are not modelled. *)
From Coq Require Import List ZArith NArith Arith Bool.
From Verif Require Import Base PathModel EnumModel SerialModel.
Import ListNotations.

(** [T out;].  Arithmetic types and enums are left as the storage is, arrays and structures member by member;
    [std::string], [std::optional], containers and [enum_set] (enum_set.hpp:17) have constructors, those of [std::tuple] and
    [std::pair] value-initialize what they hold. *)
Fixpoint fresh (mi : attrs -> bool) (g : list nat -> ty -> val) (p : list nat) (t : ty) {struct t} : val :=
  match t with
  | TBool | TInt _ | TDouble | TFloat | TEnum _ => g p t
  | TStr | TOpt _ | TSeq _ | TMap _ | TSet _ | TTup _ => default_of t
  | TArr n t' => VSeq (map (fun i => fresh mi g (p ++ [i]) t') (seq 0 n))
  | TRec fs =>
      VRec ((fix go (fs : list (attrs * ty)) (i : nat) : list val :=
               match fs with
               | [] => []
               | (a, t') :: fs' => (if mi a then a_init a else fresh mi g (p ++ [i]) t') :: go fs' (S i)
               end) fs 0)
  end.

Definition deserialize_new (be : backend) (mi : attrs -> bool) (g : list nat -> ty -> val) (t : ty) (j : json) : outcome val :=
  match deser be t j (fresh mi g [] t) with
  | (v, None) => Ok v
  | (_, Some _) => Throws
  end.
