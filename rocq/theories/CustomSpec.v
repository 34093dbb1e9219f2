(** What customizations have to respect, and the types without them. *)
From Coq Require Import List NArith ZArith Bool.
From Verif Require Import Base PathModel SerialModel SerialSpec SerialSamples CustomModel.
Import ListNotations.

Local Notation str := (list N) (only parsing).

(** The same type in SerialModel, when nothing in it is customized. *)
Fixpoint plain_type (t : cty) : Prop :=
  match t with
  | CBase _ => True
  | COpt t | CSeq t | CMap t => plain_type t
  | CTup ts => all1 plain_type ts
  | CRec fs => all1 (fun f => plain_type (snd f)) fs
  | CUser _ _ => False
  end.

Fixpoint described (t : cty) : ty :=
  match t with
  | CBase t => t
  | COpt t => TOpt (described t)
  | CSeq t => TSeq (described t)
  | CMap t => TMap (described t)
  | CTup ts => TTup (map described ts)
  | CRec fs => TRec (map (fun f => (plain (fst f) (default_of (described (snd f))), described (snd f))) fs)
  | CUser _ _ => TBool
  end.

(** Writing in two ways gives the same document or the same failure. *)
Definition same_output (s : val -> outcome json) (d : val -> written) : Prop :=
  forall v, match s v with
            | Ok j => d v = (accept j, Ok tt)
            | Throws => snd (d v) = Throws
            | UB => snd (d v) = UB
            end.

(** Reading, into [w], what was written for [v]. *)
Definition reads_back (s : val -> outcome json) (d : json -> val -> dres) (v w : val) : Prop :=
  forall j, s v = Ok j -> d j w = (v, None).

(** Types that read a missing member as nothing. *)
Definition may_be_absent (t : cty) : Prop := match t with COpt _ | CBase (TOpt _) => True | _ => False end.

(** Customizations that come in pairs: both by [serializer], both by overloads, or none; and each pair agrees. *)
Section pairs.
Context (be : backend) (skip : bool) (table : nat -> hooks).

Fixpoint dumps_in_pairs (t : cty) : Prop :=
  match t with
  | CBase _ => True
  | COpt t | CSeq t | CMap t => dumps_in_pairs t
  | CTup ts => all1 dumps_in_pairs ts
  | CRec fs => all1 (fun f => dumps_in_pairs (snd f)) fs
  | CUser k own =>
      match z_ser (table k), z_dump (table k) with
      | Some s, Some d => same_output s d
      | None, None =>
          match adl_ser (table k), adl_dump (table k) with
          | Some s, Some d => templated s = templated d /\ same_output (code s) (code d)
          | None, None => match own with Some t => dumps_in_pairs t | None => True end
          | _, _ => False
          end
      | _, _ => False
      end
  end.

(** The conditions under which [v] is read back into [w]: those of C30 for described types, pairs that are
    inverse to each other for customized ones. *)
Fixpoint kept (t : cty) (v w : val) : Prop :=
  match t with
  | CBase t => wf t /\ typed t v /\ rt be skip t v w
  | COpt t =>
      match v with
      | VNone => True
      | VSome x => (forall f, r_ser be skip table t = Some f -> f x <> Ok JNull) /\ kept t x (c_default table t)
      | _ => False
      end
  | CSeq t => match v with VSeq vs => all1 (fun x => kept t x (c_default table t)) vs | _ => False end
  | CMap t =>
      match v with
      | VMap kvs => sorted_keys kvs /\ all1 (fun kv => skip_null_value skip (snd kv) = false /\ kept t (snd kv) (c_default table t)) kvs
      | _ => False
      end
  | CTup ts => match v, w with VSeq vs, VSeq ws => all3 kept ts vs ws | _, _ => False end
  | CRec fs =>
      match v, w with
      | VRec vs, VRec ws =>
          NoDup (map fst fs) /\
          all3 (fun f v w => kept (snd f) v w /\ (skip_null_value skip v = true -> may_be_absent (snd f))) fs vs ws
      | _, _ => False
      end
  | CUser k own =>
      match z_ser (table k), z_deser (table k) with
      | Some s, Some d => reads_back s d v w
      | None, None =>
          match adl_ser (table k), adl_deser (table k) with
          | Some s, Some d => reads_back (code s) (code d) v w
          | None, None => match own with Some t => kept t v w | None => True end
          | _, _ => False
          end
      | _, _ => False
      end
  end.
End pairs.

(** Patching a value of the type patches a value of the customized type [k]. *)
Inductive patched_in (table : nat -> hooks) : cty -> nat -> Prop :=
| patched_here k own : patched_in table (CUser k own) k
| patched_opt t k : patched_in table t k -> patched_in table (COpt t) k
| patched_field n t fs k : In (n, t) fs -> patched_in table t k -> patched_in table (CRec fs) k
| patched_own_opt k' t k : z_patch (table k') = None -> adl_patch (table k') = None ->
    patched_in table t k -> patched_in table (CUser k' (Some (COpt t))) k
| patched_own_field k' n t fs k : z_patch (table k') = None -> adl_patch (table k') = None ->
    In (n, t) fs -> patched_in table t k -> patched_in table (CUser k' (Some (CRec fs))) k.
