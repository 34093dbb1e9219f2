(** kl/serialization.hpp: which function reads or writes a value when the user customizes a type, by
    [serializer<T>] or by overloads found by argument dependent lookup; kl/json.hpp:774-814, kl/yaml.hpp:579-633
    [backend_traits].

    Choosing a function happens at compile time: a resolved function is [Some f], and [None] stands for a program that
    does not compile (one of the [static_assert]s, lines 61, 84, 107, 130, 144). *)
From Coq Require Import List NArith ZArith Arith Bool.
From Verif Require Import Base PathModel ScalarModel SerialModel.
Import ListNotations.
Local Open Scope outcome_scope.

Local Notation str := (list N) (only parsing).

(** Types: the described types of SerialModel, those built from customized ones, and the customized ones.  [CRec] is a
    reflected struct whose fields have no attributes.  [CUser k own] is the type with the customizations [hooks k];
    [own] is what the library makes of it by itself: a struct when it is reflected, a sequence when it is a
    range and so on, [None] when the library has no overload for it. *)
Inductive cty :=
| CBase (t : ty)
| COpt (t : cty)
| CSeq (t : cty)
| CMap (t : cty)
| CTup (ts : list cty)
| CRec (fs : list (str * cty))
| CUser (k : nat) (own : option cty).

(** An overload of the user, and whether its first parameter is a template parameter
    ("template the tag", serialization.hpp:37-45) or the tag of the backend. *)
Record offer (A : Type) := mkoffer { templated : bool; code : A }.
Arguments mkoffer {A}. Arguments templated {A}. Arguments code {A}.

(** The customizations of a type.  Its values are any [val]; [VNone] would be one that [optional_traits] calls null. *)
Record hooks := mkhooks {
  u_init : val;                                           (* T{} *)
  z_dump : option (val -> written);                       (* serializer<T>::dump *)
  z_ser : option (val -> outcome json);
  z_deser : option (json -> val -> dres);
  z_patch : option (json -> val -> dres);
  adl_dump : option (offer (val -> written));             (* dump_adl *)
  adl_ser : option (offer (val -> outcome json));
  adl_deser : option (offer (json -> val -> dres));
  adl_patch : option (offer (json -> val -> dres));
  u_stream : option (val -> written)                      (* operator<<(YAML::Emitter&, T) *)
}.

(** Overload resolution between the overload of the user and the one of the library, which takes any [T]
    and exactly the tag of the backend.  With the tag the overload of the user is more specialized; with a template
    parameter for it neither is, the call is ambiguous and the expression is not valid.  [None]: no valid
    call; [Some None]: the function of the library, whose body does not compile. *)
Definition overload {A} (user : option (offer A)) (library : option (option A)) : option (option A) :=
  match user, library with
  | None, _ => library
  | Some o, None => Some (Some (code o))
  | Some o, Some _ => if templated o then None else Some (Some (code o))
  end.

(** [priority_tag]: the first candidate with a valid expression; none is a [static_assert]. *)
Definition prefer {A} (first : option A) (second : option (option A)) : option A :=
  match first with
  | Some f => Some f
  | None => match second with Some r => r | None => None end
  end.

Fixpoint all_some {A} (l : list (option A)) : option (list A) :=
  match l with
  | [] => Some []
  | None :: _ => None
  | Some x :: l' => match all_some l' with Some xs => Some (x :: xs) | None => None end
  end.

Definition over {A B} (f : A -> B) (o : option A) : option B := match o with Some x => Some (f x) | None => None end.

(* ------------------------------------------------------------------ *)
(** ** The functions of the library, over those of the components *)

(** detail/serialization.hpp:782-793, 569-612 *)
Fixpoint each_ser (fs : list (val -> outcome json)) (vs : list val) : outcome (list json) :=
  match fs, vs with
  | [], [] => Ok []
  | f :: fs', v :: vs' => j <- f v ;; js <- each_ser fs' vs' ;; Ok (j :: js)
  | _, _ => UB
  end.

Fixpoint fields_ser (skip : bool) (ns : list str) (fs : list (val -> outcome json)) (vs : list val) : outcome (list (str * json)) :=
  match ns, fs, vs with
  | [], [], [] => Ok []
  | n :: ns', f :: fs', v :: vs' =>
      if skip_null_value skip v then fields_ser skip ns' fs' vs'
      else j <- f v ;; ms <- fields_ser skip ns' fs' vs' ;; Ok ((n, j) :: ms)
  | _, _, _ => UB
  end.

(** 682-690, 529-567 *)
Fixpoint each_dump (fs : list (val -> written)) (vs : list val) : written :=
  match fs, vs with
  | [], [] => wnil
  | f :: fs', v :: vs' => wseq (f v) (each_dump fs' vs')
  | _, _ => wfail UB
  end.

Fixpoint fields_dump (skip : bool) (ns : list str) (fs : list (val -> written)) (vs : list val) : written :=
  match ns, fs, vs with
  | [], [], [] => wnil
  | n :: ns', f :: fs', v :: vs' =>
      wseq (if skip_null_value skip v then wnil else wseq (wev (EvKey n)) (f v)) (fields_dump skip ns' fs' vs')
  | _, _, _ => wfail UB
  end.

(** 1081-1086 and 996-1025: elements from index [i]. *)
Fixpoint each_deser (js : list json) (fs : list (json -> val -> dres)) (i : nat) (vs : list val) : list val * option exn :=
  match fs, vs with
  | [], [] => ([], None)
  | f :: fs', v :: vs' =>
      match f (at_index js i) v with
      | (v', None) => let '(r, e) := each_deser js fs' (S i) vs' in (v' :: r, e)
      | (v', Some e) => (v' :: vs', Some e)
      end
  | _, _ => (vs, Some EStuck)
  end.

(** 915-986: members; a missing one is read as null. *)
Fixpoint fields_deser (ms : list (str * json)) (ns : list str) (fs : list (json -> val -> dres)) (vs : list val) : list val * option exn :=
  match ns, fs, vs with
  | [], [], [] => ([], None)
  | n :: ns', f :: fs', v :: vs' =>
      match f (at_field ms n) v with
      | (v', None) => let '(r, e) := fields_deser ms ns' fs' vs' in (v' :: r, e)
      | (v', Some e) => (v' :: vs', Some e)
      end
  | _, _, _ => (vs, Some EStuck)
  end.

(** 1140-1215: a missing member is left alone. *)
Fixpoint fields_patch (ms : list (str * json)) (ns : list str) (fs : list (json -> val -> dres)) (vs : list val) : list val * option exn :=
  match ns, fs, vs with
  | [], [], [] => ([], None)
  | n :: ns', f :: fs', v :: vs' =>
      match (if has_field ms n then f (at_field ms n) v else (v, None)) with
      | (v', None) => let '(r, e) := fields_patch ms ns' fs' vs' in (v' :: r, e)
      | (v', Some e) => (v' :: vs', Some e)
      end
  | _, _, _ => (vs, Some EStuck)
  end.

Definition opt_ser (f : val -> outcome json) (v : val) : outcome json :=
  match v with VNone => Ok JNull | VSome x => f x | _ => UB end.
Definition opt_dump (f : val -> written) (v : val) : written :=
  match v with VNone => wev EvNull | VSome x => f x | _ => wfail UB end.
Definition opt_deser (d : val) (f : json -> val -> dres) (j : json) (out : val) : dres :=
  if is_null j then (VNone, None)
  else match f j d with (v, None) => (VSome v, None) | (_, Some e) => (out, Some e) end.
Definition opt_patch (d : val) (f : json -> val -> dres) (j : json) (out : val) : dres :=
  if is_null j then (VNone, None)
  else match out with
       | VSome v => let '(v', e) := f j v in (VSome v', e)
       | VNone => match f j d with (v, None) => (VSome v, None) | (_, Some e) => (out, Some e) end
       | _ => (out, Some EStuck)
       end.

Definition seq_ser (f : val -> outcome json) (v : val) : outcome json :=
  match v with VSeq vs => omap JArr (mapm f vs) | _ => UB end.
Definition seq_dump (f : val -> written) (v : val) : written :=
  match v with VSeq vs => wseq (wev EvStartArr) (wseq (wall f vs) (wev EvEndArr)) | _ => wfail UB end.
Definition seq_deser (d : val) (f : json -> val -> dres) (j : json) (out : val) : dres :=
  match j with
  | JArr js => let '(vs, e) := seq_loop f d js [] in (VSeq vs, e)
  | _ => (out, Some EDeser)
  end.

Definition map_ser (skip : bool) (f : val -> outcome json) (v : val) : outcome json :=
  match v with VMap kvs => omap JObj (map_members skip f kvs) | _ => UB end.
Definition map_dump (skip : bool) (f : val -> written) (v : val) : written :=
  match v with
  | VMap kvs =>
      wseq (wev EvStartObj)
        (wseq (wall (fun kv => if skip_null_value skip (snd kv) then wnil
                               else wseq (wev (EvKey (fst kv))) (f (snd kv))) kvs)
              (wev EvEndObj))
  | _ => wfail UB
  end.
Definition map_deser (d : val) (f : json -> val -> dres) (j : json) (out : val) : dres :=
  match j with
  | JObj ms => let '(m, e) := map_loop f d ms [] in (VMap m, e)
  | _ => (out, Some EDeser)
  end.

Definition tup_ser (fs : list (val -> outcome json)) (v : val) : outcome json :=
  match v with VSeq vs => omap JArr (each_ser fs vs) | _ => UB end.
Definition tup_dump (fs : list (val -> written)) (v : val) : written :=
  match v with VSeq vs => wseq (wev EvStartArr) (wseq (each_dump fs vs) (wev EvEndArr)) | _ => wfail UB end.
Definition tup_deser (fs : list (json -> val -> dres)) (j : json) (out : val) : dres :=
  match j, out with
  | JArr js, VSeq vs =>
      if length fs <? length js then (out, Some EDeser)
      else let '(r, e) := each_deser js fs 0 vs in (VSeq r, e)
  | JArr _, _ => (out, Some EStuck)
  | _, _ => (out, Some EDeser)
  end.

Definition rec_ser (skip : bool) (ns : list str) (fs : list (val -> outcome json)) (v : val) : outcome json :=
  match v with VRec vs => omap JObj (fields_ser skip ns fs vs) | _ => UB end.
Definition rec_dump (skip : bool) (ns : list str) (fs : list (val -> written)) (v : val) : written :=
  match v with VRec vs => wseq (wev EvStartObj) (wseq (fields_dump skip ns fs vs) (wev EvEndObj)) | _ => wfail UB end.
Definition rec_deser (ns : list str) (fs : list (json -> val -> dres)) (j : json) (out : val) : dres :=
  match j, out with
  | JObj ms, VRec vs => let '(r, e) := fields_deser ms ns fs vs in (VRec r, e)
  | JArr js, VRec vs =>
      if length fs <? length js then (out, Some EDeser)
      else let '(r, e) := each_deser js fs 0 vs in (VRec r, e)
  | JObj _, _ | JArr _, _ => (out, Some EStuck)
  | _, _ => (out, Some EDeser)
  end.
(** 1133-1137: a document that is not a map is read by [whole], the resolved [deserialize] of the struct. *)
Definition rec_patch (whole : json -> val -> dres) (ns : list str) (fs : list (json -> val -> dres)) (j : json) (out : val) : dres :=
  match j, out with
  | JObj ms, VRec vs => let '(r, e) := fields_patch ms ns fs vs in (VRec r, e)
  | JObj _, _ => (out, Some EStuck)
  | _, _ => whole j out
  end.

(* ------------------------------------------------------------------ *)
(** ** Resolution *)

Section resolve.
Context (be : backend) (skip : bool) (table : nat -> hooks).

Fixpoint c_default (t : cty) : val :=
  match t with
  | CBase t => default_of t
  | COpt _ => VNone
  | CSeq _ => VSeq []
  | CMap _ => VMap []
  | CTup ts => VSeq (map c_default ts)
  | CRec fs => VRec (map (fun f => c_default (snd f)) fs)
  | CUser k _ => u_init (table k)
  end.

(** serialization.hpp:80-101 [serialize] *)
Fixpoint r_ser (t : cty) : option (val -> outcome json) :=
  match t with
  | CBase t => Some (serialize be skip t)
  | COpt t => over opt_ser (r_ser t)
  | CSeq t => over seq_ser (r_ser t)
  | CMap t => over (map_ser skip) (r_ser t)
  | CTup ts => over tup_ser (all_some (map r_ser ts))
  | CRec fs => over (rec_ser skip (map fst fs)) (all_some (map (fun f => r_ser (snd f)) fs))
  | CUser k own =>
      let h := table k in
      prefer (z_ser h) (overload (adl_ser h) (match own with Some t => Some (r_ser t) | None => None end))
  end.

(** serialization.hpp:58-78 [dump]; yaml.hpp:579-604 tries [operator<<] when there is no valid call of [dump_adl]. *)
Fixpoint r_dump (t : cty) : option (val -> written) :=
  match t with
  | CBase t => Some (dump be skip t)
  | COpt t => over opt_dump (r_dump t)
  | CSeq t => over seq_dump (r_dump t)
  | CMap t => over (map_dump skip) (r_dump t)
  | CTup ts => over tup_dump (all_some (map r_dump ts))
  | CRec fs => over (rec_dump skip (map fst fs)) (all_some (map (fun f => r_dump (snd f)) fs))
  | CUser k own =>
      let h := table k in
      prefer (z_dump h)
        (match overload (adl_dump h) (match own with Some t => Some (r_dump t) | None => None end), be with
         | None, Yaml _ => over Some (u_stream h)
         | r, _ => r
         end)
  end.

(** serialization.hpp:103-124 [deserialize] *)
Fixpoint r_deser (t : cty) : option (json -> val -> dres) :=
  match t with
  | CBase t => Some (deser be t)
  | COpt t => over (opt_deser (c_default t)) (r_deser t)
  | CSeq t => over (seq_deser (c_default t)) (r_deser t)
  | CMap t => over (map_deser (c_default t)) (r_deser t)
  | CTup ts => over tup_deser (all_some (map r_deser ts))
  | CRec fs => over (rec_deser (map fst fs)) (all_some (map (fun f => r_deser (snd f)) fs))
  | CUser k own =>
      let h := table k in
      prefer (z_deser h) (overload (adl_deser h) (match own with Some t => Some (r_deser t) | None => None end))
  end.

(** detail/serialization.hpp:26-63 [is_serializer_patch_compatible_v] *)
Definition patch_compatible (h : hooks) : bool :=
  match z_deser h, z_patch h with Some _, None => false | _, _ => true end.

(** The same of a struct with attributes: only a map is patched. *)
Definition base_patch (t : ty) (whole : json -> val -> dres) (j : json) (out : val) : dres :=
  match j with JObj _ => patch be t j out | _ => whole j out end.

(** serialization.hpp:126-157 [patch].  The library has [patch_adl] for structs and optionals only
    (detail/serialization.hpp:1120-1242). *)
Fixpoint r_patch (t : cty) : option (json -> val -> dres) :=
  match t with
  | CBase t => Some (patch be t)
  | COpt t => over (opt_patch (c_default t)) (r_patch t)
  | CRec fs =>
      match r_deser (CRec fs) with
      | Some whole => over (rec_patch whole (map fst fs)) (all_some (map (fun f => r_patch (snd f)) fs))
      | None => None
      end
  | CUser k own =>
      let h := table k in
      let library :=
        match own with
        | Some (COpt t) => Some (over (opt_patch (c_default t)) (r_patch t))
        | Some (CRec fs) =>
            Some (match r_deser (CUser k own) with
                  | Some whole => over (rec_patch whole (map fst fs)) (all_some (map (fun f => r_patch (snd f)) fs))
                  | None => None
                  end)
        | Some (CBase (TOpt _ as t)) => Some (Some (patch be t))
        | Some (CBase (TRec _ as t)) => Some (over (base_patch t) (r_deser (CUser k own)))
        | _ => None
        end in
      match z_patch h with
      | Some f => Some f
      | None =>
          if patch_compatible h then
            match overload (adl_patch h) library with
            | Some r => r
            | None => r_deser (CUser k own)
            end
          else None
      end
  | _ => r_deser t
  end.
End resolve.
