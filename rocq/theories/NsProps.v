(** Properties of the lookup of operators on enums (C143, C144). *)
From Coq Require Import List Arith Bool Lia.
From Verif Require Import Base NsModel NsSpec NsSamples NsProofs NsCallProofs NsAllProofs NsOwnProofs.
Import ListNotations.

(** ** C143: operators are found where traits enable them *)

(** Unqualified lookup finds the functions of the innermost namespace that has any. *)
Theorem lookup_innermost : forall P p t f, In f (unqualified P p t) <-> seen P p t f.
Proof. exact unqualified_seen. Qed.
Print Assumptions lookup_innermost.

(** Which operator is called, in every program and at every place. *)
Theorem enum_operator_called : forall P p o e x,
  proper P p -> alone P (operands o e x) -> number x -> settled o e x ->
  (resolve P p o (operands o e x) = Chosen (Global o) <-> by_traits P p o e /\ ~ by_name P p o e) /\
  (resolve P p o (operands o e x) = Chosen (Inner o) <-> ~ by_traits P p o e /\ by_name P p o e) /\
  (resolve P p o (operands o e x) = Ambiguous <-> by_traits P p o e /\ by_name P p o e) /\
  (resolve P p o (operands o e x) = Language <->
     ~ by_traits P p o e /\ ~ by_name P p o e /\ computes o /\ e_scoped e = false) /\
  (resolve P p o (operands o e x) = Missing <->
     ~ by_traits P p o e /\ ~ by_name P p o e /\ ~ (computes o /\ e_scoped e = false)).
Proof. exact operator_called. Qed.
Print Assumptions enum_operator_called.

(** The operator that the traits enable is found exactly where no namespace around the place has a function of that
    name, or when the enum is in the global namespace. *)
Theorem enabled_operator_found_unless_hidden : forall P p o e x,
  proper P p -> alone P (operands o e x) -> number x -> settled o e x ->
  includes P enum_traits_hpp (p_at p) ->
  (forall d, In d (decls P) -> d_func d = Global o -> d_ns d = []) ->
  (forall g, ~ In (token o, g) (p_decls p)) ->
  enabled P e o -> ~ by_name P p o e ->
  (resolve P p o (operands o e x) = Chosen (Global o) <-> e_ns e = [] \/ ~ hidden P p (token o)).
Proof. exact found_unless_hidden. Qed.
Print Assumptions enabled_operator_found_unless_hidden.

(** Found everywhere: false. *)
Theorem enabled_operator_found_everywhere_refuted :
  ~ (forall P p o e x, proper P p -> alone P (operands o e x) -> number x -> settled o e x ->
       includes P enum_traits_hpp (p_at p) -> enabled P e o -> directives P = [] -> p_decls p = [] -> p_directives p = [] ->
       resolve P p o (operands o e x) = Chosen (Global o)).
Proof.
  intros H. specialize (H plain (at_ ns_kl) Shl flags Int). assert (resolve plain (at_ ns_kl) Shl (operands Shl flags Int) = Missing) as E
    by (vm_compute; reflexivity). rewrite E in H. assert (Missing = Chosen (Global Shl)) as X; [|discriminate].
  apply H; try reflexivity.
  - split; [|split; [intros t f []|apply le_n]]. intros d Hd. repeat (destruct Hd as [<-|Hd]; [reflexivity|]). destruct Hd.
  - intros n. reflexivity.
  - intros n Hn. discriminate.
  - exists 1. split; [cbn; lia|]. intros d Hd. apply in_or_app. left. exact Hd.
Qed.
Print Assumptions enabled_operator_found_everywhere_refuted.

(** In [kl], and in all namespaces inside it, binary_rw.hpp hides both shifts. *)
Theorem shifts_hidden_in_kl : forall P p o e x, (o = Shl \/ o = Shr) ->
  proper P p -> alone P (operands o e x) -> number x -> settled o e x ->
  includes P binary_rw_hpp (p_at p) ->
  (forall d, In d (decls P) -> d_func d = Global o -> d_ns d = []) ->
  (forall g, ~ In (token o, g) (p_decls p)) ->
  inside (p_ns p) ns_kl -> e_ns e <> [] -> ~ by_name P p o e ->
  resolve P p o (operands o e x) = if e_scoped e then Missing else Language.
Proof. exact hidden_in_kl. Qed.
Print Assumptions shifts_hidden_in_kl.

(** With a using-declaration in the namespace of the enum, the operator is found everywhere. *)
Theorem using_declaration_suffices : forall P p o e x,
  proper P p -> alone P (operands o e x) -> number x -> settled o e x ->
  declares P (e_ns e) (token o) (Global o) (p_known p) -> enabled P e o -> ~ by_name P p o e ->
  resolve P p o (operands o e x) = Chosen (Global o).
Proof. exact using_declaration_beside. Qed.
Print Assumptions using_declaration_suffices.

(** A function of the program's own for exactly these operands is called, whatever the traits and directives say. *)
Theorem own_operator_called : forall P p o e x n,
  number x -> reached P p (token o) e (Other n) -> other P n = operands o e x ->
  (forall m, m <> n -> ranks (operands o e x) (other P m) = None) ->
  resolve P p o (operands o e x) = Chosen (Other n).
Proof. exact own_called. Qed.
Print Assumptions own_operator_called.

Example own_or_called :
  (resolve own_or (at_ app) Or (operands Or flags Int), resolve own_or (with_directive app) Or (operands Or flags Int),
   resolve own_or (at_ [12]) Or (operands Or flags Int), resolve own_or (at_ app) And (operands And flags Int)) =
  (Chosen (Other 0), Chosen (Other 0), Chosen (Other 0), Chosen (Global And)).
Proof. vm_compute. reflexivity. Qed.
Example found_in_app :
  map (fun o => resolve plain (at_ app_part) o (operands o flags Int)) all_ops = map (fun o => Chosen (Global o)) all_ops.
Proof. vm_compute. reflexivity. Qed.
Example not_found_without_traits : resolve plain (at_ app) Or (operands Or bare Int) = Missing.
Proof. vm_compute. reflexivity. Qed.
Example hidden_by_printing :
  (resolve prints (at_ app_part) Shl (operands Shl flags Int), resolve prints (at_ app_part) Shr (operands Shr flags Int),
   resolve prints (at_ app_part) Shl (operands Shl outer_flags Int), resolve prints (at_ app_part) Shl (operands Shl plain_flags Int),
   resolve prints_uses (at_ app_part) Shl (operands Shl flags Int), resolve prints_uses (at_ ns_kl) Shl (operands Shl flags Int)) =
  (Missing, Chosen (Global Shr), Chosen (Global Shl), Language, Chosen (Global Shl), Chosen (Global Shl)).
Proof. vm_compute. reflexivity. Qed.
Example in_early_templates :
  (resolve plain (early app) Or (operands Or flags Int), resolve plain (early app) Or (operands Or outer_flags Int)) =
  (Missing, Chosen (Global Or)).
Proof. vm_compute. reflexivity. Qed.

(** ** C144: [using namespace kl::enums::operators] *)

(** In a block outside [kl]: the operators work for enums without traits, and make those with traits ambiguous; unless
    they are hidden. *)
Theorem directive_beside_traits : forall P p o e x,
  proper P p -> alone P (operands o e x) -> number x -> settled o e x ->
  includes P enum_traits_hpp (p_at p) ->
  (forall d, In d (decls P) -> d_func d = Global o -> d_ns d = []) ->
  (forall d, In d (decls P) -> d_func d = Inner o -> d_ns d = ns_operators) ->
  (forall g, ~ In (token o, g) (p_decls p)) ->
  directives P = [] -> p_directives p = [ns_operators] -> ~ inside (p_ns p) ns_kl -> e_ns e <> ns_operators ->
  (hidden P p (token o) -> enabled P e o -> e_ns e = [] -> resolve P p o (operands o e x) = Chosen (Global o)) /\
  (hidden P p (token o) -> ~ (enabled P e o /\ e_ns e = []) ->
     resolve P p o (operands o e x) = Language \/ resolve P p o (operands o e x) = Missing) /\
  (~ hidden P p (token o) -> enabled P e o -> resolve P p o (operands o e x) = Ambiguous) /\
  (~ hidden P p (token o) -> ~ enabled P e o -> resolve P p o (operands o e x) = Chosen (Inner o)).
Proof. exact directive_in_block. Qed.
Print Assumptions directive_beside_traits.

(** Writing and reading numbers: ambiguous exactly for [int], where these operators are seen. *)
Theorem streams_beside_operators : forall P p o w f x,
  (o = Shl /\ w = Writer /\ f = Put) \/ (o = Shr /\ w = Reader /\ f = Get) ->
  proper P p -> alone P [w; x] -> traits P w Enable_bitshift <> Some true ->
  includes P binary_rw_hpp (p_known p) ->
  (x <> Int -> resolve P p o [w; x] = Chosen f) /\
  (x = Int ->
    (resolve P p o [w; x] = Ambiguous <-> seen P p (token o) (Inner o) \/ declares P ns_kl (token o) (Inner o) (p_known p)) /\
    (resolve P p o [w; x] = Chosen f <-> ~ (seen P p (token o) (Inner o) \/ declares P ns_kl (token o) (Inner o) (p_known p)))).
Proof. exact writers_beside_operators. Qed.
Print Assumptions streams_beside_operators.

(** An enum that is not scoped cannot be shifted by a number that [int] is not as good for. *)
Theorem shifts_by_wide_numbers_ambiguous : forall P p o e n, (o = Shl \/ o = Shr) -> e_scoped e = false ->
  proper P p -> alone P (operands o e (Wide n)) ->
  by_traits P p o e \/ by_name P p o e ->
  resolve P p o (operands o e (Wide n)) = Ambiguous.
Proof. exact wide_shift. Qed.
Print Assumptions shifts_by_wide_numbers_ambiguous.

(** That the directive changes nothing else: false. *)
Theorem directive_harmless_refuted :
  ~ (forall P o args n, resolve P (at_ n) o args = Chosen Put -> resolve P (with_directive n) o args = Chosen Put).
Proof.
  intros H. specialize (H plain Shl [Writer; Int] app).
  assert (resolve plain (at_ app) Shl [Writer; Int] = Chosen Put) as A by (vm_compute; reflexivity).
  assert (resolve plain (with_directive app) Shl [Writer; Int] = Ambiguous) as B by (vm_compute; reflexivity).
  apply H in A. rewrite B in A. discriminate.
Qed.
Print Assumptions directive_harmless_refuted.

Example directive_cases :
  (resolve plain (with_directive app) Or (operands Or bare Int), resolve plain (with_directive app) Or (operands Or flags Int),
   resolve prints (with_directive app) Shl (operands Shl bare Int), resolve prints (with_directive app) Shr (operands Shr bare Int)) =
  (Chosen (Inner Or), Ambiguous, Missing, Chosen (Inner Shr)).
Proof. vm_compute. reflexivity. Qed.
Example directive_in_kl :
  (resolve plain (with_directive ns_kl) Shl (operands Shl bare Int), resolve plain (with_directive ns_kl) Shl [Writer; Int]) =
  (Chosen (Inner Shl), Ambiguous).
Proof. vm_compute. reflexivity. Qed.
Example writers_of_numbers :
  map (fun x => resolve plain (with_directive app) Shl [Writer; x]) [Small 0; Wide 0; Class 3; Enum plain_flags] =
  [Chosen Put; Chosen Put; Chosen Put; Chosen Put].
Proof. vm_compute. reflexivity. Qed.
Example wide_shifts :
  (resolve plain (at_ app) Shl (operands Shl plain_flags (Wide 0)), resolve plain (at_ app) Shl (operands Shl plain_flags (Small 0)),
   resolve plain (at_ app) Shl (operands Shl flags (Wide 0)), resolve plain (at_ app) Shl_eq (operands Shl_eq plain_flags (Wide 0))) =
  (Ambiguous, Chosen (Global Shl), Chosen (Global Shl), Chosen (Global Shl_eq)).
Proof. vm_compute. reflexivity. Qed.
