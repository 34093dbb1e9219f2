(** What signals should do, without linked lists, reference counts, deferred
    removal or thread-local state: an ideal machine that keeps, for each signal,
    the connected slots in order, and for each running emission the slots whose
    turn is still to come. *)
From Coq Require Import List Arith Bool.
From Verif Require Import SignalModel.
Import ListNotations.

Inductive iphase :=
| ITurn                 (** the next slot's turn, or the end *)
| IUnblocked (s : nat)  (** [s] was found unblocked *)
| ICalling (s : nat)    (** [s] was then found connected *)
| IIn (s : nat)         (** inside [s] *)
| IEnding.

Record iemission := mkie {
  ie_id : nat;
  ie_sig : nat;
  ie_todo : list nat;
  ie_stop : bool;       (** this emission was asked to stop *)
  ie_at : iphase
}.

Inductive iframe :=
| IEmit (e : iemission)
| IDisc (s : nat) (finished : bool).

Record ideal := mkideal {
  i_slots : list (option nat);     (** the signal each slot is connected to *)
  i_order : list (list nat);       (** connected slots of each signal, in order *)
  i_live : list bool;
  i_threads : list (list iframe);
  i_handles : list (option nat);
  i_blockers : list (option nat);
  i_fresh : nat
}.

Fixpoint put {A} (l : list A) (i : nat) (v : A) : list A :=
  match l, i with
  | [], _ => []
  | _ :: t, O => v :: t
  | h :: t, S i' => h :: put t i' v
  end.

Definition i_conn (i : ideal) (s : nat) : option nat := nth s (i_slots i) None.

(** A slot is blocked while a blocker object refers to it. *)
Definition i_blocked (i : ideal) (s : nat) : bool :=
  existsb (fun b => match b with Some k => Nat.eqb k s | None => false end) (i_blockers i).

Definition without (s : nat) (l : list nat) : list nat := filter (fun k => negb (Nat.eqb k s)) l.

(** Disconnecting [s] takes effect at once. *)
Definition i_disconnect (i : ideal) (s : nat) : ideal :=
  mkideal (put (i_slots i) s None) (map (without s) (i_order i)) (i_live i) (i_threads i)
    (i_handles i) (i_blockers i) (i_fresh i).

Definition i_disconnect_all (i : ideal) (g : nat) : ideal :=
  mkideal (map (fun c => match c with Some k => if Nat.eqb k g then None else c | None => None end) (i_slots i))
    (put (i_order i) g []) (i_live i) (i_threads i) (i_handles i) (i_blockers i) (i_fresh i).

Definition i_rename (f : nat -> nat) (l : list (option nat)) : list (option nat) :=
  map (fun c => match c with Some k => Some (f k) | None => None end) l.

Definition i_set_thread (i : ideal) (t : nat) (fs : list iframe) : ideal :=
  mkideal (i_slots i) (i_order i) (i_live i) (put (i_threads i) t fs) (i_handles i) (i_blockers i) (i_fresh i).
Definition i_set_handles (i : ideal) (hs : list (option nat)) : ideal :=
  mkideal (i_slots i) (i_order i) (i_live i) (i_threads i) hs (i_blockers i) (i_fresh i).
Definition i_set_blockers (i : ideal) (bs : list (option nat)) : ideal :=
  mkideal (i_slots i) (i_order i) (i_live i) (i_threads i) (i_handles i) bs (i_fresh i).

Definition i_alive (i : ideal) (g : nat) : bool := nth g (i_live i) false.

Definition i_user (i : ideal) (t : nat) (fs : list iframe) (o : op) : option (ideal * obs) :=
  match o with
  | UNewSignal =>
      Some (mkideal (i_slots i) (i_order i ++ [[]]) (i_live i ++ [true]) (i_threads i) (i_handles i) (i_blockers i) (i_fresh i), ONone)
  | UConnect g at_front =>
      if i_alive i g then
        let s := List.length (i_slots i) in
        let l := nth g (i_order i) [] in
        Some (mkideal (i_slots i ++ [Some g]) (put (i_order i) g (if at_front then s :: l else l ++ [s])) (i_live i)
                (i_threads i) (i_handles i ++ [Some s]) (i_blockers i) (i_fresh i), OSlot s)
      else None
  | UCopy h => match nth_error (i_handles i) h with Some c => Some (i_set_handles i (i_handles i ++ [c]), ONone) | None => None end
  | UAssign h h' =>
      match nth_error (i_handles i) h, nth_error (i_handles i) h' with
      | Some _, Some c => Some (i_set_handles i (put (i_handles i) h c), ONone)
      | _, _ => None
      end
  | UDrop h => match nth_error (i_handles i) h with Some _ => Some (i_set_handles i (put (i_handles i) h None), ONone) | None => None end
  | UMoveHandle h =>
      match nth_error (i_handles i) h with
      | Some c => Some (i_set_handles i (put (i_handles i) h None ++ [c]), ONone)
      | None => None
      end
  | USwapHandles h h' =>
      match nth_error (i_handles i) h, nth_error (i_handles i) h' with
      | Some c, Some c' => Some (i_set_handles i (put (put (i_handles i) h c') h' c), ONone)
      | _, _ => None
      end
  | UDisconnect h =>
      match nth_error (i_handles i) h with
      | Some None => Some (i, ONone)
      | Some (Some s) => Some (i_set_thread (i_set_handles i (put (i_handles i) h None)) t (IDisc s false :: fs), ONone)
      | None => None
      end
  | UConnected h =>
      match nth_error (i_handles i) h with
      | Some None => Some (i, OBool false)
      | Some (Some s) => Some (i, OBool (is_some (i_conn i s)))
      | None => None
      end
  | UBlock h => match nth_error (i_handles i) h with Some c => Some (i_set_blockers i (i_blockers i ++ [c]), ONone) | None => None end
  | UCopyBlocker b => match nth_error (i_blockers i) b with Some c => Some (i_set_blockers i (i_blockers i ++ [c]), ONone) | None => None end
  | UAssignBlocker b b' =>
      match nth_error (i_blockers i) b, nth_error (i_blockers i) b' with
      | Some _, Some c => Some (i_set_blockers i (put (i_blockers i) b c), ONone)
      | _, _ => None
      end
  | UMoveBlocker b =>
      match nth_error (i_blockers i) b with
      | Some c => Some (i_set_blockers i (put (i_blockers i) b None ++ [c]), ONone)
      | None => None
      end
  | USwapBlockers b b' =>
      match nth_error (i_blockers i) b, nth_error (i_blockers i) b' with
      | Some c, Some c' => Some (i_set_blockers i (put (put (i_blockers i) b c') b' c), ONone)
      | _, _ => None
      end
  | UDropBlocker b => match nth_error (i_blockers i) b with Some _ => Some (i_set_blockers i (put (i_blockers i) b None), ONone) | None => None end
  | UEmit g =>
      if i_alive i g then
        let e := mkie (i_fresh i) g (nth g (i_order i) []) false ITurn in
        Some (mkideal (i_slots i) (i_order i) (i_live i) (put (i_threads i) t (IEmit e :: fs)) (i_handles i) (i_blockers i) (S (i_fresh i)),
              OStarted (i_fresh i))
      else None
  | UStop =>
      match fs with
      | IEmit e :: rest => Some (i_set_thread i t (IEmit (mkie (ie_id e) (ie_sig e) (ie_todo e) true (ie_at e)) :: rest), ONone)
      | _ => Some (i, ONone)
      end
  | UCurrent =>
      match fs with
      | IEmit e :: _ =>
          match ie_at e with
          | IIn s => Some (i_set_handles i (i_handles i ++ [Some s]), OSlot s)
          | _ => None
          end
      | _ => Some (i_set_handles i (i_handles i ++ [None]), ONone)
      end
  | UDisconnectAll g => if i_alive i g then Some (i_disconnect_all i g, ONone) else None
  | UNumSlots g => if i_alive i g then Some (i, OCount (List.length (nth g (i_order i) []))) else None
  | USwap a b =>
      if i_alive i a && i_alive i b then
        Some (mkideal (i_rename (fun k => if Nat.eqb k a then b else if Nat.eqb k b then a else k) (i_slots i))
                (put (put (i_order i) a (nth b (i_order i) [])) b (nth a (i_order i) [])) (i_live i)
                (i_threads i) (i_handles i) (i_blockers i) (i_fresh i), ONone)
      else None
  | UMove g =>
      if i_alive i g then
        let n := List.length (i_order i) in
        Some (mkideal (i_rename (fun k => if Nat.eqb k g then n else k) (i_slots i))
                (put (i_order i) g [] ++ [nth g (i_order i) []]) (i_live i ++ [true])
                (i_threads i) (i_handles i) (i_blockers i) (i_fresh i), ONone)
      else None
  | UDestroy g =>
      if i_alive i g then
        let i := i_disconnect_all i g in
        Some (mkideal (i_slots i) (i_order i) (put (i_live i) g false) (i_threads i) (i_handles i) (i_blockers i) (i_fresh i), ONone)
      else None
  | UReturn =>
      match fs with
      | IEmit e :: rest => Some (i_set_thread i t (IEmit (mkie (ie_id e) (ie_sig e) (ie_todo e) (ie_stop e) ITurn) :: rest), ONone)
      | _ => None
      end
  | UThrow =>
      match fs with
      | IEmit e :: rest => Some (i_set_thread i t (IEmit (mkie (ie_id e) (ie_sig e) (ie_todo e) (ie_stop e) IEnding) :: rest), ONone)
      | _ => None
      end
  end.

Definition i_tau (i : ideal) (t : nat) (fs : list iframe) : option (ideal * obs) :=
  let go e rest o := Some (i_set_thread i t (IEmit e :: rest), o) in
  match fs with
  | [] => None
  | IDisc s false :: rest => Some (i_set_thread (i_disconnect i s) t (IDisc s true :: rest), ONone)
  | IDisc s true :: rest => Some (i_set_thread i t rest, ONone)
  | IEmit e :: rest =>
      let at_ todo p := mkie (ie_id e) (ie_sig e) todo (ie_stop e) p in
      match ie_at e with
      | ITurn =>
          if ie_stop e then go (at_ (ie_todo e) IEnding) rest ONone
          else
            match ie_todo e with
            | [] => go (at_ [] IEnding) rest ONone
            | s :: todo => go (at_ todo (if i_blocked i s then ITurn else IUnblocked s)) rest ONone
            end
      | IUnblocked s => go (at_ (ie_todo e) (if is_some (i_conn i s) then ICalling s else ITurn)) rest ONone
      | ICalling s => go (at_ (ie_todo e) (IIn s)) rest (OCalled (ie_id e) s)
      | IIn _ => None
      | IEnding => Some (i_set_thread i t rest, OEnded (ie_id e))
      end
  end.

Definition i_ready (fs : list iframe) : bool :=
  match fs with
  | [] => true
  | IEmit e :: _ => match ie_at e with IIn _ => true | _ => false end
  | IDisc _ _ :: _ => false
  end.

Definition istep (i : ideal) (t : nat) (l : label) : option (ideal * obs) :=
  match nth_error (i_threads i) t with
  | None => None
  | Some fs =>
      match l with
      | User o => if i_ready fs then i_user i t fs o else None
      | Tau => i_tau i t fs
      end
  end.

Definition ideal_init (n : nat) : ideal := mkideal [] [] [] (repeat [] n) [] [] 0.

(** Events that can be seen from outside: user operations with their results,
    calls of slots, ends of emissions. *)
Inductive event :=
| EUser (t : nat) (o : op) (r : obs)
| ELib (t : nat) (r : obs).

Definition event_of (t : nat) (l : label) (r : obs) : list event :=
  match l with
  | User o => [EUser t o r]
  | Tau => match r with ONone => [] | _ => [ELib t r] end
  end.

Inductive ideal_runs : ideal -> list event -> ideal -> Prop :=
| IR_nil i : ideal_runs i [] i
| IR_step i t l i' r evs i'' :
    istep i t l = Some (i', r) -> ideal_runs i' evs i'' -> ideal_runs i (event_of t l r ++ evs) i''.

(* ------------------------------------------------- what callers must respect *)

(** Some thread is in the middle of disconnecting a slot it found connected to [g]. *)
Definition disconnecting (st : state) (g : nat) : Prop :=
  exists t th s, nth_error (threads st) t = Some th /\ In (FDisc s (DRegion g)) (th_stack th).

(** Some thread is emitting [g]. *)
Definition emitting (st : state) (g : nat) : Prop :=
  exists t th e, nth_error (threads st) t = Some th /\ In (FEmit e) (th_stack th) /\ e_sig e = g.

(** Signals are swapped, moved or destroyed only while no other thread is inside a
    disconnect from them; they are not destroyed while being emitted. *)
Definition respectful (st : state) (l : label) : Prop :=
  match l with
  | User (USwap a b) => a <> b -> ~ disconnecting st a /\ ~ disconnecting st b
  | User (UMove g) => ~ disconnecting st g
  | User (UDestroy g) => ~ disconnecting st g /\ ~ emitting st g
  | _ => True
  end.

(** Any schedule of any threads. *)
Inductive runs : state -> list event -> state -> Prop :=
| R_nil st : runs st [] st
| R_step st t l st' r evs st'' :
    respectful st l -> step st t l = Next st' r -> runs st' evs st'' -> runs st (event_of t l r ++ evs) st''.

(** Any schedule, without restrictions. *)
Inductive any_runs : state -> list event -> state -> Prop :=
| AR_nil st : any_runs st [] st
| AR_step st t l st' r evs st'' :
    step st t l = Next st' r -> any_runs st' evs st'' -> any_runs st (event_of t l r ++ evs) st''.

(* --------------------------------------------------------- reading a state *)

(** The slots reachable from [o] through [next_], in order. *)
Fixpoint walk (h : list slot) (fuel : nat) (o : option nat) : list nat :=
  match fuel, o with
  | S fuel', Some s =>
      match nth_error h s with Some x => s :: walk h fuel' (s_next x) | None => [s] end
  | _, _ => []
  end.

(** The slots a signal holds, first to last. *)
Definition listed (st : state) (g : nat) : list nat :=
  match nth_error (sigs (mm st)) g with
  | Some r => walk (heap (mm st)) (length (heap (mm st))) (g_head r)
  | None => []
  end.

Definition sender (st : state) (s : nat) : option nat :=
  match nth_error (heap (mm st)) s with Some x => s_sender x | None => None end.

Definition connected_to (st : state) (g s : nat) : bool :=
  match sender st s with Some k => Nat.eqb k g | None => false end.

(** The connected slots of [g] in connection order. *)
Definition slots_of (st : state) (g : nat) : list nat := filter (connected_to st g) (listed st g).

Definition exists_slot (st : state) (s : nat) : Prop := s < length (heap (mm st)).

Definition blockers_on (st : state) (s : nat) : nat :=
  length (filter (fun b => match b with Some k => Nat.eqb k s | None => false end) (blockers st)).

(** The slots emission [e] calls, in order. *)
Fixpoint calls (e : nat) (evs : list event) : list nat :=
  match evs with
  | [] => []
  | ELib _ (OCalled k s) :: evs' => if Nat.eqb k e then s :: calls e evs' else calls e evs'
  | _ :: evs' => calls e evs'
  end.

(** [l] is [k] with some elements left out. *)
Inductive part_of {A} : list A -> list A -> Prop :=
| po_nil : part_of [] []
| po_skip l a k : part_of l k -> part_of l (a :: k)
| po_take l a k : part_of l k -> part_of (a :: l) (a :: k).

(** The innermost emission of thread [t]. *)
Definition innermost (st : state) (t : nat) : option nat :=
  match nth_error (threads st) t with
  | Some th => match th_stack th with FEmit e :: _ => Some (e_id e) | _ => None end
  | None => None
  end.

(** Emission [e] of thread [t] is asked to stop, or ended by an exception. *)
Definition cut (t e : nat) (st : state) (u : nat) (l : label) : Prop :=
  u = t /\ (l = User UStop \/ l = User UThrow) /\ innermost st t = Some e.

(** Runs in whose states [P] always holds, and whose steps are never [N]. *)
Inductive runs_with (P : state -> Prop) (N : state -> nat -> label -> Prop) : state -> list event -> state -> Prop :=
| RW_nil st : P st -> runs_with P N st [] st
| RW_step st t l st' r evs st'' :
    P st -> ~ N st t l -> respectful st l -> step st t l = Next st' r -> runs_with P N st' evs st'' ->
    runs_with P N st (event_of t l r ++ evs) st''.

(** Thread [t] runs alone, its slots returning at once. *)
Inductive alone (t : nat) : state -> list event -> state -> Prop :=
| AL_nil st : alone t st [] st
| AL_step st l st' r evs st'' :
    l = Tau \/ l = User UReturn -> step st t l = Next st' r -> alone t st' evs st'' ->
    alone t st (event_of t l r ++ evs) st''.

(** References to slot [s] held by anything outside the signals' lists. *)
Definition refers (s : nat) (o : option nat) : bool := match o with Some k => Nat.eqb k s | None => false end.
Definition frame_refers (s : nat) (f : frame) : bool :=
  match f with
  | FDisc k _ => Nat.eqb k s
  | FEmit e =>
      match e_phase e with
      | PRelease nx _ => refers s (e_cur e) || refers s nx || refers s (e_last e)
      | PLast => refers s (e_last e)
      | PFinish => false
      | _ => refers s (e_cur e) || refers s (e_last e)
      end
  end.
Definition referenced (st : state) (s : nat) : bool :=
  existsb (refers s) (handles st) || existsb (refers s) (blockers st) ||
  existsb (fun th => existsb (frame_refers s) (th_stack th)) (threads st) || existsb (Nat.eqb s) (lost st).

(** How many emissions of [g] are running. *)
Definition running (st : state) (g : nat) : nat :=
  length (filter (fun f => match f with FEmit e => Nat.eqb (e_sig e) g | FDisc _ _ => false end) (flat_map th_stack (threads st))).

(** Nothing refers to any slot any more: no connection, blocker or signal object is
    left and no thread is inside the library. *)
Definition all_gone (st : state) : Prop :=
  (forall o, In o (handles st) -> o = None) /\ (forall o, In o (blockers st) -> o = None) /\
  (forall th, In th (threads st) -> th_stack th = []) /\ (forall r, In r (sigs (mm st)) -> g_live r = false).

Definition throws (evs : list event) : Prop := exists t r, In (EUser t UThrow r) evs.
