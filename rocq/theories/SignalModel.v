(** kl/signal.hpp as a machine of any number of threads.

    Slots are heap cells with reference counts, signals hold the head and tail
    of their slot list, threads hold a stack of running library calls.  Between
    those calls (at top level and inside slots) a thread may perform any user
    operation.  Every touch of a freed slot or destroyed signal is [UB].

    Granularity: each region under [mutex_] is one step; outside of it each
    access to an atomic ([sender_], [blocking_], [count_]) is one step, except
    that the reference and blocking counters touched together by one constructor,
    destructor or assignment of [connection] or [blocker] are taken in one step.
    Memory is sequentially consistent.  Not modelled: emission arguments, what a
    slot's function object captures (its destructor does nothing here), wrap of
    the 32-bit emission counter, failing allocation. *)
From Coq Require Import List Arith Bool.
From Verif Require Import Base.
Import ListNotations.
Local Open Scope outcome_scope.

(** signal.hpp:25-101, 789-812: [slot]. [s_live] tells whether it is allocated. *)
Record slot := mkslot {
  s_live : bool;
  s_refs : nat;             (** [count_] *)
  s_sender : option nat;    (** [sender_] *)
  s_block : nat;            (** [blocking_] *)
  s_next : option nat       (** [next] *)
}.

(** signal.hpp:814-818: the members of [signal]. *)
Record sigrec := mksig {
  g_live : bool;
  g_head : option nat;      (** [slots_] *)
  g_tail : option nat;      (** [tail_] *)
  g_active : nat;           (** [active_emissions_] *)
  g_deferred : bool         (** [deferred_cleanup_] *)
}.

Definition new_sig : sigrec := mksig true None None 0 false.

Record mem := mkmem { heap : list slot; sigs : list sigrec }.

(* --------------------------------------------------------- slots *)

Definition get_slot (m : mem) (s : nat) : outcome slot :=
  match nth_error (heap m) s with
  | Some x => if s_live x then Ok x else UB
  | None => UB
  end.

Definition put_slot (m : mem) (s : nat) (x : slot) : mem := mkmem (upd (heap m) s x) (sigs m).

(** signal.hpp:33 [add_ref]. *)
Definition add_ref (m : mem) (s : nat) : outcome mem :=
  x <- get_slot m s ;;
  Ok (put_slot m s (mkslot true (s_refs x + 1) (s_sender x) (s_block x) (s_next x))).

(** signal.hpp:34-38 [release]: the last reference deletes the slot. *)
Definition release (m : mem) (s : nat) : outcome mem :=
  x <- get_slot m s ;;
  match s_refs x with
  | O => UB
  | S n => Ok (put_slot m s (mkslot (negb (Nat.eqb n 0)) n (s_sender x) (s_block x) (s_next x)))
  end.

Definition add_ref_opt (m : mem) (o : option nat) : outcome mem :=
  match o with Some s => add_ref m s | None => Ok m end.
Definition release_opt (m : mem) (o : option nat) : outcome mem :=
  match o with Some s => release m s | None => Ok m end.

(** signal.hpp:800-808 [rebind], [invalidate]. *)
Definition rebind (m : mem) (s : nat) (parent : option nat) : outcome mem :=
  x <- get_slot m s ;;
  Ok (put_slot m s (mkslot true (s_refs x) parent (s_block x) (s_next x))).

(** signal.hpp:57-67 [block], [unblock]. *)
Definition block (m : mem) (s : nat) : outcome mem :=
  x <- get_slot m s ;;
  Ok (put_slot m s (mkslot true (s_refs x) (s_sender x) (s_block x + 1) (s_next x))).
Definition unblock (m : mem) (s : nat) : outcome mem :=
  x <- get_slot m s ;;
  match s_block x with
  | O => UB
  | S n => Ok (put_slot m s (mkslot true (s_refs x) (s_sender x) n (s_next x)))
  end.

Definition block_opt (m : mem) (o : option nat) : outcome mem :=
  match o with Some s => block m s | None => Ok m end.
Definition unblock_opt (m : mem) (o : option nat) : outcome mem :=
  match o with Some s => unblock m s | None => Ok m end.

Definition set_next (m : mem) (s : nat) (n : option nat) : outcome mem :=
  x <- get_slot m s ;;
  Ok (put_slot m s (mkslot true (s_refs x) (s_sender x) (s_block x) n)).

Definition blocked (x : slot) : bool := negb (Nat.eqb (s_block x) 0).
Definition valid (x : slot) : bool := match s_sender x with Some _ => true | None => false end.

(* ------------------------------------------------ signals, under mutex_ *)

Definition get_sig (m : mem) (g : nat) : outcome sigrec :=
  match nth_error (sigs m) g with
  | Some r => if g_live r then Ok r else UB
  | None => UB
  end.

Definition put_sig (m : mem) (g : nat) (r : sigrec) : mem := mkmem (heap m) (upd (sigs m) g r).

Definition set_head (m : mem) (g : nat) (h : option nat) : outcome mem :=
  r <- get_sig m g ;; Ok (put_sig m g (mksig true h (g_tail r) (g_active r) (g_deferred r))).
Definition set_tail (m : mem) (g : nat) (t : option nat) : outcome mem :=
  r <- get_sig m g ;; Ok (put_sig m g (mksig true (g_head r) t (g_active r) (g_deferred r))).
Definition set_active (m : mem) (g : nat) (n : nat) : outcome mem :=
  r <- get_sig m g ;; Ok (put_sig m g (mksig true (g_head r) (g_tail r) n (g_deferred r))).
Definition set_deferred (m : mem) (g : nat) (b : bool) : outcome mem :=
  r <- get_sig m g ;; Ok (put_sig m g (mksig true (g_head r) (g_tail r) (g_active r) b)).

Definition is_slot (o : option nat) (s : nat) : bool :=
  match o with Some s' => Nat.eqb s' s | None => false end.

(** signal.hpp:826-845 [insert_new_slot_locked]. *)
Definition insert_new_slot (m : mem) (g s : nat) (at_front : bool) : outcome mem :=
  r <- get_sig m g ;;
  match g_head r with
  | None => m <- set_head m g (Some s) ;; set_tail m g (Some s)
  | Some h =>
      if at_front then
        m <- set_next m s (Some h) ;; set_head m g (Some s)
      else
        match g_tail r with
        | None => UB
        | Some t => m <- set_next m t (Some s) ;; set_tail m g (Some s)
        end
  end.

(** signal.hpp:847-859 [remove_slot_locked]; the assertion is [UB] when false. *)
Definition remove_slot (m : mem) (g s : nat) (prev : option nat) : outcome (mem * option nat) :=
  r <- get_sig m g ;;
  if negb (Nat.eqb (g_active r) 0) then UB
  else
    x <- get_slot m s ;;
    let next := s_next x in
    m <- match prev with
         | Some p => set_next m p next
         | None => if is_slot (g_head r) s then set_head m g next else Ok m
         end ;;
    r <- get_sig m g ;;
    m <- (if is_slot (g_tail r) s
          then set_tail m g (match prev with Some p => Some p | None => g_head r end)
          else Ok m) ;;
    m <- release m s ;;
    Ok (m, next).

(** signal.hpp:730-747: the loop of [disconnect].  [fuel] bounds the walk; running
    out would be an endless loop and counts as [UB]. *)
Fixpoint disconnect_loop (fuel : nat) (m : mem) (g id : nat) (iter prev : option nat) : outcome mem :=
  match fuel with
  | O => UB
  | S fuel' =>
      match iter with
      | None => Ok m
      | Some i =>
          if Nat.eqb i id then
            m <- rebind m i None ;;
            r <- get_sig m g ;;
            if Nat.eqb (g_active r) 0 then
              p <- remove_slot m g i prev ;; Ok (fst p)
            else set_deferred m g true
          else
            x <- get_slot m i ;;
            disconnect_loop fuel' m g id (s_next x) iter
      end
  end.

(** signal.hpp:726-748 [disconnect(id)]. *)
Definition disconnect_id (m : mem) (g id : nat) : outcome mem :=
  r <- get_sig m g ;;
  disconnect_loop (S (List.length (heap m))) m g id (g_head r) None.

(** signal.hpp:662-675: the loop of [disconnect_all_slots]. *)
Fixpoint disconnect_all_loop (fuel : nat) (m : mem) (g : nat) (can_remove : bool) (iter prev : option nat) : outcome mem :=
  match fuel with
  | O => UB
  | S fuel' =>
      match iter with
      | None => Ok m
      | Some i =>
          m <- rebind m i None ;;
          if can_remove then
            p <- remove_slot m g i prev ;;
            disconnect_all_loop fuel' (fst p) g can_remove (snd p) prev
          else
            m <- set_deferred m g true ;;
            x <- get_slot m i ;;
            disconnect_all_loop fuel' m g can_remove (s_next x) iter
      end
  end.

(** signal.hpp:658-676 [disconnect_all_slots]. *)
Definition disconnect_all (m : mem) (g : nat) : outcome mem :=
  r <- get_sig m g ;;
  disconnect_all_loop (S (List.length (heap m))) m g (Nat.eqb (g_active r) 0) (g_head r) None.

(** signal.hpp:683-687: the loop of [num_slots]. *)
Fixpoint num_slots_loop (fuel : nat) (m : mem) (iter : option nat) (sum : nat) : outcome nat :=
  match fuel with
  | O => UB
  | S fuel' =>
      match iter with
      | None => Ok sum
      | Some i => x <- get_slot m i ;; num_slots_loop fuel' m (s_next x) (if valid x then S sum else sum)
      end
  end.

(** signal.hpp:679-689 [num_slots]. *)
Definition num_slots (m : mem) (g : nat) : outcome nat :=
  r <- get_sig m g ;; num_slots_loop (S (List.length (heap m))) m (g_head r) 0.

(** signal.hpp:773-784: the loop of [cleanup_invalidated_slots_locked]. *)
Fixpoint cleanup_loop (fuel : nat) (m : mem) (g : nat) (iter prev : option nat) : outcome mem :=
  match fuel with
  | O => UB
  | S fuel' =>
      match iter with
      | None => Ok m
      | Some i =>
          x <- get_slot m i ;;
          if valid x then cleanup_loop fuel' m g (s_next x) iter
          else p <- remove_slot m g i prev ;; cleanup_loop fuel' (fst p) g (snd p) prev
      end
  end.

(** signal.hpp:761-786 [cleanup_invalidated_slots_locked]. *)
Definition cleanup (m : mem) (g : nat) : outcome mem :=
  r <- get_sig m g ;;
  if negb (g_deferred r) then Ok m
  else if negb (Nat.eqb (g_active r) 0) then set_deferred m g true
  else
    m <- cleanup_loop (S (List.length (heap m))) m g (g_head r) None ;;
    set_deferred m g false.

(** signal.hpp:755-758: the loop of [rebind_locked]. *)
Fixpoint rebind_loop (fuel : nat) (m : mem) (g : nat) (iter : option nat) : outcome mem :=
  match fuel with
  | O => UB
  | S fuel' =>
      match iter with
      | None => Ok m
      | Some i => m <- rebind m i (Some g) ;; x <- get_slot m i ;; rebind_loop fuel' m g (s_next x)
      end
  end.

(** signal.hpp:750-759 [rebind_locked]. *)
Definition rebind_all (m : mem) (g : nat) : outcome mem :=
  m <- cleanup m g ;;
  r <- get_sig m g ;;
  rebind_loop (S (List.length (heap m))) m g (g_head r).

(** signal.hpp:700-714 [swap]; [Throws] stands for [std::terminate]. *)
Definition swap_sigs (m : mem) (a b : nat) : outcome mem :=
  if Nat.eqb a b then Ok m
  else
    ra <- get_sig m a ;;
    rb <- get_sig m b ;;
    if negb (Nat.eqb (g_active ra) 0 && Nat.eqb (g_active rb) 0) then Throws
    else
      let m := put_sig m a (mksig true (g_head rb) (g_tail rb) (g_active ra) (g_deferred rb)) in
      let m := put_sig m b (mksig true (g_head ra) (g_tail ra) (g_active rb) (g_deferred ra)) in
      m <- rebind_all m a ;;
      rebind_all m b.

(** signal.hpp:421-433: the move constructor; the new signal gets the next
    free number.  Its two locked regions are one step. *)
Definition move_sig (m : mem) (a : nat) : outcome mem :=
  ra <- get_sig m a ;;
  if negb (Nat.eqb (g_active ra) 0) then Throws
  else
    let m := put_sig m a (mksig true None None (g_active ra) false) in
    let n := List.length (sigs m) in
    let m := mkmem (heap m) (sigs m ++ [mksig true (g_head ra) (g_tail ra) 0 (g_deferred ra)]) in
    rebind_all m n.

(** signal.hpp:410 [~signal]. *)
Definition destroy_sig (m : mem) (g : nat) : outcome mem :=
  m <- disconnect_all m g ;;
  r <- get_sig m g ;;
  Ok (put_sig m g (mksig false (g_head r) (g_tail r) (g_active r) (g_deferred r))).

(** signal.hpp:456-464 [connect]; the new slot gets the next free number and
    one reference for the list and one for the returned connection. *)
Definition connect (m : mem) (g : nat) (at_front : bool) : outcome (mem * nat) :=
  let s := List.length (heap m) in
  let m := mkmem (heap m ++ [mkslot true 1 (Some g) 0 None]) (sigs m) in
  m <- insert_new_slot m g s at_front ;;
  m <- add_ref m s ;;
  Ok (m, s).

(* --------------------------------------------------------------- threads *)

(** signal.hpp:103-107 [tls_signal_info]. *)
Record tls := mktls { t_stopped : bool; t_current : option nat }.

(** Where an emission is, signal.hpp:587-650. *)
Inductive phase :=
| PBlocked                                  (** 626, about to test [blocked()] *)
| PValid                                    (** 626, about to test [valid()] *)
| PCall                                     (** 629-630, about to call the slot *)
| PInSlot                                   (** inside the slot: user code *)
| PAdvance                                  (** 633-642 *)
| PRelease (next : option nat) (brk : bool) (** 644-648 *)
| PLast                                     (** 615-616 *)
| PFinish.                                  (** 618-621, 592 *)

Record emission := mkem {
  e_id : nat;                (** names the emission in events; not in the code *)
  e_sig : nat;
  e_cur : option nat;        (** [current] *)
  e_last : option nat;       (** [last] *)
  e_prev : tls;              (** [prev_emission_state] *)
  e_phase : phase
}.

(** Where [connection::disconnect] is, signal.hpp:79-84, 174-181. *)
Inductive dphase :=
| DExchange          (** 81 *)
| DRegion (g : nat)  (** 83: [sender->disconnect(id())] *)
| DRelease.          (** 179 *)

Inductive frame :=
| FEmit (e : emission)
| FDisc (s : nat) (p : dphase).

Record thread := mkthread { th_tls : tls; th_stack : list frame }.

Record state := mkstate {
  mm : mem;
  threads : list thread;
  handles : list (option nat);   (** [connection] objects: their [slot_] *)
  blockers : list (option nat);  (** [connection::blocker] objects *)
  lost : list nat;               (** references no variable holds any more; not in the code *)
  fresh : nat                    (** next emission id; not in the code *)
}.

(** What user code can do next. *)
Inductive op :=
| UNewSignal
| UConnect (g : nat) (at_front : bool)
| UCopy (h : nat)                 (** copy a connection; 139-143 *)
| UAssign (h h' : nat)            (** copy assignment; 145-156 *)
| UDrop (h : nat)                 (** destroy a connection; 133-137 *)
| UDisconnect (h : nat)           (** [disconnect()], or the end of a scoped_connection; 174-181, 317 *)
| UConnected (h : nat)            (** [connected()]; 184 *)
| UBlock (h : nat)                (** get_blocker; 203-210 *)
| UMoveHandle (h : nat)           (** move construction; 158-161 *)
| USwapHandles (h h' : nat)       (** move assignment, swap; 163-167, 277-281 *)
| UCopyBlocker (b : nat)          (** 221-228 *)
| UAssignBlocker (b b' : nat)     (** copy assignment; 230-247 *)
| UMoveBlocker (b : nat)          (** move construction; 249-252 *)
| USwapBlockers (b b' : nat)      (** move assignment, swap; 254-267 *)
| UDropBlocker (b : nat)          (** 212-219 *)
| UEmit (g : nat)                 (** 587-613 *)
| UStop                           (** [stop_emission]; 872-875 *)
| UCurrent                        (** [current_connection]; 882-886 *)
| UDisconnectAll (g : nat)        (** 658-676 *)
| UNumSlots (g : nat)             (** 679-689 *)
| USwap (a b : nat)               (** 700-714 *)
| UMove (g : nat)                 (** 421-433 *)
| UDestroy (g : nat)              (** 410 *)
| UReturn                         (** the running slot returns *)
| UThrow.                         (** the running slot throws; the exception is caught around the emission *)

Inductive label := User (o : op) | Tau.

(** What can be observed. *)
Inductive obs :=
| ONone
| OCalled (e s : nat)      (** emission [e] calls slot [s] *)
| OEnded (e : nat)
| OStarted (e : nat)
| OSlot (s : nat)          (** a connection to slot [s] was returned *)
| OCount (n : nat)
| OBool (b : bool).

Inductive result :=
| Disabled                 (** the label does not apply *)
| Next (st : state) (o : obs)
| Crash                    (** undefined behaviour *)
| Terminate.               (** [std::terminate] *)

Definition lift {A} (r : outcome A) (k : A -> result) : result :=
  match r with Ok a => k a | UB => Crash | Throws => Terminate end.

Definition set_mem (st : state) (m : mem) : state :=
  mkstate m (threads st) (handles st) (blockers st) (lost st) (fresh st).
Definition set_thread (st : state) (t : nat) (th : thread) : state :=
  mkstate (mm st) (upd (threads st) t th) (handles st) (blockers st) (lost st) (fresh st).
Definition set_handles (st : state) (hs : list (option nat)) : state :=
  mkstate (mm st) (threads st) hs (blockers st) (lost st) (fresh st).
Definition set_blockers (st : state) (bs : list (option nat)) : state :=
  mkstate (mm st) (threads st) (handles st) bs (lost st) (fresh st).

(** Is the thread in user code. *)
Definition user_ready (th : thread) : bool :=
  match th_stack th with
  | [] => true
  | FEmit e :: _ => match e_phase e with PInSlot => true | _ => false end
  | FDisc _ _ :: _ => false
  end.

Definition sig_live (m : mem) (g : nat) : bool :=
  match nth_error (sigs m) g with Some r => g_live r | None => false end.

Definition at_phase (e : emission) (p : phase) : emission :=
  mkem (e_id e) (e_sig e) (e_cur e) (e_last e) (e_prev e) p.

Definition is_some {A} (o : option A) : bool := match o with Some _ => true | None => false end.

(** One user operation of thread [t], whose state is [th]. *)
Definition user_step (st : state) (t : nat) (th : thread) (o : op) : result :=
  let m := mm st in
  match o with
  | UNewSignal => Next (set_mem st (mkmem (heap m) (sigs m ++ [new_sig]))) ONone
  | UConnect g at_front =>
      if sig_live m g then
        lift (connect m g at_front) (fun p =>
          Next (set_handles (set_mem st (fst p)) (handles st ++ [Some (snd p)])) (OSlot (snd p)))
      else Disabled
  | UCopy h =>
      match nth_error (handles st) h with
      | Some c => lift (add_ref_opt m c) (fun m => Next (set_handles (set_mem st m) (handles st ++ [c])) ONone)
      | None => Disabled
      end
  | UAssign h h' =>
      match nth_error (handles st) h, nth_error (handles st) h' with
      | Some c, Some c' =>
          if Nat.eqb h h' then Next st ONone
          else lift (release_opt m c) (fun m => lift (add_ref_opt m c') (fun m =>
                 Next (set_handles (set_mem st m) (upd (handles st) h c')) ONone))
      | _, _ => Disabled
      end
  | UDrop h =>
      match nth_error (handles st) h with
      | Some c => lift (release_opt m c) (fun m => Next (set_handles (set_mem st m) (upd (handles st) h None)) ONone)
      | None => Disabled
      end
  | UDisconnect h =>
      match nth_error (handles st) h with
      | Some None => Next st ONone
      | Some (Some s) =>
          Next (set_thread (set_handles st (upd (handles st) h None)) t
                  (mkthread (th_tls th) (FDisc s DExchange :: th_stack th))) ONone
      | None => Disabled
      end
  | UConnected h =>
      match nth_error (handles st) h with
      | Some None => Next st (OBool false)
      | Some (Some s) => lift (get_slot m s) (fun x => Next st (OBool (valid x)))
      | None => Disabled
      end
  | UBlock h =>
      match nth_error (handles st) h with
      | Some c =>
          lift (add_ref_opt m c) (fun m => lift (block_opt m c) (fun m =>
            Next (set_blockers (set_mem st m) (blockers st ++ [c])) ONone))
      | None => Disabled
      end
  | UCopyBlocker b =>
      match nth_error (blockers st) b with
      | Some c =>
          lift (add_ref_opt m c) (fun m => lift (block_opt m c) (fun m =>
            Next (set_blockers (set_mem st m) (blockers st ++ [c])) ONone))
      | None => Disabled
      end
  | UMoveHandle h =>
      match nth_error (handles st) h with
      | Some c => Next (set_handles st (upd (handles st) h None ++ [c])) ONone
      | None => Disabled
      end
  | USwapHandles h h' =>
      match nth_error (handles st) h, nth_error (handles st) h' with
      | Some c, Some c' => Next (set_handles st (upd (upd (handles st) h c') h' c)) ONone
      | _, _ => Disabled
      end
  | UAssignBlocker b b' =>
      match nth_error (blockers st) b, nth_error (blockers st) b' with
      | Some c, Some c' =>
          if Nat.eqb b b' then Next st ONone
          else lift (unblock_opt m c) (fun m => lift (release_opt m c) (fun m =>
               lift (add_ref_opt m c') (fun m => lift (block_opt m c') (fun m =>
                 Next (set_blockers (set_mem st m) (upd (blockers st) b c')) ONone))))
      | _, _ => Disabled
      end
  | UMoveBlocker b =>
      match nth_error (blockers st) b with
      | Some c => Next (set_blockers st (upd (blockers st) b None ++ [c])) ONone
      | None => Disabled
      end
  | USwapBlockers b b' =>
      match nth_error (blockers st) b, nth_error (blockers st) b' with
      | Some c, Some c' => Next (set_blockers st (upd (upd (blockers st) b c') b' c)) ONone
      | _, _ => Disabled
      end
  | UDropBlocker b =>
      match nth_error (blockers st) b with
      | Some c =>
          lift (unblock_opt m c) (fun m => lift (release_opt m c) (fun m =>
            Next (set_blockers (set_mem st m) (upd (blockers st) b None)) ONone))
      | None => Disabled
      end
  | UEmit g =>
      if sig_live m g then
        lift (get_sig m g) (fun r =>
        lift (set_active m g (g_active r + 1)) (fun m =>
        lift (add_ref_opt m (g_tail r)) (fun m =>
        lift (add_ref_opt m (g_head r)) (fun m =>
          let e := mkem (fresh st) g (g_head r) (g_tail r) (th_tls th)
                     (if is_some (g_head r) then PBlocked else PLast) in
          let st := set_mem st m in
          let st := set_thread st t (mkthread (mktls false (t_current (th_tls th))) (FEmit e :: th_stack th)) in
          Next (mkstate (mm st) (threads st) (handles st) (blockers st) (lost st) (S (fresh st))) (OStarted (e_id e))))))
      else Disabled
  | UStop => Next (set_thread st t (mkthread (mktls true (t_current (th_tls th))) (th_stack th))) ONone
  | UCurrent =>
      match t_current (th_tls th) with
      | None => Next (set_handles st (handles st ++ [None])) ONone
      | Some s => lift (add_ref m s) (fun m => Next (set_handles (set_mem st m) (handles st ++ [Some s])) (OSlot s))
      end
  | UDisconnectAll g =>
      if sig_live m g then lift (disconnect_all m g) (fun m => Next (set_mem st m) ONone) else Disabled
  | UNumSlots g =>
      if sig_live m g then lift (num_slots m g) (fun n => Next st (OCount n)) else Disabled
  | USwap a b =>
      if sig_live m a && sig_live m b then lift (swap_sigs m a b) (fun m => Next (set_mem st m) ONone) else Disabled
  | UMove g =>
      if sig_live m g then lift (move_sig m g) (fun m => Next (set_mem st m) ONone) else Disabled
  | UDestroy g =>
      if sig_live m g then lift (destroy_sig m g) (fun m => Next (set_mem st m) ONone) else Disabled
  | UReturn =>
      match th_stack th with
      | FEmit e :: rest => Next (set_thread st t (mkthread (th_tls th) (FEmit (at_phase e PAdvance) :: rest))) ONone
      | _ => Disabled
      end
  | UThrow =>
      (* the reference in [current] is not released *)
      match th_stack th with
      | FEmit e :: rest =>
          let st := set_thread st t (mkthread (th_tls th)
                      (FEmit (mkem (e_id e) (e_sig e) None (e_last e) (e_prev e) PLast) :: rest)) in
          Next (mkstate (mm st) (threads st) (handles st) (blockers st)
                  (match e_cur e with Some c => c :: lost st | None => lost st end) (fresh st)) ONone
      | _ => Disabled
      end
  end.

(** The next step of the library call on top of thread [t]'s stack. *)
Definition tau_step (st : state) (t : nat) (th : thread) : result :=
  let m := mm st in
  let go (m : mem) (tl : tls) (fs : list frame) (o : obs) := Next (set_thread (set_mem st m) t (mkthread tl fs)) o in
  match th_stack th with
  | [] => Disabled
  | FDisc s DExchange :: rest =>
      lift (get_slot m s) (fun x =>
      lift (rebind m s None) (fun m =>
        go m (th_tls th) (FDisc s (match s_sender x with Some g => DRegion g | None => DRelease end) :: rest) ONone))
  | FDisc s (DRegion g) :: rest =>
      lift (disconnect_id m g s) (fun m => go m (th_tls th) (FDisc s DRelease :: rest) ONone)
  | FDisc s DRelease :: rest =>
      lift (release m s) (fun m => go m (th_tls th) rest ONone)
  | FEmit e :: rest =>
      match e_phase e, e_cur e with
      | PInSlot, _ => Disabled
      | PBlocked, Some c =>
          lift (get_slot m c) (fun x =>
            go m (th_tls th) (FEmit (at_phase e (if blocked x then PAdvance else PValid)) :: rest) ONone)
      | PValid, Some c =>
          lift (get_slot m c) (fun x =>
            go m (th_tls th) (FEmit (at_phase e (if valid x then PCall else PAdvance)) :: rest) ONone)
      | PCall, Some c =>
          lift (get_slot m c) (fun _ =>
            go m (mktls (t_stopped (th_tls th)) (Some c)) (FEmit (at_phase e PInSlot) :: rest) (OCalled (e_id e) c))
      | PAdvance, Some c =>
          let is_last := is_slot (e_last e) c in
          if is_last || t_stopped (th_tls th) then
            go m (th_tls th) (FEmit (at_phase e (PRelease None true)) :: rest) ONone
          else
            lift (get_sig m (e_sig e)) (fun _ =>
            lift (get_slot m c) (fun x =>
            lift (add_ref_opt m (s_next x)) (fun m =>
              go m (th_tls th) (FEmit (at_phase e (PRelease (s_next x) false)) :: rest) ONone)))
      | PRelease next brk, Some c =>
          lift (release m c) (fun m =>
            go m (th_tls th)
               (FEmit (mkem (e_id e) (e_sig e) next (e_last e) (e_prev e)
                  (if brk || negb (is_some next) then PLast else PBlocked)) :: rest) ONone)
      | PLast, _ =>
          lift (release_opt m (e_last e)) (fun m => go m (th_tls th) (FEmit (at_phase e PFinish) :: rest) ONone)
      | PFinish, _ =>
          lift (get_sig m (e_sig e)) (fun r =>
          lift (set_active m (e_sig e) (g_active r - 1)) (fun m =>
          lift (if Nat.eqb (g_active r) 1 then cleanup m (e_sig e) else Ok m) (fun m =>
            go m (e_prev e) rest (OEnded (e_id e)))))
      | _, None => Crash
      end
  end.

Definition step (st : state) (t : nat) (l : label) : result :=
  match nth_error (threads st) t with
  | None => Disabled
  | Some th =>
      match l with
      | User o => if user_ready th then user_step st t th o else Disabled
      | Tau => tau_step st t th
      end
  end.

(** [n] threads, no signal. *)
Definition init (n : nat) : state :=
  mkstate (mkmem [] []) (repeat (mkthread (mktls false None) []) n) [] [] [] 0.
