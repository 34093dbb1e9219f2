(** What the threads of signal.hpp do to memory, and in which order.

    The machine of SignalModel again, every function now also lists its accesses:
    the atomic members with the memory order written in the code, the plain
    members of slots and signals, the regions under [mutex_], allocation and
    deletion.  That it is the same machine is proved (SignalRaceEraseProofs).

    User code: an operation on a [connection] or [blocker] object begins and ends
    with [EBeg] and [EFin], marked [true] when it changes the object.  Callers must
    order changes of one object with all other operations on it, as for any
    standard type; concurrent reading is allowed.  Creating a signal ends with
    [EFin (OSig g) true], using it directly begins with [EBeg (OSig g) false]: the
    creation of a signal must be ordered before its direct uses.  Nothing is
    assumed to order uses with each other or with the destruction.

    Simplifications: as in SignalModel, a region under [mutex_] is one step and
    atomic accesses happen one after the other; the whole construction of a slot
    ([count_] set to 1 included) is one event.  The thread-local record is not
    shared and has no events.  [disconnect()] ends its use of the connection object
    when it starts with the slot. *)
From Coq Require Import List Arith Bool.
From Verif Require Import Base SignalModel.
Import ListNotations.

Inductive order := Relaxed | Acquire | Release | AcqRel.

(** The atomic members of a slot. *)
Inductive cell :=
| Count (s : nat)      (** [count_]; signal.hpp:41 *)
| Sender (s : nat)     (** [sender_]; 97 *)
| Blocking (s : nat).  (** [blocking_]; 100 *)

(** Objects user code synchronises the use of. *)
Inductive object := OConn (h : nat) | OBlocker (b : nat) | OSig (g : nat).

Inductive change := Add | Sub | Put.

Inductive access :=
| ENew (s : nat)                             (** [new slot]; 461 *)
| EFree (s : nat)                            (** [delete]; 37 *)
| ENext (s : nat) (write : bool)             (** [next] *)
| ETarget (s : nat)                          (** [target] *)
| ELoad (c : cell) (o : order)
| EStore (c : cell) (o : order)
| ERmw (c : cell) (o : order) (f : change)   (** fetch_add, fetch_sub, exchange *)
| ESigNew (g : nat)                          (** a signal is constructed *)
| ESigDel (g : nat)                          (** its members are destroyed *)
| ESig (g : nat) (write : bool)              (** [slots_], [tail_], [active_emissions_], [deferred_cleanup_] *)
| ELock (g : nat)
| EUnlock (g : nat)
| EBeg (b : object) (write : bool)
| EFin (b : object) (write : bool).

(** The memory orders the code chooses. *)
Record orders := mkorders {
  o_add : order;      (** add_ref; 33 *)
  o_sub : order;      (** release; 36 *)
  o_block : order;    (** block, unblock, blocked; 57-72 *)
  o_load : order;     (** connected, valid; 74-77, 86-89 *)
  o_xchg : order;     (** disconnect; 81 *)
  o_store : order     (** rebind; 807 *)
}.
Definition kl_orders : orders := mkorders Relaxed AcqRel Relaxed Acquire AcqRel Release.

(* ------------------------------------------------------- results with accesses *)

Definition logged (A : Type) : Type := (list access * outcome A)%type.
Definition ret {A} (a : A) : logged A := ([], Ok a).
Definition pure {A} (r : outcome A) : logged A := ([], r).
Definition log {A} (es : list access) (r : outcome A) : logged A := (es, r).
Definition lbind {A B} (x : logged A) (k : A -> logged B) : logged B :=
  match snd x with
  | Ok a => (fst x ++ fst (k a), snd (k a))
  | Throws => (fst x, Throws)
  | UB => (fst x, UB)
  end.
Declare Scope logged_scope.
Delimit Scope logged_scope with logged.
Notation "x <- m ;; k" := (lbind m (fun x => k)) (at level 61, m at next level, right associativity) : logged_scope.
Notation "m >>> k" := (lbind (log m (Ok tt)) (fun _ => k)) (at level 61, right associativity) : logged_scope.
Local Open Scope logged_scope.

Section Orders.
Variable md : orders.

(* --------------------------------------------------------------- slots *)

(** signal.hpp:33. *)
Definition ladd_ref (m : mem) (s : nat) : logged mem := log [ERmw (Count s) (o_add md) Add] (add_ref m s).

(** signal.hpp:34-38. *)
Definition lrelease (m : mem) (s : nat) : logged mem :=
  x <- pure (get_slot m s) ;;
  log (ERmw (Count s) (o_sub md) Sub :: if Nat.eqb (s_refs x) 1 then [EFree s] else []) (release m s).

Definition ladd_ref_opt (m : mem) (o : option nat) : logged mem :=
  match o with Some s => ladd_ref m s | None => ret m end.
Definition lrelease_opt (m : mem) (o : option nat) : logged mem :=
  match o with Some s => lrelease m s | None => ret m end.

(** signal.hpp:805-808. *)
Definition lrebind (m : mem) (s : nat) (parent : option nat) : logged mem :=
  log [EStore (Sender s) (o_store md)] (rebind m s parent).

(** signal.hpp:57-67. *)
Definition lblock_opt (m : mem) (o : option nat) : logged mem :=
  match o with Some s => log [ERmw (Blocking s) (o_block md) Add] (block m s) | None => ret m end.
Definition lunblock_opt (m : mem) (o : option nat) : logged mem :=
  match o with Some s => log [ERmw (Blocking s) (o_block md) Sub] (unblock m s) | None => ret m end.

Definition lset_next (m : mem) (s : nat) (n : option nat) : logged mem := log [ENext s true] (set_next m s n).
Definition lnext (m : mem) (s : nat) : logged slot := log [ENext s false] (get_slot m s).

(* ------------------------------------------------ signals, under mutex_ *)

Definition lsig (m : mem) (g : nat) : logged sigrec := log [ESig g false] (get_sig m g).
Definition lset_head (m : mem) (g : nat) (h : option nat) : logged mem := log [ESig g true] (set_head m g h).
Definition lset_tail (m : mem) (g : nat) (t : option nat) : logged mem := log [ESig g true] (set_tail m g t).
Definition lset_active (m : mem) (g : nat) (n : nat) : logged mem := log [ESig g true] (set_active m g n).
Definition lset_deferred (m : mem) (g : nat) (b : bool) : logged mem := log [ESig g true] (set_deferred m g b).

(** signal.hpp:826-845. *)
Definition linsert_new_slot (m : mem) (g s : nat) (at_front : bool) : logged mem :=
  r <- lsig m g ;;
  match g_head r with
  | None => m <- lset_head m g (Some s) ;; lset_tail m g (Some s)
  | Some h =>
      if at_front then
        m <- lset_next m s (Some h) ;; lset_head m g (Some s)
      else
        match g_tail r with
        | None => pure UB
        | Some t => m <- lset_next m t (Some s) ;; lset_tail m g (Some s)
        end
  end.

(** signal.hpp:847-859. *)
Definition lremove_slot (m : mem) (g s : nat) (prev : option nat) : logged (mem * option nat) :=
  r <- lsig m g ;;
  if negb (Nat.eqb (g_active r) 0) then pure UB
  else
    x <- lnext m s ;;
    let next := s_next x in
    m <- match prev with
         | Some p => lset_next m p next
         | None => if is_slot (g_head r) s then lset_head m g next else ret m
         end ;;
    r <- lsig m g ;;
    m <- (if is_slot (g_tail r) s
          then lset_tail m g (match prev with Some p => Some p | None => g_head r end)
          else ret m) ;;
    m <- lrelease m s ;;
    ret (m, next).

(** signal.hpp:730-747. *)
Fixpoint ldisconnect_loop (fuel : nat) (m : mem) (g id : nat) (iter prev : option nat) : logged mem :=
  match fuel with
  | O => pure UB
  | S fuel' =>
      match iter with
      | None => ret m
      | Some i =>
          if Nat.eqb i id then
            m <- lrebind m i None ;;
            r <- lsig m g ;;
            if Nat.eqb (g_active r) 0 then
              p <- lremove_slot m g i prev ;; ret (fst p)
            else lset_deferred m g true
          else
            x <- lnext m i ;;
            ldisconnect_loop fuel' m g id (s_next x) iter
      end
  end.

(** signal.hpp:726-748. *)
Definition ldisconnect_id (m : mem) (g id : nat) : logged mem :=
  [ELock g] >>>
  r <- lsig m g ;;
  m <- ldisconnect_loop (S (List.length (heap m))) m g id (g_head r) None ;;
  [EUnlock g] >>> ret m.

(** signal.hpp:662-675. *)
Fixpoint ldisconnect_all_loop (fuel : nat) (m : mem) (g : nat) (can_remove : bool) (iter prev : option nat) : logged mem :=
  match fuel with
  | O => pure UB
  | S fuel' =>
      match iter with
      | None => ret m
      | Some i =>
          m <- lrebind m i None ;;
          if can_remove then
            p <- lremove_slot m g i prev ;;
            ldisconnect_all_loop fuel' (fst p) g can_remove (snd p) prev
          else
            m <- lset_deferred m g true ;;
            x <- lnext m i ;;
            ldisconnect_all_loop fuel' m g can_remove (s_next x) iter
      end
  end.

(** signal.hpp:658-676. *)
Definition ldisconnect_all (m : mem) (g : nat) : logged mem :=
  [ELock g] >>>
  r <- lsig m g ;;
  m <- ldisconnect_all_loop (S (List.length (heap m))) m g (Nat.eqb (g_active r) 0) (g_head r) None ;;
  [EUnlock g] >>> ret m.

(** signal.hpp:683-687. *)
Fixpoint lnum_slots_loop (fuel : nat) (m : mem) (iter : option nat) (sum : nat) : logged nat :=
  match fuel with
  | O => pure UB
  | S fuel' =>
      match iter with
      | None => ret sum
      | Some i =>
          [ELoad (Sender i) (o_load md)] >>>
          x <- lnext m i ;; lnum_slots_loop fuel' m (s_next x) (if valid x then S sum else sum)
      end
  end.

(** signal.hpp:679-689. *)
Definition lnum_slots (m : mem) (g : nat) : logged nat :=
  [ELock g] >>>
  r <- lsig m g ;;
  n <- lnum_slots_loop (S (List.length (heap m))) m (g_head r) 0 ;;
  [EUnlock g] >>> ret n.

(** signal.hpp:773-784. *)
Fixpoint lcleanup_loop (fuel : nat) (m : mem) (g : nat) (iter prev : option nat) : logged mem :=
  match fuel with
  | O => pure UB
  | S fuel' =>
      match iter with
      | None => ret m
      | Some i =>
          x <- log [ELoad (Sender i) (o_load md)] (get_slot m i) ;;
          if valid x then y <- lnext m i ;; lcleanup_loop fuel' m g (s_next y) iter
          else p <- lremove_slot m g i prev ;; lcleanup_loop fuel' (fst p) g (snd p) prev
      end
  end.

(** signal.hpp:761-786. *)
Definition lcleanup (m : mem) (g : nat) : logged mem :=
  r <- lsig m g ;;
  if negb (g_deferred r) then ret m
  else if negb (Nat.eqb (g_active r) 0) then lset_deferred m g true
  else
    m <- lcleanup_loop (S (List.length (heap m))) m g (g_head r) None ;;
    lset_deferred m g false.

(** signal.hpp:755-758. *)
Fixpoint lrebind_loop (fuel : nat) (m : mem) (g : nat) (iter : option nat) : logged mem :=
  match fuel with
  | O => pure UB
  | S fuel' =>
      match iter with
      | None => ret m
      | Some i => m <- lrebind m i (Some g) ;; x <- lnext m i ;; lrebind_loop fuel' m g (s_next x)
      end
  end.

(** signal.hpp:750-759. *)
Definition lrebind_all (m : mem) (g : nat) : logged mem :=
  m <- lcleanup m g ;;
  r <- lsig m g ;;
  lrebind_loop (S (List.length (heap m))) m g (g_head r).

(** signal.hpp:700-714. *)
Definition lswap_sigs (m : mem) (a b : nat) : logged mem :=
  if Nat.eqb a b then ret m
  else
    [ELock a; ELock b] >>>
    ra <- lsig m a ;;
    rb <- lsig m b ;;
    if negb (Nat.eqb (g_active ra) 0 && Nat.eqb (g_active rb) 0) then pure Throws
    else
      let m := put_sig m a (mksig true (g_head rb) (g_tail rb) (g_active ra) (g_deferred rb)) in
      let m := put_sig m b (mksig true (g_head ra) (g_tail ra) (g_active rb) (g_deferred ra)) in
      [ESig a true; ESig b true] >>>
      m <- lrebind_all m a ;;
      m <- lrebind_all m b ;;
      [EUnlock a; EUnlock b] >>> ret m.

(** signal.hpp:421-433. *)
Definition lmove_sig (m : mem) (a : nat) : logged mem :=
  let n := List.length (sigs m) in
  [ESigNew n; ELock a] >>>
  ra <- lsig m a ;;
  if negb (Nat.eqb (g_active ra) 0) then pure Throws
  else
    let m := put_sig m a (mksig true None None (g_active ra) false) in
    let m := mkmem (heap m) (sigs m ++ [mksig true (g_head ra) (g_tail ra) 0 (g_deferred ra)]) in
    [ESig a true; ESig n true; EUnlock a; ELock n] >>>
    m <- lrebind_all m n ;;
    [EUnlock n; EFin (OSig n) true] >>> ret m.

(** signal.hpp:410. *)
Definition ldestroy_sig (m : mem) (g : nat) : logged mem :=
  m <- ldisconnect_all m g ;;
  r <- pure (get_sig m g) ;;
  log [ESigDel g] (Ok (put_sig m g (mksig false (g_head r) (g_tail r) (g_active r) (g_deferred r)))).

(** signal.hpp:456-464. *)
Definition lconnect (m : mem) (g : nat) (at_front : bool) : logged (mem * nat) :=
  let s := List.length (heap m) in
  let m := mkmem (heap m ++ [mkslot true 1 (Some g) 0 None]) (sigs m) in
  [ELock g; ENew s] >>>
  m <- linsert_new_slot m g s at_front ;;
  m <- ladd_ref m s ;;
  [EUnlock g] >>> ret (m, s).

(* --------------------------------------------------------------- steps *)

Definition ldone {A} (x : logged A) (k : A -> result) : list access * result := (fst x, lift (snd x) k).
Definition silent (r : result) : list access * result := ([], r).

(** Using the object, here in mode [w], from [EBeg] to [EFin]. *)
Definition with_obj {A} (b : object) (w : bool) (x : logged A) : logged A :=
  [EBeg b w] >>> a <- x ;; [EFin b w] >>> ret a.
(** Using a signal directly. *)
Definition direct {A} (g : nat) (x : logged A) : logged A := [EBeg (OSig g) false] >>> x.

(** One user operation of thread [t], whose state is [th]. *)
Definition luser_step (st : state) (t : nat) (th : thread) (o : op) : list access * result :=
  let m := mm st in
  let nh := List.length (handles st) in
  let nb := List.length (blockers st) in
  match o with
  | UNewSignal =>
      ldone (log [ESigNew (List.length (sigs m)); EFin (OSig (List.length (sigs m))) true] (Ok tt)) (fun _ =>
        Next (set_mem st (mkmem (heap m) (sigs m ++ [new_sig]))) ONone)
  | UConnect g at_front =>
      if sig_live m g then
        ldone (direct g (p <- lconnect m g at_front ;; [EFin (OConn nh) true] >>> ret p)) (fun p =>
          Next (set_handles (set_mem st (fst p)) (handles st ++ [Some (snd p)])) (OSlot (snd p)))
      else silent Disabled
  | UCopy h =>
      match nth_error (handles st) h with
      | Some c =>
          ldone (m <- with_obj (OConn h) false (ladd_ref_opt m c) ;; [EFin (OConn nh) true] >>> ret m)
            (fun m => Next (set_handles (set_mem st m) (handles st ++ [c])) ONone)
      | None => silent Disabled
      end
  | UAssign h h' =>
      match nth_error (handles st) h, nth_error (handles st) h' with
      | Some c, Some c' =>
          if Nat.eqb h h' then silent (Next st ONone)
          else ldone (with_obj (OConn h) true (with_obj (OConn h') false (m <- lrelease_opt m c ;; ladd_ref_opt m c'))) (fun m =>
                 Next (set_handles (set_mem st m) (upd (handles st) h c')) ONone)
      | _, _ => silent Disabled
      end
  | UDrop h =>
      match nth_error (handles st) h with
      | Some c =>
          ldone (with_obj (OConn h) true (lrelease_opt m c)) (fun m =>
            Next (set_handles (set_mem st m) (upd (handles st) h None)) ONone)
      | None => silent Disabled
      end
  | UDisconnect h =>
      match nth_error (handles st) h with
      | Some None => silent (Next st ONone)
      | Some (Some s) =>
          ldone (with_obj (OConn h) true (ret tt)) (fun _ =>
          Next (set_thread (set_handles st (upd (handles st) h None)) t
                  (mkthread (th_tls th) (FDisc s DExchange :: th_stack th))) ONone)
      | None => silent Disabled
      end
  | UConnected h =>
      match nth_error (handles st) h with
      | Some None => silent (Next st (OBool false))
      | Some (Some s) =>
          ldone (with_obj (OConn h) false (log [ELoad (Sender s) (o_load md)] (get_slot m s))) (fun x => Next st (OBool (valid x)))
      | None => silent Disabled
      end
  | UBlock h =>
      match nth_error (handles st) h with
      | Some c =>
          ldone (m <- with_obj (OConn h) false (m <- ladd_ref_opt m c ;; lblock_opt m c) ;; [EFin (OBlocker nb) true] >>> ret m) (fun m =>
            Next (set_blockers (set_mem st m) (blockers st ++ [c])) ONone)
      | None => silent Disabled
      end
  | UCopyBlocker b =>
      match nth_error (blockers st) b with
      | Some c =>
          ldone (m <- with_obj (OBlocker b) false (m <- ladd_ref_opt m c ;; lblock_opt m c) ;; [EFin (OBlocker nb) true] >>> ret m) (fun m =>
            Next (set_blockers (set_mem st m) (blockers st ++ [c])) ONone)
      | None => silent Disabled
      end
  | UMoveHandle h =>
      match nth_error (handles st) h with
      | Some c =>
          ldone (_ <- with_obj (OConn h) true (ret tt) ;; [EFin (OConn nh) true] >>> ret tt) (fun _ =>
            Next (set_handles st (upd (handles st) h None ++ [c])) ONone)
      | None => silent Disabled
      end
  | USwapHandles h h' =>
      match nth_error (handles st) h, nth_error (handles st) h' with
      | Some c, Some c' =>
          ldone (with_obj (OConn h) true (with_obj (OConn h') true (ret tt))) (fun _ =>
            Next (set_handles st (upd (upd (handles st) h c') h' c)) ONone)
      | _, _ => silent Disabled
      end
  | UAssignBlocker b b' =>
      match nth_error (blockers st) b, nth_error (blockers st) b' with
      | Some c, Some c' =>
          if Nat.eqb b b' then silent (Next st ONone)
          else ldone (with_obj (OBlocker b) true (with_obj (OBlocker b') false
                  (m <- lunblock_opt m c ;; m <- lrelease_opt m c ;; m <- ladd_ref_opt m c' ;; lblock_opt m c'))) (fun m =>
                 Next (set_blockers (set_mem st m) (upd (blockers st) b c')) ONone)
      | _, _ => silent Disabled
      end
  | UMoveBlocker b =>
      match nth_error (blockers st) b with
      | Some c =>
          ldone (_ <- with_obj (OBlocker b) true (ret tt) ;; [EFin (OBlocker nb) true] >>> ret tt) (fun _ =>
            Next (set_blockers st (upd (blockers st) b None ++ [c])) ONone)
      | None => silent Disabled
      end
  | USwapBlockers b b' =>
      match nth_error (blockers st) b, nth_error (blockers st) b' with
      | Some c, Some c' =>
          ldone (with_obj (OBlocker b) true (with_obj (OBlocker b') true (ret tt))) (fun _ =>
            Next (set_blockers st (upd (upd (blockers st) b c') b' c)) ONone)
      | _, _ => silent Disabled
      end
  | UDropBlocker b =>
      match nth_error (blockers st) b with
      | Some c =>
          ldone (with_obj (OBlocker b) true (m <- lunblock_opt m c ;; lrelease_opt m c)) (fun m =>
            Next (set_blockers (set_mem st m) (upd (blockers st) b None)) ONone)
      | None => silent Disabled
      end
  | UEmit g =>
      if sig_live m g then
        ldone (direct g (
          [ELock g] >>>
          r <- lsig m g ;;
          m <- lset_active m g (g_active r + 1) ;;
          m <- ladd_ref_opt m (g_tail r) ;;
          m <- ladd_ref_opt m (g_head r) ;;
          [EUnlock g] >>> ret (r, m))) (fun p =>
          let r := fst p in
          let e := mkem (fresh st) g (g_head r) (g_tail r) (th_tls th)
                     (if is_some (g_head r) then PBlocked else PLast) in
          let st := set_mem st (snd p) in
          let st := set_thread st t (mkthread (mktls false (t_current (th_tls th))) (FEmit e :: th_stack th)) in
          Next (mkstate (mm st) (threads st) (handles st) (blockers st) (lost st) (S (fresh st))) (OStarted (e_id e)))
      else silent Disabled
  | UStop => silent (Next (set_thread st t (mkthread (mktls true (t_current (th_tls th))) (th_stack th))) ONone)
  | UCurrent =>
      match t_current (th_tls th) with
      | None => ldone (log [EFin (OConn nh) true] (Ok tt)) (fun _ => Next (set_handles st (handles st ++ [None])) ONone)
      | Some s =>
          ldone (m <- ladd_ref m s ;; [EFin (OConn nh) true] >>> ret m) (fun m =>
            Next (set_handles (set_mem st m) (handles st ++ [Some s])) (OSlot s))
      end
  | UDisconnectAll g =>
      if sig_live m g then ldone (direct g (ldisconnect_all m g)) (fun m => Next (set_mem st m) ONone) else silent Disabled
  | UNumSlots g =>
      if sig_live m g then ldone (direct g (lnum_slots m g)) (fun n => Next st (OCount n)) else silent Disabled
  | USwap a b =>
      if sig_live m a && sig_live m b then
        ldone (direct a (direct b (lswap_sigs m a b))) (fun m => Next (set_mem st m) ONone)
      else silent Disabled
  | UMove g =>
      if sig_live m g then ldone (direct g (lmove_sig m g)) (fun m => Next (set_mem st m) ONone) else silent Disabled
  | UDestroy g =>
      if sig_live m g then ldone (direct g (ldestroy_sig m g)) (fun m => Next (set_mem st m) ONone) else silent Disabled
  | UReturn =>
      match th_stack th with
      | FEmit e :: rest => silent (Next (set_thread st t (mkthread (th_tls th) (FEmit (at_phase e PAdvance) :: rest))) ONone)
      | _ => silent Disabled
      end
  | UThrow =>
      match th_stack th with
      | FEmit e :: rest =>
          let st := set_thread st t (mkthread (th_tls th)
                      (FEmit (mkem (e_id e) (e_sig e) None (e_last e) (e_prev e) PLast) :: rest)) in
          silent (Next (mkstate (mm st) (threads st) (handles st) (blockers st)
                  (match e_cur e with Some c => c :: lost st | None => lost st end) (fresh st)) ONone)
      | _ => silent Disabled
      end
  end.

(** The next step of the library call on top of thread [t]'s stack. *)
Definition ltau_step (st : state) (t : nat) (th : thread) : list access * result :=
  let m := mm st in
  let go (m : mem) (tl : tls) (fs : list frame) (o : obs) := Next (set_thread (set_mem st m) t (mkthread tl fs)) o in
  match th_stack th with
  | [] => silent Disabled
  | FDisc s DExchange :: rest =>
      ldone (x <- pure (get_slot m s) ;;
             m <- log [ERmw (Sender s) (o_xchg md) Put] (rebind m s None) ;; ret (x, m)) (fun p =>
        go (snd p) (th_tls th) (FDisc s (match s_sender (fst p) with Some g => DRegion g | None => DRelease end) :: rest) ONone)
  | FDisc s (DRegion g) :: rest =>
      ldone (ldisconnect_id m g s) (fun m => go m (th_tls th) (FDisc s DRelease :: rest) ONone)
  | FDisc s DRelease :: rest =>
      ldone (lrelease m s) (fun m => go m (th_tls th) rest ONone)
  | FEmit e :: rest =>
      match e_phase e, e_cur e with
      | PInSlot, _ => silent Disabled
      | PBlocked, Some c =>
          ldone (log [ELoad (Blocking c) (o_block md)] (get_slot m c)) (fun x =>
            go m (th_tls th) (FEmit (at_phase e (if blocked x then PAdvance else PValid)) :: rest) ONone)
      | PValid, Some c =>
          ldone (log [ELoad (Sender c) (o_load md)] (get_slot m c)) (fun x =>
            go m (th_tls th) (FEmit (at_phase e (if valid x then PCall else PAdvance)) :: rest) ONone)
      | PCall, Some c =>
          ldone (log [ETarget c] (get_slot m c)) (fun _ =>
            go m (mktls (t_stopped (th_tls th)) (Some c)) (FEmit (at_phase e PInSlot) :: rest) (OCalled (e_id e) c))
      | PAdvance, Some c =>
          let is_last := is_slot (e_last e) c in
          if is_last || t_stopped (th_tls th) then
            silent (go m (th_tls th) (FEmit (at_phase e (PRelease None true)) :: rest) ONone)
          else
            ldone (_ <- pure (get_sig m (e_sig e)) ;;
                   [ELock (e_sig e)] >>>
                   x <- lnext m c ;;
                   m <- ladd_ref_opt m (s_next x) ;;
                   [EUnlock (e_sig e)] >>> ret (x, m)) (fun p =>
              go (snd p) (th_tls th) (FEmit (at_phase e (PRelease (s_next (fst p)) false)) :: rest) ONone)
      | PRelease next brk, Some c =>
          ldone (lrelease m c) (fun m =>
            go m (th_tls th)
               (FEmit (mkem (e_id e) (e_sig e) next (e_last e) (e_prev e)
                  (if brk || negb (is_some next) then PLast else PBlocked)) :: rest) ONone)
      | PLast, _ =>
          ldone (lrelease_opt m (e_last e)) (fun m => go m (th_tls th) (FEmit (at_phase e PFinish) :: rest) ONone)
      | PFinish, _ =>
          ldone ([ELock (e_sig e)] >>>
                 r <- lsig m (e_sig e) ;;
                 m <- lset_active m (e_sig e) (g_active r - 1) ;;
                 m <- (if Nat.eqb (g_active r) 1 then lcleanup m (e_sig e) else ret m) ;;
                 [EUnlock (e_sig e)] >>> ret m) (fun m => go m (e_prev e) rest (OEnded (e_id e)))
      | _, None => silent Crash
      end
  end.

(** Step [l] of thread [t] with its accesses. *)
Definition lstep (st : state) (t : nat) (l : label) : list access * result :=
  match nth_error (threads st) t with
  | None => silent Disabled
  | Some th =>
      match l with
      | User o => if user_ready th then luser_step st t th o else silent Disabled
      | Tau => ltau_step st t th
      end
  end.

End Orders.
