(** * Ops: the atomic operations.
    Each operation is one critical section of the library (everything done while
    one of the leaf mutexes global_context.mutex, tasks_mutex or
    semaphore::mutex_ is held), one access to an atomic variable, one lock or
    unlock of a longer held mutex, or one access to an object owned by the
    caller.  [atom h t o inp] is its effect when native thread [t] performs it;
    [inp] is supplied by the scheduler and resolves what C++ leaves open. *)
From Verif Require Import Types Core State.

Inductive waitres := WTask (k : task) | WExit | WSlept (tnow : Z).

Inductive op : Type -> Type :=
| ONop : op unit
| OUb : ub -> op unit                           (* undefined behaviour is reached *)
| OLog : (tid -> event) -> op unit
| ONow : op Z                                   (* clock::now() *)
(* registry *)
| OReg : option tid -> op id                    (* register_thread_impl, None = the calling thread *)
| OSetLoc : option id -> op unit                (* set_local_context *)
| OLoc : op (option id)                         (* has_local_context / get_local_context *)
| OMyId : op id                                 (* this_thread::get_id *)
| OUnreg : id -> op bool                        (* unregister_thread_impl up to the end of the locks *)
| OFind : id -> op bool                         (* contexts.find and copy of the shared_ptr *)
| ORelease : id -> op (list task)               (* destruction of that copy *)
| OGetAll : op (list id)
| OInitInc : op bool | OInitGet : op Z | OInitDec : op Z
| OSetMain : id -> op unit | OMainId : op id
| OCleanTry : Z -> op (option Z) | OCleanWake : Z -> op Z
(* contexts *)
| OPush : id -> task -> op unit
| OExitSet : id -> op unit
| OCount : id -> op Z
| OExit : op bool                               (* notified_for_exit *)
| ODepth : op Z
| OConfig : op unit
| OProc : id -> op waitres                      (* one round of process_all *)
| OTakeSleep : id -> op waitres                 (* wait / wait_for up to blocking *)
| OWake : id -> option Z -> op (bool * option task) (* wait / wait_for from waking up *)
| OEnd : id -> op unit                          (* end of process_one *)
(* native threads *)
| OSpawn : op tid | OThEnd : op unit | OJoin : tid -> op unit | ODetach : tid -> op unit
| OThGet : nat -> op (option tid * id) | OThPut : nat -> option tid * id -> op unit
(* semaphores, tokens, locks, mutexes *)
| OAddW : semid -> id -> op nat | ORemW : semid -> id -> op unit
| OTokQ : nat -> op bool | OTokSet : nat -> op unit
| ONotif : semid -> bool -> op (list waiter)
| OLock : lockid -> op unit | OUnlock : lockid -> op unit
| OTas : nat -> op bool | OOwn : nat -> op id | OSetOwn : nat -> id -> op unit | OClear : nat -> op unit
(* future states, promise objects, future objects *)
| ONewState : bool -> purpose -> op sid
| OReady : sid -> op bool | OHasErr : sid -> op bool
| OTrySet : sid -> outcome -> op (option (list callback))
| OAttach : sid -> callback -> op bool
| OGetVal : sid -> bool -> op res
| ORetr : sid -> op bool
| OPrmNew : sid -> op nat | OPrmGet : nat -> op (option sid) | OPrmPut : nat -> option sid -> op unit
| OPrmTake : nat -> op (option sid)
| OHndNew : bool -> option sid -> op nat | OHndFrom : bool -> sid -> op nat | OHndGet : nat -> op (bool * option sid)
| OHndTake : nat -> op (bool * option sid)
(* combinators *)
| OWNew : bool -> list nat -> op nat
| OWFill : nat -> nat -> op (bool * sid)
| OWThen : nat -> nat -> bool -> op unit
| OWProcess : nat -> op unit
| OWAll : nat -> nat -> sid -> sid -> op (option (sid * val))
| OWAny : nat -> nat -> sid -> sid -> op (option (sid * val))
| OWFinal : nat -> op (option (sid * val))
| OWMark : nat -> op unit
| OWHandle : nat -> op nat
| OWRel : nat -> op (option sid)
(* pools *)
| OPoolNew : nat -> op nat
| OPoolBind : nat -> nat -> op unit
| OPoolGet : nat -> op (option nat * option nat) | OPoolMove : nat -> nat -> op (option nat) | OPoolSent : nat -> nat -> op unit
| OPoolKill : nat -> op (option nat)
| OSentQ : option nat -> op bool
| OPLevel : nat -> nat -> op unit
| OPWorker : nat -> nat -> tid -> id -> op unit
| OPAdd : nat -> group -> task -> sid -> sid -> op nat
| OPWork : nat -> nat -> op (list (nat * id))
| OPChange : nat -> nat -> group -> op bool
| OPClear : nat -> nat -> bool -> op (option task)
| OPClearAll : nat -> op (list task)
| OPTake : nat -> nat -> op (option handle * option (nat * task))
| OPFind : nat -> nat -> op (option sid)
| OPFuts : nat -> op (list sid)
| OPCount : nat -> op nat
| OPMoveW : nat -> op (list (tid * id)).

Inductive ares (T : Type) := ABlock | AUb (u : ub) | AOk (h : heap) (x : T).
Arguments ABlock {T}. Arguments AUb {T} u. Arguments AOk {T} h x.

(** ** register_thread_impl, thread.cpp:104-140, and the shared_ptr returned *)
Definition do_reg (h : heap) (t n : tid) : heap * id :=
  let '(i, h1) :=
    match h_idmap h n with
    | Some i => if i =? invalid_id then (S (h_idgen h), put_idgen h (S (h_idgen h))) else (i, h)
    | None => (S (h_idgen h), put_idgen h (S (h_idgen h)))
    end in
  if mem i (h_regd h1) then
    (emit (upd_ctx h1 i (set_refs (h_ctxs h1 i) (t :: cx_refs (h_ctxs h1 i)))) (EvReg t n i false), i)
  else
    (emit (put_regd (put_idmap (upd_ctx h1 i (set_refs (new_ctx n) [t])) (upd (h_idmap h1) n (Some i)))
                    (i :: h_regd h1)) (EvReg t n i true), i).

(** ** unregister_thread_impl, thread.cpp:142-170: the map's reference becomes
    the local variable [context]. *)
Definition do_unreg (h : heap) (t : tid) (i : id) : heap * bool :=
  if mem i (h_regd h) then
    let c := h_ctxs h i in
    let r := rem i (h_regd h) in
    (emit (put_cleansig
             (put_regd (put_idmap (upd_ctx h i (set_refs c (t :: cx_refs c)))
                                  (upd (h_idmap h) (cx_native c) None)) r)
             (match r with [] => true | _ => h_cleansig h end)) (EvUnreg t i), true)
  else (h, false).

(** Destruction of a shared_ptr<thread_context> copy held by [t]; with the last
    one the context and the closures still queued are destroyed. *)
Definition do_release (h : heap) (t : tid) (i : id) : heap * list task :=
  let c := h_ctxs h i in
  let c' := set_refs c (rem1 t (cx_refs c)) in
  let h' := upd_ctx h i c' in
  if alive h' i then (h', []) else (emit h' (EvCtxGone i (ctx_pending c)), ctx_pending c).

(** Access to the context [i] that [t] reaches through local_data.  [process_one]
    re-reads local_data (thread.cpp:402-410); when the thread re-registered under
    another id in between, it would touch that context without its mutex. *)
Definition with_local {T} (h : heap) (t : tid) (i : id) (none : T) (k : ctx -> ares T) : ares T :=
  if alive h i then
    match h_loc h t with
    | None => AOk h none
    | Some j => if j =? i then k (h_ctxs h i) else AUb UbPrecondition
    end
  else AUb (UbDeadContext i).

(** process_one's locked first half, logging the start of the task. *)
Definition take_log (h : heap) (t : tid) (i : id) (k : task) (c : ctx) : heap :=
  emit (upd_ctx h i c) (EvStart t i k).

(** one round of the loop of process_all / process_all_for, thread.cpp:442-447, 455-460 *)
Definition do_proc (h : heap) (t : tid) (i : id) : ares waitres :=
  with_local h t i WExit (fun c =>
    if cx_exit c then AOk h WExit
    else match take_task c with
         | (Some k, c') => AOk (take_log h t i k c') (WTask k)
         | (None, c') => AOk (upd_ctx h i c') WExit
         end).

(** wait, thread.cpp:551-571 / wait_for, thread.cpp:509-528: from taking the lock to
    running a task, returning, or blocking on wakeup_event.  If local_data is
    null process_one returns false and notified_for_exit true. *)
Definition do_takesleep (h : heap) (t : tid) (i : id) : ares waitres :=
  with_local h t i WExit (fun c =>
    match take_task c with
    | (Some k, c') => AOk (take_log h t i k c') (WTask k)
    | (None, c') =>
        if cx_exit c' then AOk (upd_ctx h i c') WExit
        else AOk (emit (upd_ctx h i (start_sleep c')) (EvSleep t i)) (WSlept (h_now h))
    end).

(** wait, thread.cpp:571-575 / wait_for, thread.cpp:528-535: the blocked thread
    resumes because it was notified (or spuriously, [inp] > 0) and the predicate
    holds, or because the deadline has passed; it clears the flag and
    process_one takes a task. The result tells whether wait_for timed out. *)
Definition do_wake (h : heap) (t : tid) (i : id) (dl : option Z) (inp : nat) : ares (bool * option task) :=
  if alive h i then
    let c := h_ctxs h i in
    let timeup := match dl with Some d => Z.leb d (h_now h) | None => false end in
    if (cx_wakeup c && (cx_sig c || negb (inp =? 0))) || timeup then
      match h_loc h t with
      | None => AOk (upd_ctx h i (clear_wakeup c)) (negb (cx_wakeup c), None)
      | Some j =>
          if j =? i then
            match take_task (clear_wakeup c) with
            | (Some k, c') => AOk (take_log h t i k c') (negb (cx_wakeup c), Some k)
            | (None, c') => AOk (upd_ctx h i c') (negb (cx_wakeup c), None)
            end
          else AUb UbPrecondition
      end
    else ABlock
  else AUb (UbDeadContext i).

(** A leaf critical section on a mutex of [lockid]: it can only be entered when
    the mutex is free, and entering it while holding it is undefined. *)
Definition leaf {T} (h : heap) (t : tid) (l : lockid) (k : ares T) : ares T :=
  match h_locks h l with
  | None => k
  | Some t' => if t' =? t then AUb (UbRelock l) else ABlock
  end.

Fixpoint all_some {A} (l : list (option A)) : option (list A) :=
  match l with
  | [] => Some []
  | None :: _ => None
  | Some x :: r => option_map (cons x) (all_some r)
  end.

Definition fresh_thread (s : tstat) : bool := match s with TNew | TEnd false => true | _ => false end.

Definition atom (h : heap) (t : tid) {T} (o : op T) (inp : nat) : ares T :=
  match o in op T return ares T with
  | ONop => AOk h tt
  | OUb u => AUb u
  | OLog e => AOk (emit h (e t)) tt
  | ONow => AOk h (h_now h)
  (* ---- registry ---- *)
  | OReg on => let n := match on with Some n => n | None => t end in
               let '(h', i) := do_reg h t n in AOk h' i
  | OSetLoc l => AOk (emit (put_loc h (upd (h_loc h) t l)) (EvLoc t l)) tt (* thread.cpp:55-58 *)
  | OLoc => AOk h (h_loc h t)                                      (* 59-66 *)
  | OMyId =>                                                       (* 621-632: reads the id out of the context *)
      match h_loc h t with
      | Some i => if alive h i then AOk h i else AUb (UbDeadContext i)
      | None => AOk h invalid_id
      end
  | OUnreg i => let '(h', b) := do_unreg h t i in AOk h' b
  | OFind i =>                                                     (* 316-326, 255-265, 368-378 *)
      if mem i (h_regd h)
      then AOk (upd_ctx h i (set_refs (h_ctxs h i) (t :: cx_refs (h_ctxs h i)))) true
      else AOk h false
  | ORelease i => let '(h', ks) := do_release h t i in AOk h' ks
  | OGetAll => AOk h (h_regd h)                                    (* 232-245 *)
  | OInitInc => AOk (emit (put_initc h (h_initc h + 1)) (EvInit t (h_initc h + 1))) (Z.eqb (h_initc h) 0)  (* 175 *)
  | OInitGet => AOk h (h_initc h)                                  (* 190 *)
  | OInitDec => AOk (emit (put_initc h (h_initc h - 1)) (EvInit t (h_initc h - 1))) (h_initc h - 1)%Z       (* 196 *)
  | OSetMain i => AOk (emit (put_mainid h i) (EvMain t i)) tt                          (* 181-182 *)
  | OMainId => AOk h (h_mainid h)                                  (* 390-394 *)
  | OCleanTry d =>                                                 (* 208-216: predicate first, else block *)
      match h_regd h with
      | [] => AOk h None
      | _ => AOk (put_cleansig h false) (Some (h_now h + d))%Z
      end
  | OCleanWake dl =>                                               (* 216-229 *)
      match h_regd h with
      | [] => if h_cleansig h || negb (inp =? 0) || Z.leb dl (h_now h) then AOk h 0%Z else ABlock
      | _ => if Z.leb dl (h_now h) then AOk h (Z.of_nat (length (h_regd h))) else ABlock
      end
  (* ---- contexts ---- *)
  | OPush i k =>                                                   (* 380-385 *)
      if alive h i then AOk (emit (upd_ctx h i (push_task (h_ctxs h i) k)) (EvAccept t i k)) tt
      else AUb (UbDeadContext i)
  | OExitSet i =>                                                  (* 328-332 *)
      if alive h i then AOk (emit (upd_ctx h i (set_exit (h_ctxs h i))) (EvExitSet t i)) tt
      else AUb (UbDeadContext i)
  | OCount i =>                                                    (* 267-284 *)
      if alive h i then AOk h (pending_count (h_ctxs h i)) else AUb (UbDeadContext i)
  | OExit =>                                                       (* 597-609 *)
      match h_loc h t with
      | None => AOk h true
      | Some i => if alive h i then AOk h (cx_exit (h_ctxs h i)) else AUb (UbDeadContext i)
      end
  | ODepth =>                                                      (* 634-645 *)
      match h_loc h t with
      | None => AOk h 0%Z
      | Some i => if alive h i then AOk h (cx_depth (h_ctxs h i)) else AUb (UbDeadContext i)
      end
  | OConfig =>                                                     (* 730-733 *)
      match h_loc h t with
      | None => AUb UbNullContext
      | Some i => if alive h i then AOk h tt else AUb (UbDeadContext i)
      end
  | OProc i => do_proc h t i
  | OTakeSleep i => do_takesleep h t i
  | OWake i dl => do_wake h t i dl inp
  | OEnd i =>                                                      (* 428-431 *)
      if alive h i then AOk (emit (upd_ctx h i (end_task (h_ctxs h i))) (EvDone t i)) tt
      else AUb (UbDeadContext i)
  (* ---- native threads ---- *)
  | OSpawn =>                            (* std::thread constructor; the OS chooses the native id *)
      if fresh_thread (h_tst h inp) && negb (inp =? t)
      then AOk (emit (put_loc (put_tst h (upd (h_tst h) inp (TRun true))) (upd (h_loc h) inp None)) (EvSpawn t inp)) inp
      else ABlock
  | OThEnd =>
      AOk (emit (put_loc (put_tst h (upd (h_tst h) t (match h_tst h t with TRun j => TEnd j | s => s end)))
                         (upd (h_loc h) t None)) (EvThreadEnd t)) tt
  | OJoin n =>                                                     (* std::thread::join *)
      match h_tst h n with
      | TEnd _ => AOk (put_tst h (upd (h_tst h) n (TEnd false))) tt
      | _ => ABlock
      end
  | ODetach n =>                                                   (* std::thread::detach *)
      AOk (put_tst h (upd (h_tst h) n (match h_tst h n with TRun _ => TRun false | TEnd _ => TEnd false | s => s end))) tt
  | OThGet o => AOk h (h_tobj h o)
  | OThPut o x => AOk (emit (put_tobj h (upd (h_tobj h) o x)) (EvThObj t o (fst x) (snd x))) tt
  (* ---- semaphores, tokens, locks ---- *)
  | OAddW s i =>                                                   (* semaphore.cpp:156-176 *)
      match find_waiter (h_sems h s) i with
      | Some tk => AOk (emit h (EvWaiter t s i tk false)) tk
      | None =>
          let tk := h_ntok h in
          AOk (emit (put_ntok (put_toks (put_sems h (upds (h_sems h) s (h_sems h s ++ [(i, tk)])))
                                        (upd (h_toks h) tk false)) (S tk)) (EvWaiter t s i tk true)) tk
      end
  | ORemW s i =>                                                   (* 178-189 *)
      AOk (emit (put_sems h (upds (h_sems h) s (del_waiter (h_sems h s) i))) (EvUnwaiter t s i)) tt
  | OTokQ tk => AOk h (h_toks h tk)                                (* 19-23 *)
  | OTokSet tk => AOk (emit (put_toks h (upd (h_toks h) tk true)) (EvInterrupt t tk)) tt (* 13-17 *)
  | ONotif s all =>                                                (* 27-42 / 54-59 *)
      let ws := if all then h_sems h s else firstn 1 (h_sems h s) in
      let r := if all then [] else skipn 1 (h_sems h s) in
      AOk (emit (put_sems h (upds (h_sems h) s r)) (EvNotify t s all ws)) ws
  | OLock l =>
      match h_locks h l with
      | None => AOk (emit (put_locks h (updl (h_locks h) l (Some t))) (EvLock t l)) tt
      | Some t' => if t' =? t then AUb (UbRelock l) else ABlock
      end
  | OUnlock l =>
      match h_locks h l with
      | Some t' => if t' =? t then AOk (emit (put_locks h (updl (h_locks h) l None)) (EvUnlock t l)) tt else AUb (UbUnlock l)
      | None => AUb (UbUnlock l)
      end
  | OTas m =>                                                      (* mutex.hpp:27, 46 *)
      let '(f, o) := h_mxs h m in
      if f then AOk h true else AOk (emit (put_mxs h (upd (h_mxs h) m (true, o))) (EvMxAcq t m)) false
  | OOwn m => AOk h (snd (h_mxs h m))                              (* 30, 65 *)
  | OSetOwn m i => AOk (put_mxs h (upd (h_mxs h) m (fst (h_mxs h m), i))) tt (* 37, 51, 70 *)
  | OClear m => AOk (emit (put_mxs h (upd (h_mxs h) m (false, snd (h_mxs h m)))) (EvMxRel t m)) tt (* 71 *)
  (* ---- future states ---- *)
  | ONewState v u =>                                              (* future.hpp:242 *)
      AOk (emit (put_nfs (upd_fs h (h_nfs h) (new_fs v)) (S (h_nfs h))) (EvState t (h_nfs h) v u)) (h_nfs h)
  | OReady p => AOk h (fs_ready (h_fsts h p))                      (* future_state.hpp:32-35 *)
  | OHasErr p => AOk h (fs_has_error (h_fsts h p))                 (* 37-40 *)
  | OTrySet p o =>                                                 (* 46-60, 144-150, 180-185 *)
      if fs_ready (h_fsts h p) then AOk h None
      else let '(f, cbs) := fs_set (h_fsts h p) o in
           AOk (emit (upd_fs h p f) (EvReady t p o)) (Some cbs)
  | OAttach p cb =>                                                (* 76-83 *)
      leaf h t (LState p)
        (if fs_ready (h_fsts h p) then AOk (emit h (EvAttach t p cb)) false
         else AOk (emit (upd_fs h p (fs_attach (h_fsts h p) cb)) (EvAttach t p cb)) true)
  | OGetVal p take =>                                              (* 153-170, 188-191 *)
      let k :=
        (let r := fs_get (h_fsts h p) in
         AOk (emit (upd_fs h p (if take then fs_take (h_fsts h p) else h_fsts h p)) (EvGot t p r)) r) in
      if fs_void (h_fsts h p) then k else leaf h t (LState p) k    (* the void version does not take the guard *)
  | ORetr p =>                                                     (* future.hpp:235 *)
      AOk (emit (upd_fs h p (fs_retrieve (h_fsts h p))) (EvRetr t p (fs_retrieved (h_fsts h p)))) (fs_retrieved (h_fsts h p))
  | OPrmNew p => AOk (emit (put_nprm (put_prms h (upd (h_prms h) (h_nprm h) (Some p))) (S (h_nprm h))) (EvPrm t (h_nprm h) (Some p))) (h_nprm h)
  | OPrmGet pr => AOk h (h_prms h pr)
  | OPrmPut pr x =>                              (* the promise object assigned to exists *)
      if pr <? h_nprm h then AOk (emit (put_prms h (upd (h_prms h) pr x)) (EvPrm t pr x)) tt else AUb UbPrecondition
  | OPrmTake pr => AOk (emit (put_prms h (upd (h_prms h) pr None)) (EvPrm t pr None)) (h_prms h pr)
  | OHndNew sh p => AOk (emit (put_nhnd (put_hnds h (upd (h_hnds h) (h_nhnd h) (sh, p))) (S (h_nhnd h))) (EvHnd t (h_nhnd h) sh p)) (h_nhnd h)
  | OHndFrom sh p =>                             (* a future found in a value refers to an existing state *)
      if p <? h_nfs h then
        AOk (emit (put_nhnd (put_hnds h (upd (h_hnds h) (h_nhnd h) (sh, Some p))) (S (h_nhnd h))) (EvHnd t (h_nhnd h) sh (Some p))) (h_nhnd h)
      else AUb UbPrecondition
  | OHndGet n => AOk h (h_hnds h n)
  | OHndTake n => AOk (emit (put_hnds h (upd (h_hnds h) n (fst (h_hnds h n), None))) (EvHnd t n (fst (h_hnds h n)) None)) (h_hnds h n)
  (* ---- combinators ---- *)
  | OWNew a hs =>                                (* when_all_any.hpp:232-235, 275-276, 320-325, 398-400 *)
      match all_some (map (fun n => snd (h_hnds h n)) hs) with
      | None => AUb UbPrecondition
      | Some ins =>
          let p := h_nfs h in
          let h1 := put_nfs (upd_fs h p (fs_retrieve (new_fs false))) (S p) in
          AOk (emit (put_nw (upd_w h1 (h_nw h) (mkW (length hs) 0 0 false false None [] [] p 1)) (S (h_nw h)))
                    (EvWhen t a (h_nw h) p ins)) (h_nw h)
      end
  | OWFill w n =>                                                  (* 241, 332-333, 149-150, 158 *)
      match h_hnds h n with
      | (_, None) => AUb UbPrecondition
      | (sh, Some p) =>
          AOk (emit (put_hnds (upd_w h w (w_fill (h_wcs h w) p))
                              (if sh then h_hnds h else upd (h_hnds h) n (false, None)))
                    (EvHnd t n sh (if sh then Some p else None))) (negb sh, p)
      end
  | OWThen w i u => AOk (upd_w h w (w_then (h_wcs h w) i u)) tt              (* future.hpp:729, and the capture *)
  | OWProcess w => AOk (upd_w h w (w_process (h_wcs h w))) tt
  | OWAll w i p q => let '(x, v) := wall_step (h_wcs h w) i p in
                   AOk (emit (upd_w h w x) (EvHook t w i q)) (option_map (fun v => (w_prom x, v)) v)
  | OWAny w i p q => let '(x, v) := wany_step (h_wcs h w) i p in
                   AOk (emit (upd_w h w x) (EvHook t w i q)) (option_map (fun v => (w_prom x, v)) v)
  | OWFinal w => let '(x, v) := wany_final (h_wcs h w) in
                 AOk (upd_w h w x) (option_map (fun v => (w_prom x, v)) v)
  | OWMark w => AOk (upd_w h w (w_mark (h_wcs h w))) tt
  | OWHandle w =>                                                  (* result_future, 233, 278, 321, 413 *)
      AOk (emit (put_nhnd (put_hnds h (upd (h_hnds h) (h_nhnd h) (false, Some (w_prom (h_wcs h w))))) (S (h_nhnd h)))
                (EvHnd t (h_nhnd h) false (Some (w_prom (h_wcs h w))))) (h_nhnd h)
  | OWRel w =>
      let x := h_wcs h w in
      AOk (upd_w h w (w_setrefs x (Nat.pred (w_refs x)))) (if w_refs x =? 1 then Some (w_prom x) else None)
  (* ---- pools ---- *)
  | OPoolNew o =>                                                  (* thread_pool.cpp:293-297: the impl *)
      if match fst (h_pobj h o) with Some _ => true | None => false end then AUb UbPrecondition else
      AOk (put_npool (upd_pool h (h_npool h) no_pool) (S (h_npool h))) (h_npool h)
  | OPoolBind o pl =>                                              (* 296: impl_ assigned, thread_pool.h:212: sentinel_ *)
      if match fst (h_pobj h o) with Some _ => true | None => false end then AUb UbPrecondition else
      AOk (emit (put_nsent (put_sents (put_pobj h (upd (h_pobj h) o (Some pl, Some (h_nsent h))))
                   (upd (h_sents h) (h_nsent h) true)) (S (h_nsent h))) (EvPoolNew t o pl)) tt
  | OPoolGet o => AOk h (h_pobj h o)
  | OPoolMove d s =>                             (* thread_pool.h:148-149: impl_ of s to d; the impl d had is returned *)
      AOk (emit (put_pobj h (if d =? s then h_pobj h else
                  upd (upd (h_pobj h) s (None, snd (h_pobj h s))) d (fst (h_pobj h s), snd (h_pobj h d)))) (EvPoolMove t d s))
          (if d =? s then None else fst (h_pobj h d))
  | OPoolSent d s =>                                               (* the same for sentinel_ *)
      AOk (emit (if d =? s then h else
                  put_pobj (put_sents h (match snd (h_pobj h d) with Some x => upd (h_sents h) x false | None => h_sents h end))
                           (upd (upd (h_pobj h) s (fst (h_pobj h s), None)) d (fst (h_pobj h d), snd (h_pobj h s))))
                (EvPoolSent t d s)) tt
  | OPoolKill o =>                                                 (* members of thread_pool destroyed: sentinel_ first *)
      let '(im, se) := h_pobj h o in
      AOk (emit (put_pobj (put_sents h (match se with Some s => upd (h_sents h) s false | None => h_sents h end))
                          (upd (h_pobj h) o (None, None))) (EvPoolKill t o)) im
  | OSentQ s => AOk h (match s with Some s => h_sents h s | None => false end)  (* thread_pool.cpp:338, 351 *)
  | OPLevel pl lv =>                                               (* thread_pool.cpp:49 *)
      let p := h_pools h pl in
      AOk (upd_pool h pl (mkPool (pl_free p) (pl_workers p) (pl_jobs p) (qs_touch (pl_queues p) lv))) tt
  | OPWorker pl lv n i =>                                          (* 55 *)
      let p := h_pools h pl in
      AOk (emit (upd_pool h pl (mkPool (pl_free p) (pl_workers p ++ [(lv, (n, i))]) (pl_jobs p) (pl_queues p)))
                (EvWorker t pl lv n i)) tt
  | OPAdd pl g k p q =>                                            (* 85-92, 190 *)
      let '(x, j) := pool_add (h_pools h pl) g k q in
      AOk (emit (upd_pool h pl x) (EvJobAdd t pl j g p q)) j
  | OPWork pl lv => AOk h (workers_for (h_pools h pl) lv)          (* 194-213 *)
  | OPChange pl j g =>                                             (* 100-115, 190 *)
      let '(x, b) := pool_change (h_pools h pl) j g in
      AOk (if b then emit (upd_pool h pl x) (EvJobRegroup t pl j g) else h) b
  | OPClear pl j chk =>                                            (* 121-135 *)
      match pool_clear (h_pools h pl) j chk with
      | (x, Some jb) => AOk (emit (upd_pool h pl x) (EvJobErase t pl [j])) (Some (jb_callable jb))
      | (x, None) => AOk h None
      end
  | OPClearAll pl =>                                               (* 141-142 *)
      let js := pl_jobs (h_pools h pl) in
      AOk (emit (upd_pool h pl (pool_clear_all (h_pools h pl))) (EvJobClear t pl (map fst js)))
          (map (fun e => jb_callable (snd e)) js)
  | OPTake pl lv =>                                                (* 248-270 *)
      match pool_take (h_pools h pl) lv inp with
      | (x, r) => match pool_top (h_pools h pl) lv inp, r with
                  | Some d, Some (j, k) => AOk (emit (upd_pool h pl x) (EvJobTake t pl j lv (hd_group d))) (Some d, Some (j, k))
                  | d, r => AOk (emit (upd_pool h pl x) (EvJobSkip t pl lv (option_map (fun d => (hd_id d, hd_group d)) d))) (d, r)
                  end
      end
  | OPFind pl j =>                                                 (* 147-156 *)
      leaf h t (LPool pl) (AOk h (option_map jb_future (jobs_find (pl_jobs (h_pools h pl)) j)))
  | OPFuts pl =>                                                   (* 163-173 *)
      leaf h t (LPool pl) (AOk h (map (fun e => jb_future (snd e)) (pl_jobs (h_pools h pl))))
  | OPCount pl =>                                                  (* 181-185 *)
      leaf h t (LPool pl) (AOk h (length (pl_jobs (h_pools h pl))))
  | OPMoveW pl =>                                                  (* 72-76 *)
      leaf h t (LPool pl)
        (let p := h_pools h pl in
         AOk (emit (upd_pool h pl (mkPool (pl_free p) [] (pl_jobs p) (pl_queues p))) (EvWorkersOut t pl)) (map snd (pl_workers p)))
  end.
