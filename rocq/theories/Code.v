(** * Code: the control flow of the library.
    A thread runs a stack of frames.  A frame is a program point of one of the
    library's functions together with the values of its local variables; what a
    function does next when a callee has finished is either the frame below it
    or, where the callee's result matters, a continuation value carried by the
    callee's frame ([semk], [wk], [gk], [lk], [spk]).  [code f] performs exactly
    one atomic operation and replaces [f] by the frames to run next. *)
From Verif Require Import Types Core State Ops.

(** What the end of a user closure means. *)
Inductive ufin :=
| UPlain                                 (* plain task or thread function *)
| UPack (p : sid).                       (* apply_and_forward_as, future.hpp:586-606 *)

Definition fin_sid (f : ufin) : option sid := match f with UPlain => None | UPack p => Some p end.

(** After basic_state::wait / wait_for. *)
Inductive gk :=
| GApi | GFor                            (* return to the caller of wait / wait_for *)
| GGet (h : nat)                         (* inside get, future.hpp:303-308, 366-371, 444-448, 510-514 *)
| GList (ps : list sid).                 (* inside thread_pool wait_all, thread_pool.cpp:175-178 *)

(** After semaphore::wait / wait_for_impl. *)
Inductive semk :=
| KCv | KCvFor                           (* condition_variable.hpp:37-72 *)
| KState (p : sid) (dur : option Z) (g : gk) (* future_state.hpp:94-101, 109-120 *)
| KMx (m : nat) (i : id).                (* mutex.hpp:27-35 *)

(** After this_thread::wait / wait_for. *)
Inductive wk :=
| WApi | WApiFor                         (* return to the user *)
| WLoop                                  (* make_thread, thread.cpp:665-668 *)
| WOnce                                  (* future.hpp:707 *)
| WSleepFor (e : Z)                      (* sleep_for, thread.h:374-376; e = end_time *)
| WSem (s : semid) (l : option lockid) (i : id) (tk : nat) (e : option Z) (k : semk).
                                         (* semaphore.cpp:94-99, 140-147 *)

(** Inputs of a combinator still to be handled. *)
Inductive wrest := WrH (hs : list nat) | WrT (l : list (bool * sid)).
Inductive wkind := KAll | KAny (vec : bool).
Definition is_all (k : wkind) : bool := match k with KAll => true | KAny _ => false end.
(** After the critical section of a combinator. *)
Inductive wafter := WaRet | WaPack (q : sid).

(** After launch / invoke_packaged_task / dispatch. *)
Inductive lk :=
| LkUser                                 (* invoke / dispatch called by the user *)
| LkDisc                                 (* result ignored *)
| LkFire (p : sid) (rest : list callback) (lft : list task) (* set_ready, future_state.hpp:65-71 *)
| LkHnd (q : sid)                        (* async, then: return the future of q *)
| LkWhen (w : nat) (kd : wkind) (i : id) (idx : nat) (r : wrest). (* when_*: next input *)

(** After creating a native thread. *)
Inductive spk :=
| SpStd
| SpThread (o : nat)                     (* tpp::thread constructor, thread.h:30-40 *)
| SpAsync (pol : policy) (v : bool) (u : nat) (caps : list nat)          (* future.hpp:703-711 *)
| SpThen (h : nat) (pol : policy) (v : bool) (u : nat) (caps : list nat) (* 759-767 *)
| SpPool (pl lv n : nat) (r : list (nat * nat)).                         (* thread_pool.cpp:52-58 *)

(** Objects waiting to be destroyed. *)
Inductive ditem :=
| DTask (k : task) | DBody (b : body)
| DProm (p : sid)                        (* a promise with state p *)
| DCap (pr : nat)                        (* a user promise object captured by a closure *)
| DW (w : nat).                          (* a shared_context copy of a combinator *)

Inductive pact :=
| PaSched (g : group) (v : bool) (u : nat) (caps : list nat)
| PaChange (j : nat) (g : group) | PaStop (j : nat) | PaStopAll
| PaWait (j : nat) | PaWaitAll | PaCount.

Inductive frame :=
(* user code, API boundary, results, exceptions *)
| FUStart (u : nat) (a : option nat) (fin : ufin)
| FUser (u : nat) (fin : ufin)
| FApi (c : api)
| FRes (r : res)
| FThrow (e : exn)
| FNoexcept
| FUb (u : ub)
(* closures *)
| FRun (k : task)                        (* call of a std::function *)
| FDrop (k : task)                       (* local closure destroyed when the call is over *)
| FDestroy (l : list ditem)
| FPromDtor (p : sid)                    (* ~basic_promise, future.hpp:190-196 *)
| FPackVal (p : sid)                     (* package_future_task around a task, future.hpp:599-605 *)
| FPackGuard (p : sid)                   (* the try/catch of package_future_task, future.hpp:632-647 *)
| FSwallow                               (* the inner catch, future.hpp:644-646 *)
(* registry *)
| FRegSelf | FSetLoc (i : id) | FRel (i : id)
| FReg (n : tid)
| FUnreg | FUnreg1 (i : id) | FClearLoc
| FInit | FInit2 | FInit3 (i : id)
| FShut (d : Z) | FShut1 (d : Z) | FShut2 (d : Z) | FShut3 (l : list id) (d : Z) | FShut4 (dl : Z)
| FNExit (i : id) | FNExit1 (i : id)
| FCount (i : id) | FCount1 (i : id)
| FGetAll | FMainId | FMyId | FDepth | FIsReg | FExitQ
(* invoke, dispatch, launch *)
| FInvoke (i : id) (k : task) (c : lk) | FPush (i : id) (k : task) (c : lk)
| FDisp (i : id) (k : task) (c : lk)
| FLaunch (i : id) (pol : policy) (k : task) (c : lk)
| FLaunch1 (i : id) (pol : policy) (k : task) (c : lk)
(* processing and waiting *)
| FProcess | FProc (c : id)
| FProcessFor (d : Z) | FPf0 (c : id) (d : Z) | FPf (c : id) (tnow e : Z) | FPfNow (c : id) (e : Z)
| FPoEnd (c : id)
| FWaitUntil (z : Z) | FWaitFor (d : Z) (k : wk) | FWait (us : option Z) (k : wk)
| FWait1 (c : id) (us : option Z) (k : wk) | FSleep (c : id) (dl : option Z) (k : wk)
| FSleepUntil (z : Z) | FSleepFor (d : Z) | FSl (tnow e : Z) | FSlNow (e : Z)
(* threads *)
| FSpawn (b : tbody) (k : spk) | FSpReg (n : tid) (k : spk)
| FThPut (o : nat) (x : option tid * id) | FDetach (n : tid)
| FLoop | FEnd
| FJoin (n : tid)
| FThNew (o : nat) (b : tbody) | FThJoin (o : nat) | FThJoin1 (o : nat)
| FThDetach (o : nat) | FThMove (d s : nat) | FThMove1 (d s : nat) | FThMove2 (d s : nat) (x : option tid * id)
| FThAssign (d s : nat) | FThSwap (a b : nat) | FThSwap1 (a b : nat) (x : option tid * id)
| FThDtor (o : nat) | FThId (o : nat)
(* semaphores *)
| FSem (s : semid) (l : option lockid) (dur : option Z) (k : semk)
| FSemId (s : semid) (l : option lockid) (tm : option (Z * Z)) (k : semk)
| FSemAdd (s : semid) (l : option lockid) (i : id) (tm : option (Z * Z)) (k : semk)
| FSemTok (s : semid) (l : option lockid) (i : id) (tk : nat) (tm : option (Z * Z)) (st : bool) (k : semk)
| FSemExit (s : semid) (l : option lockid) (i : id) (tk : nat) (tm : option (Z * Z)) (st : bool) (k : semk)
| FSemGo (s : semid) (l : option lockid) (i : id) (tk : nat) (tm : option (Z * Z)) (k : semk)
| FSemRe (s : semid) (l : option lockid) (i : id) (tk : nat) (e : option Z) (st : bool) (k : semk)
| FSemNow (s : semid) (l : option lockid) (i : id) (tk : nat) (e : Z) (st : bool) (k : semk)
| FSemRem (s : semid) (l : option lockid) (i : id) (st : bool) (k : semk)
| FNotify (s : semid) (all : bool) | FNotifyL (ws : list waiter)
(* mutexes *)
| FULock (m : nat) | FUUnlock (m : nat)
| FMLock (m : nat) | FMTas (m : nat) (i : id) | FMOwnQ (m : nat) (i : id) | FMOwn (m : nat) (i : id)
| FMTry (m : nat) | FMTry1 (m : nat)
| FMUnlock (m : nat) | FMUn1 (m : nat) (i : id) | FMUn2 (m : nat) | FMUn3 (m : nat)
(* future states *)
| FSet (p : sid) (o : outcome) | FSet1 (p : sid) (o : outcome) | FSet2 (p : sid) (cbs : list callback)
| FSetFail (p : sid)
| FFire (p : sid) (cbs : list callback) (lft : list task)
| FFire1 (p : sid) (cb : callback) (c : lk)
| FSt (p : sid) (dur : option Z) (g : gk) | FStW1 (p : sid) (dur : option Z) (g : gk)
| FStW2 (p : sid) (dur : option Z) (g : gk) | FStEnd (p : sid) (f : fstatus) (g : gk)
| FWaitList (ps : list sid)
| FGet (h : nat) | FGet2 (h : nat) | FGet3 (p : sid) (take : bool)
(* promise and future objects *)
| FPNew (v : bool) | FPNew1 (p : sid)
| FPSet (pr : nat) (o : outcome) | FPGetF (pr : nat) | FPGetF1 (p : sid) | FPDtor (pr : nat)
| FPAssign (d s : nat) | FPAssign1 (d : nat) (x : option sid)
| FHnd (sh : bool) (x : option sid) | FHFrom (sh : bool) (p : sid)
| FHValid (h : nat) | FHReady (h : nat) | FHReady1 (p : sid) | FHErr (h : nat) | FHErr1 (p : sid)
| FHWait (h : nat) (dur : option Z) | FHShare (h : nat) | FHCopy (h : nat) | FHMove (h : nat)
| FThen (h : nat) (i : id) (pol : policy) (v : bool) (u : nat) (caps : list nat)
| FThen1 (p : sid) (sh : bool) (i : id) (pol : policy) (v : bool) (u : nat) (caps : list nat)
| FThen2 (p : sid) (cb : callback) (q : sid)
| FAsync (i : id) (pol : policy) (v : bool) (u : nat) (caps : list nat)
| FMkReady (v : bool) (o : outcome) | FMkReady1 (p : sid) (o : outcome)
(* combinators *)
| FWhen (kd : wkind) (hs : list nat) | FWId (w : nat) (kd : wkind) (hs : list nat)
| FWFillAll (w : nat) (kd : wkind) (i : id) (todo : list nat) (acc : list (bool * sid))
| FWEach (w : nat) (kd : wkind) (i : id) (idx : nat) (r : wrest)
| FWThen (w : nat) (kd : wkind) (i : id) (idx : nat) (u : bool) (p : sid) (r : wrest)
| FWPack (w : nat) (kd : wkind) (i : id) (idx : nat) (p : sid) (r : wrest)
| FWAtt (w : nat) (kd : wkind) (i : id) (idx : nat) (p q : sid) (r : wrest)
| FWProc (w : nat) (kd : wkind) (i : id) (idx : nat) (r : wrest)
| FWFin (w : nat) | FWFin1 (w : nat)
| FWIn (all : bool) (w idx : nat) (par : sid) (q : sid)
| FWMark (w : nat) (a : wafter) | FWUnl (w : nat) (a : wafter)
| FWRet (w : nat) | FWRel (w : nat)
(* pools *)
| FPool (o : nat) (lvs : list (nat * nat)) | FPoolEnd (o pl : nat) | FPoolB (pl : nat) (lvs : list (nat * nat))
| FPoolW (pl lv n : nat) (r : list (nat * nat)) | FPWk (pl lv : nat) (n : tid) (i : id)
| FPApi (o : nat) (a : pact)
| FSched (o pl : nat) (g : group) (v : bool) (u : nat) (caps : list nat)
| FSched1 (o pl : nat) (g : group) (p : sid) (u : nat) (caps : list nat)
| FSched2 (o pl : nat) (g : group) (p q : sid) (u : nat) (caps : list nat)
| FSched3 (o pl : nat) (g : group) (p q : sid) (u : nat) (caps : list nat)
| FSched4 (o : nat) (p : sid) (j : nat) | FSched5 (o h j : nat)
| FPNotify (pl lv : nat) | FPDisp (pl : nat) (ws : list (nat * id))
| FPUnl (pl : nat)
| FPChg (pl j : nat) (g : group) | FPChg1 (pl j : nat) (g : group)
| FPClr (pl j : nat) (chk : bool) | FPClr1 (pl j : nat) (chk : bool)
| FPStopAll (pl : nat) | FPClrAll (pl : nat)
| FPWait (pl j : nat) | FPWaitAll (pl : nat) | FPCount (pl : nat)
| FPMove (d s : nat) | FPMoveS (d s : nat) | FPKill (o : nat) | FPJoin (pl : nat) | FJoinL (ws : list (tid * id))
| FCheck (pl lv : nat) | FCheck1 (pl lv : nat) | FCheck2 (pl lv : nat) | FCheckEnd (pl j : nat) (k : task)
| FJob (s : option nat) (o : nat) (a : pact).

Inductive next := Go (fs : list frame) | GoSpawn (n : tid) (cfs fs : list frame).
Inductive act :=
| Do {T : Type} (o : op T) (k : T -> next)
| Halt.

(** Frames of a new thread.  make_thread: thread.cpp:656-671 (naming and the start
    callback are lft out); detached worker: future.hpp:703-709. *)
Definition tframes (b : tbody) : list frame :=
  match b with
  | BLoop => [FRegSelf; FLoop; FUnreg; FEnd]
  | BOnce => [FRegSelf; FWait None WOnce; FUnreg; FEnd]
  | BFun u => [FUStart u None UPlain; FEnd]
  end.

Definition destroy (ks : list task) : list frame :=
  match ks with [] => [] | _ => [FDestroy (map DTask ks)] end.

Definition wresume (k : wk) (timeout : bool) : list frame :=
  match k with
  | WApi => []
  | WApiFor => [FRes (RCv timeout)]
  | WLoop => [FLoop]
  | WOnce => []
  | WSleepFor e => [FSlNow e]
  | WSem s l i tk e k => [FSemRe s l i tk e timeout k]
  end.

Definition gresume (g : gk) (f : fstatus) : list frame :=
  match g with
  | GApi => []
  | GFor => [FRes (RFs f)]
  | GGet h => [FGet2 h]
  | GList ps => [FWaitList ps]
  end.

Definition semresume (k : semk) (timeout : bool) : list frame :=
  match k with
  | KCv => []
  | KCvFor => [FRes (RCv timeout)]
  | KState p dur g =>
      match dur with
      | Some _ => if timeout then [FStEnd p FsTimeout g] else [FStW1 p dur g]
      | None => [FStW1 p dur g]
      end
  | KMx m i => [FMTas m i]
  end.

(** [back] is the closure when it was not moved into a queue: it was refused, or
    run in place; its owner destroys it. *)
Definition lresume (c : lk) (ok : bool) (back : option task) : list frame :=
  let b := match back with Some k => [k] | None => [] end in
  match c with
  | LkUser => destroy b ++ [FRes (RBool ok)]
  | LkDisc => destroy b
  | LkFire p rest lft => [FFire p rest (lft ++ b)]
  | LkHnd q => destroy b ++ [FHnd false (Some q)]
  | LkWhen w kd i idx r => destroy b ++ [FWProc w kd i idx r]
  end.

Definition wresume_after (w : nat) (a : wafter) : list frame :=
  match a with
  | WaRet => [FWRet w]
  | WaPack q => [FSet q (OVal VUnit)]
  end.

Definition wbody (kd : wkind) (w idx : nat) (p : sid) : body :=
  match kd with KAll => BAll w idx p | KAny _ => BAny w idx p end.

(** Running a closure taken by process_one, thread.cpp:417-429. *)
Definition run_one (c : id) (k : task) : list frame := [FRun k; FDrop k; FPoEnd c].

Fixpoint is_strict_levels (l : list (nat * nat)) : bool :=
  match l with
  | [] => true
  | (a, _) :: r => match r with [] => true | (b, _) :: _ => (a <? b) && is_strict_levels r end
  end.

Definition pact_frames (o pl : nat) (a : pact) : list frame :=
  match a with
  | PaSched g v u caps => [FSched o pl g v u caps]
  | PaChange j g => [FPChg pl j g]
  | PaStop j => [FPClr pl j true]
  | PaStopAll => [FPStopAll pl]
  | PaWait j => [FPWait pl j]
  | PaWaitAll => [FPWaitAll pl]
  | PaCount => [FPCount pl]
  end.

Definition spresume (n : tid) (i : id) (k : spk) : list frame :=
  match k with
  | SpStd => [FRel i]                    (* not used *)
  | SpThread o => [FThPut o (Some n, i); FRel i; FRes (RThread n i)]
  | SpAsync pol v u caps => [FRel i; FDetach n; FAsync i pol v u caps]
  | SpThen h pol v u caps => [FRel i; FDetach n; FThen h i pol v u caps]
  | SpPool pl lv m r => [FRel i; FPWk pl lv n i; FDisp i TConfig LkDisc; FPoolW pl lv m r]
  end.

Definition code (f : frame) : act :=
  match f with
  (* ---- user code ---- *)
  | FUStart u a fin => Do (OLog (fun t => EvUser t u a (fin_sid fin))) (fun _ => Go [FUser u fin])
  | FUser _ _ => Halt                              (* only LCall, LRet, LThrow apply *)
  | FApi c => Do (OLog (fun t => EvRet t c RUnit)) (fun _ => Go [])
  | FRes _ => Halt                                 (* see Machine.v: needs the frame below *)
  | FThrow _ => Halt                               (* see Machine.v: needs the frame below *)
  | FNoexcept => Do ONop (fun _ => Go [])
  | FUb u => Do (OUb u) (fun _ => Go [])
  (* ---- closures ---- *)
  | FRun k =>
      match k with
      | TNull => Do ONop (fun _ => Go [])
      | TUser u caps => Do ONop (fun _ => Go [FUStart u None UPlain])
      | TNop => Do ONop (fun _ => Go [])                            (* thread.cpp:338-340 *)
      | TConfig => Do OConfig (fun _ => Go [])                      (* thread.cpp:728-734 *)
      | TCheck pl lv => Do ONop (fun _ => Go [FCheck pl lv])        (* thread_pool.cpp:206-209 *)
      | TPack p b =>                                                (* future.hpp:630-648 *)
          match b with
          | BUser u caps => Do ONop (fun _ => Go [FUStart u None (UPack p); FPackGuard p])
          | BThen par sh u caps =>                                  (* 731-735, 790-794, 847-851, 902-906 *)
              Do (OHndNew sh (Some par)) (fun n => Go [FUStart u (Some n) (UPack p); FPackGuard p])
          | BTask k' => Do ONop (fun _ => Go [FRun k'; FPackVal p; FPackGuard p])
          | BAll w i par =>                                         (* when_all_any.hpp:245, 165 *)
              Do (OLock (LWhen w)) (fun _ => Go [FWIn true w i par p; FPackGuard p])
          | BAny w i par =>                                         (* when_all_any.hpp:338, 70 *)
              Do (OLock (LWhen w)) (fun _ => Go [FWIn false w i par p; FPackGuard p])
          end
      end
  | FDrop k => Do ONop (fun _ => Go (destroy [k]))
  | FDestroy l =>
      match l with
      | [] => Do ONop (fun _ => Go [])
      | DTask k :: r =>
          Do (OLog (fun t => EvDrop t k)) (fun _ => Go [FDestroy
            (match k with
             | TUser _ caps => map DCap caps
             | TPack p b => [DBody b; DProm p]     (* captures destroyed in reverse order, future.hpp:627-629 *)
             | _ => []
             end ++ r)])
      | DBody b :: r =>
          Do ONop (fun _ => Go [FDestroy
            (match b with
             | BUser _ caps => map DCap caps
             | BThen _ _ _ caps => map DCap caps
             | BTask k => [DTask k]
             | BAll w _ _ => [DW w]
             | BAny w _ _ => [DW w]
             end ++ r)])
      | DProm p :: r => Do ONop (fun _ => Go [FPromDtor p; FDestroy r])
      | DCap pr :: r => Do (OPrmTake pr) (fun x => Go (match x with
                                                      | Some p => [FPromDtor p; FDestroy r]
                                                      | None => [FDestroy r]
                                                      end))
      | DW w :: r => Do ONop (fun _ => Go [FWRel w; FDestroy r])
      end
  | FPromDtor p =>                                                  (* future.hpp:190-196, 212-216; implicitly noexcept *)
      Do (OReady p) (fun b : bool => Go (if b then [] else [FSet p (OExn XBroken); FNoexcept]))
  | FPackVal p => Do ONop (fun _ => Go [FSet p (OVal VUnit)])       (* future.hpp:605 *)
  | FPackGuard p => Do ONop (fun _ => Go [])
  | FSwallow => Do ONop (fun _ => Go [])
  (* ---- registry ---- *)
  | FRegSelf => Do (OReg None) (fun i => Go [FSetLoc i])            (* thread.cpp:579-589 *)
  | FSetLoc i => Do (OSetLoc (Some i)) (fun _ => Go [FRel i])
  | FRel i => Do (ORelease i) (fun ks => Go (destroy ks))
  | FReg n => Do (OReg (Some n)) (fun i => Go [FRel i; FRes (RId i)]) (* thread.cpp:344-348 *)
  | FUnreg => Do OMyId (fun i => Go [FUnreg1 i])                    (* thread.cpp:591-595 *)
  | FUnreg1 i => Do (OUnreg i) (fun b : bool => Go (if b then [FRel i; FClearLoc] else [FClearLoc]))
  | FClearLoc => Do (OSetLoc None) (fun _ => Go [])
  | FInit => Do OInitInc (fun b : bool => Go (if b then [FRegSelf; FInit2] else [])) (* thread.cpp:172-185 *)
  | FInit2 => Do OMyId (fun i => Go [FInit3 i])
  | FInit3 i => Do (OSetMain i) (fun _ => Go [])
  | FShut d => Do OInitGet (fun z => Go (if Z.eqb z 0 then [FRes (RInt (-1))] else [FShut1 d])) (* 190-194 *)
  | FShut1 d => Do OInitDec (fun z => Go (if Z.eqb z 0 then [FUnreg; FShut2 d] else [FRes (RInt (-1))])) (* 196-201 *)
  | FShut2 d => Do OGetAll (fun l => Go [FShut3 l d])               (* 203 *)
  | FShut3 l d =>                                                   (* 204-216 *)
      match l with
      | i :: r => Do ONop (fun _ => Go [FNExit i; FShut3 r d])
      | [] => Do (OCleanTry d) (fun x => Go (match x with None => [FRes (RInt 0)] | Some dl => [FShut4 dl] end))
      end
  | FShut4 dl => Do (OCleanWake dl) (fun z => Go [FRes (RInt z)])   (* 216-229 *)
  | FNExit i => Do (OFind i) (fun b : bool => Go (if b then [FNExit1 i] else [])) (* thread.cpp:313-333 *)
  | FNExit1 i => Do (OExitSet i) (fun _ => Go [FRel i])
  | FCount i =>                                                     (* thread.cpp:247-290 *)
      if i =? invalid_id then Do ONop (fun _ => Go [FRes (RInt 0)])
      else Do (OFind i) (fun b : bool => Go (if b then [FCount1 i] else [FRes (RInt 0)]))
  | FCount1 i => Do (OCount i) (fun z => Go [FRel i; FRes (RInt z)])
  | FGetAll => Do OGetAll (fun l => Go [FRes (RIds l)])
  | FMainId => Do OMainId (fun i => Go [FRes (RId i)])
  | FMyId => Do OMyId (fun i => Go [FRes (RId i)])
  | FDepth => Do ODepth (fun z => Go [FRes (RInt z)])
  | FIsReg => Do OLoc (fun x => Go [FRes (RBool (match x with Some _ => true | None => false end))])
  | FExitQ => Do OExit (fun b => Go [FRes (RBool b)])
  (* ---- invoke, dispatch, launch ---- *)
  | FInvoke i k c =>                                                (* thread.cpp:355-378 *)
      if task_null k || (i =? invalid_id) then Do ONop (fun _ => Go (lresume c false (Some k)))
      else Do (OFind i) (fun b : bool => Go (if b then [FPush i k c] else lresume c false (Some k)))
  | FPush i k c => Do (OPush i k) (fun _ => Go (FRel i :: lresume c true None)) (* 380-385 *)
  | FDisp i k c =>                                                  (* thread.h:303-316 *)
      Do OMyId (fun j => Go (if j =? i then [FRun k; FDrop k] ++ lresume c true None else [FInvoke i k c]))
  | FLaunch i pol k c =>                                            (* future.hpp:652-657 *)
      if i =? caller_id then Do OMyId (fun j => Go [FLaunch1 j pol k c])
      else Do ONop (fun _ => Go [FLaunch1 i pol k c])
  | FLaunch1 i pol k c =>                                           (* future.hpp:661-678 *)
      match pol with
      | LAsync => Do ONop (fun _ => Go [FInvoke i k c])
      | LOther => Do OMyId (fun j => Go (if j =? i then FRun k :: lresume c true (Some k) else [FInvoke i k c]))
      end
  (* ---- processing and waiting ---- *)
  | FProcess => Do OLoc (fun x => Go (match x with None => [] | Some c => [FProc c] end)) (* thread.cpp:480-494 *)
  | FProc c => Do (OProc c) (fun r => Go (match r with WTask k => run_one c k ++ [FProc c] | _ => [] end)) (* 453-462 *)
  | FProcessFor d => Do OLoc (fun x => Go (match x with None => [] | Some c => [FPf0 c d] end)) (* 464-478, thread.h:330-334 *)
  | FPf0 c d => Do ONow (fun n => Go [FPf c n (n + 1000 * Z.quot d 1000)])  (* 439-440 *)
  | FPf c n e =>                                                    (* 442-450 *)
      if Z.ltb n e then Do (OProc c) (fun r => Go (match r with WTask k => run_one c k ++ [FPfNow c e] | _ => [] end))
      else Do ONop (fun _ => Go [])
  | FPfNow c e => Do ONow (fun n => Go [FPf c n e])
  | FPoEnd c => Do (OEnd c) (fun _ => Go [])                        (* thread.cpp:428-431 *)
  | FWaitUntil z => Do ONow (fun n => Go [FWaitFor (z - n) WApiFor]) (* thread.h:350-353 *)
  | FWaitFor d k =>                                                 (* thread.h:337-347 *)
      if Z.leb d 0 then Do ONop (fun _ => Go (wresume k false))
      else Do ONop (fun _ => Go [FWait (Some (1000 * (d / 1000))%Z) k])
  | FWait us k => Do OLoc (fun x => Go (match x with None => wresume k false | Some c => [FWait1 c us k] end))
                                                                    (* thread.cpp:500-507, 542-549 *)
  | FWait1 c us k =>                                                (* 509-528, 551-571 *)
      Do (OTakeSleep c) (fun r => Go (match r with
        | WTask tk => run_one c tk ++ wresume k false
        | WExit => wresume k false
        | WSlept n => [FSleep c (option_map (fun d => (n + d)%Z) us) k]
        end))
  | FSleep c dl k =>                                                (* 528-537, 571-575 *)
      Do (OWake c dl) (fun r => Go (match snd r with Some tk => run_one c tk | None => [] end ++ wresume k (fst r)))
  | FSleepUntil z => Do ONow (fun n => Go [FSleepFor (z - n)])      (* thread.h:381-384 *)
  | FSleepFor d =>                                                  (* thread.h:356-364 *)
      if Z.leb d 0 then Do ONop (fun _ => Go []) else Do ONow (fun n => Go [FSl n (n + d)])
  | FSl n e =>                                                      (* thread.h:366-374 *)
      if Z.ltb n e then Do OExit (fun b : bool => Go (if b then [] else [FWaitFor (e - n) (WSleepFor e)]))
      else Do ONop (fun _ => Go [])
  | FSlNow e => Do ONow (fun n => Go [FSl n e])                     (* thread.h:376 *)
  (* ---- threads ---- *)
  | FSpawn b k => Do OSpawn (fun n => GoSpawn n (tframes b)
                     (match k with SpStd => [FRes (RThread n invalid_id)] | _ => [FSpReg n k] end))
  | FSpReg n k => Do (OReg (Some n)) (fun i => Go (spresume n i k)) (* thread.cpp:693-697 *)
  | FThPut o x => Do (OThPut o x) (fun _ => Go [])
  | FDetach n => Do (ODetach n) (fun _ => Go [])                    (* future.hpp:710 *)
  | FLoop => Do OExit (fun b : bool => Go (if b then [] else [FWait None WLoop])) (* thread.cpp:665-668 *)
  | FEnd => Do OThEnd (fun _ => Go [])
  | FJoin n => Do (OJoin n) (fun _ => Go [])
  | FThNew o b => Do (OThGet o) (fun x => Go (match fst x with
                                              | None => [FSpawn b (SpThread o)]
                                              | Some _ => [FUb UbPrecondition]
                                              end))
  | FThJoin o => Do (OThGet o) (fun x => Go [FNExit (snd x); FThJoin1 o])       (* thread.cpp:687-691 *)
  | FThJoin1 o => Do (OThGet o) (fun x => Go (match fst x with
                                              | Some n => [FJoin n; FThPut o (None, snd x)]
                                              | None => [FThrow XNotJoinable]
                                              end))
  | FThDetach o => Do (OThGet o) (fun x => Go (match fst x with
                                              | Some n => [FDetach n; FThPut o (None, snd x)]
                                              | None => [FThrow XNotJoinable]
                                              end))
  | FThMove d s => Do (OThGet d) (fun x => Go (match fst x with
                                              | None => [FThMove1 d s]
                                              | Some _ => [FUb UbPrecondition]
                                              end))
  | FThMove1 d s => Do (OThGet s) (fun x => Go [FThMove2 d s x])    (* thread.h:26: id_ is copied, not reset *)
  | FThMove2 d s x => Do (OThPut s (None, snd x)) (fun _ => Go [FThPut d x])
  | FThAssign d s =>                                                (* thread.cpp:707-715 *)
      Do (OThGet d) (fun x => Go (match fst x with
                                  | Some _ => [FThJoin d; FNoexcept; FThSwap d s]
                                  | None => [FThSwap d s]
                                  end))
  | FThSwap a b => Do (OThGet a) (fun x => Go [FThSwap1 a b x])     (* thread.cpp:701-705 *)
  | FThSwap1 a b x => Do (OThGet b) (fun y => Go [FThPut b x; FThPut a y])
  | FThDtor o =>                                                    (* thread.cpp:717-723 *)
      Do (OThGet o) (fun x => Go (match fst x with
                                  | Some _ => [FThJoin o; FNoexcept; FThPut o (None, 0)]
                                  | None => [FThPut o (None, 0)]
                                  end))
  | FThId o => Do (OThGet o) (fun x => Go [FRes (RId (snd x))])     (* thread.cpp:682-685 *)
  (* ---- semaphores ---- *)
  | FSem s l dur k =>                                               (* semaphore.cpp:72-74, 105-113 *)
      match dur with
      | None => Do ONop (fun _ => Go [FSemId s l None k])
      | Some d => Do ONow (fun n => Go [FSemId s l (Some (n, n + d)%Z) k])
      end
  | FSemId s l tm k => Do OMyId (fun i => Go [FSemAdd s l i tm k])  (* 74, 113 *)
  | FSemAdd s l i tm k => Do (OAddW s i) (fun tk => Go [FSemTok s l i tk tm false k]) (* 80, 119 *)
  | FSemTok s l i tk tm st k =>                                     (* 82, 121-127 *)
      Do (OTokQ tk) (fun b : bool => Go (
        if b then [FSemRem s l i st k]
        else match tm with
             | Some (n, e) => if Z.leb e n then [FSemRem s l i true k] else [FSemExit s l i tk tm st k]
             | None => [FSemExit s l i tk tm st k]
             end))
  | FSemExit s l i tk tm st k =>                                    (* 84-87, 129-132 *)
      Do OExit (fun b : bool => Go (if b then [FSemRem s l i st k] else [FSemGo s l i tk tm k]))
  | FSemGo s l i tk tm k =>                                         (* 89-94, 133-140 *)
      let fs := match tm with
                | None => [FWait None (WSem s l i tk None k)]
                | Some (n, e) => [FWaitFor (e - n) (WSem s l i tk (Some e) k)]
                end in
      match l with
      | Some x => Do (OUnlock x) (fun _ => Go fs)
      | None => Do ONop (fun _ => Go fs)
      end
  | FSemRe s l i tk e st k =>                                       (* 96-99, 142-145 *)
      let fs := match e with
                | None => [FSemTok s l i tk None st k]
                | Some e => [FSemNow s l i tk e st k]
                end in
      match l with
      | Some x => Do (OLock x) (fun _ => Go fs)
      | None => Do ONop (fun _ => Go fs)
      end
  | FSemNow s l i tk e st k => Do ONow (fun n => Go [FSemTok s l i tk (Some (n, e)) st k]) (* 147 *)
  | FSemRem s l i st k => Do (ORemW s i) (fun _ => Go (semresume k st)) (* 102, 151-153 *)
  | FNotify s all => Do (ONotif s all) (fun ws => Go [FNotifyL ws])  (* 25-42, 52-59 *)
  | FNotifyL ws =>                                                  (* 44-49, 61-69; notify: thread.cpp:335-341 *)
      match ws with
      | [] => Do ONop (fun _ => Go [])
      | (i, tk) :: r =>
          if i =? invalid_id then Do ONop (fun _ => Go [FNotifyL r])
          else Do (OTokSet tk) (fun _ => Go [FDisp i TNop LkDisc; FNotifyL r])
      end
  (* ---- mutexes ---- *)
  | FULock m => Do (OLock (LUser m)) (fun _ => Go [])
  | FUUnlock m => Do (OUnlock (LUser m)) (fun _ => Go [])
  | FMLock m => Do OMyId (fun i => Go [FMTas m i])                  (* mutex.hpp:26 *)
  | FMTas m i => Do (OTas m) (fun b : bool => Go (if b then [FMOwnQ m i] else [FMOwn m i])) (* 27 *)
  | FMOwnQ m i => Do (OOwn m) (fun o => Go (if o =? i then [FThrow XDeadlock]
                                            else [FSem (SMx m) None None (KMx m i)])) (* 30-34 *)
  | FMOwn m i => Do (OSetOwn m i) (fun _ => Go [])                  (* 37 *)
  | FMTry m => Do (OTas m) (fun b : bool => Go (if b then [FRes (RBool false)] else [FMTry1 m])) (* 46-49 *)
  | FMTry1 m => Do OMyId (fun i => Go [FMOwn m i; FRes (RBool true)]) (* 51-52 *)
  | FMUnlock m => Do OMyId (fun i => Go [FMUn1 m i])                (* 62 *)
  | FMUn1 m i => Do (OOwn m) (fun o => Go (if o =? i then [FMUn2 m] else [FThrow XNoLock])) (* 65-68 *)
  | FMUn2 m => Do (OSetOwn m invalid_id) (fun _ => Go [FMUn3 m])    (* 70 *)
  | FMUn3 m => Do (OClear m) (fun _ => Go [FNotify (SMx m) true])   (* 71-72 *)
  (* ---- future states ---- *)
  | FSet p o => Do (OLock (LState p)) (fun _ => Go [FSet1 p o])     (* future_state.hpp:44, 142, 178 *)
  | FSet1 p o =>                                                    (* 46-61, 144-150, 180-185 *)
      Do (OTrySet p o) (fun x => Go (match x with
                                     | None => [FSetFail p]
                                     | Some cbs => [FNotify (SSt p) true; FSet2 p cbs]
                                     end))
  | FSetFail p => Do (OUnlock (LState p)) (fun _ => Go [FThrow XSatisfied])
  | FSet2 p cbs => Do (OUnlock (LState p)) (fun _ => Go [FFire p cbs []]) (* 64 *)
  | FFire p cbs lft =>                                             (* 65-72 *)
      match cbs with
      | [] => Do ONop (fun _ => Go (destroy lft))
      | cb :: r => Do ONop (fun _ => Go [FFire1 p cb (LkFire p r lft)])
      end
  | FFire1 p cb c => Do (OLog (fun t => EvFire t p cb)) (fun _ => Go [FLaunch (cb_id cb) (cb_pol cb) (cb_task cb) c])
  | FSt p dur g => Do (OLock (LState p)) (fun _ => Go [FStW1 p dur g]) (* 93, 107 *)
  | FStW1 p dur g => Do (OReady p) (fun b : bool => Go (if b then [FStEnd p FsReady g] else [FStW2 p dur g])) (* 94, 109 *)
  | FStW2 p dur g =>                                                (* 96-100, 111-116 *)
      Do OExit (fun b : bool => Go (if b then [FStEnd p FsDeferred g]
                             else [FSem (SSt p) (Some (LState p)) dur (KState p dur g)]))
  | FStEnd p f g => Do (OUnlock (LState p)) (fun _ => Go (gresume g f))
  | FWaitList ps => match ps with
                    | [] => Do ONop (fun _ => Go [])
                    | p :: r => Do ONop (fun _ => Go [FSt p None (GList r)])
                    end
  | FGet h => Do (OHndGet h) (fun x => Go (match snd x with
                                           | None => [FThrow XNoState]
                                           | Some p => [FSt p None (GGet h)]
                                           end))                    (* future.hpp:305, 368, 446, 512 *)
  | FGet2 h =>                                                      (* 306-307, 369-370, 447, 513 *)
      Do (OHndGet h) (fun x => Go (match x with
                                   | (_, None) => [FUb UbNullState]
                                   | (true, Some p) => [FGet3 p false]
                                   | (false, Some p) => [FHMove h; FGet3 p true]
                                   end))
  | FGet3 p take => Do (OGetVal p take) (fun r => Go (match r with RExn e => [FThrow e] | r => [FRes r] end))
  (* ---- promise and future objects ---- *)
  | FPNew v => Do (ONewState v PuPromise) (fun p => Go [FPNew1 p])  (* future.hpp:183, 242 *)
  | FPNew1 p => Do (OPrmNew p) (fun n => Go [FRes (RProm n)])
  | FPSet pr o => Do (OPrmGet pr) (fun x => Go (match x with
                                                | None => [FThrow XNoState]
                                                | Some p => [FSet p o]
                                                end))               (* 203-216, 253-278 *)
  | FPGetF pr => Do (OPrmGet pr) (fun x => Go (match x with
                                               | None => [FThrow XNoState]
                                               | Some p => [FPGetF1 p]
                                               end))                (* 221-239 *)
  | FPGetF1 p => Do (ORetr p) (fun b : bool => Go (if b then [FThrow XRetrieved] else [FHnd false (Some p)]))
  | FPDtor pr => Do (OPrmTake pr) (fun x => Go (match x with Some p => [FPromDtor p] | None => [] end)) (* 190-196 *)
  | FPAssign d s => Do (OPrmTake s) (fun x => Go [FPAssign1 d x])   (* 185: the old state of d is dropped *)
  | FPAssign1 d x => Do (OPrmPut d x) (fun _ => Go [])
  | FHnd sh x => Do (OHndNew sh x) (fun n => Go [FRes (RHnd n)])
  | FHFrom sh p => Do (OHndFrom sh p) (fun n => Go [FRes (RHnd n)])
  | FHValid h => Do (OHndGet h) (fun x => Go [FRes (RBool (match snd x with Some _ => true | None => false end))]) (* 103-106 *)
  | FHReady h => Do (OHndGet h) (fun x => Go (match snd x with
                                              | None => [FThrow XNoState]
                                              | Some p => [FHReady1 p]
                                              end))                 (* 112-117 *)
  | FHReady1 p => Do (OReady p) (fun b => Go [FRes (RBool b)])
  | FHErr h => Do (OHndGet h) (fun x => Go (match snd x with
                                            | None => [FThrow XNoState]
                                            | Some p => [FHErr1 p]
                                            end))                   (* 122-127 *)
  | FHErr1 p => Do (OHasErr p) (fun b => Go [FRes (RBool b)])
  | FHWait h dur => Do (OHndGet h) (fun x => Go (match snd x with
                                                 | None => [FThrow XNoState]
                                                 | Some p => [FSt p dur (match dur with None => GApi | Some _ => GFor end)]
                                                 end))              (* 132-153 *)
  | FHShare h =>                                                    (* 574-583 *)
      Do (OHndTake h) (fun x => Go (if fst x then [FUb UbPrecondition] else [FHnd true (snd x)]))
  | FHCopy h => Do (OHndGet h) (fun x => Go (if fst x then [FHnd true (snd x)] else [FUb UbPrecondition])) (* 427 *)
  | FHMove h => Do (OHndTake h) (fun _ => Go [])                    (* 306, 369: the state leaves the future object *)
  | FThen h i pol v u caps =>                                       (* 726-729, 785-788 *)
      Do (OHndGet h) (fun x => Go (match x with
        | (_, None) => destroy [TUser u caps] ++ [FThrow XNoState]
        | (true, Some p) => [FThen1 p true i pol v u caps]
        | (false, Some p) => [FHMove h; FThen1 p false i pol v u caps]
        end))
  | FThen1 p sh i pol v u caps =>                                   (* 730-737: package_future_task *)
      Do (ONewState v (PuFun u)) (fun q => Go [FThen2 p (mkCb i pol (TPack q (BThen p sh u caps))) q])
  | FThen2 p cb q =>                                                (* 739-745, future_state.hpp:74-89 *)
      Do (OAttach p cb) (fun b : bool => Go (if b then [FHnd false (Some q)] else [FFire1 p cb (LkHnd q)]))
  | FAsync i pol v u caps =>                                        (* 683-692 *)
      Do (ONewState v (PuFun u)) (fun q => Go [FLaunch i pol (TPack q (BUser u caps)) (LkHnd q)])
  | FMkReady v o => Do (ONewState v PuReady) (fun p => Go [FMkReady1 p o])  (* 543-572 *)
  | FMkReady1 p o => Do ONop (fun _ => Go [FSet p o; FHnd false (Some p)])
  (* ---- combinators ---- *)
  | FWhen kd hs =>                                                  (* when_all_any.hpp:219-222, 258-261, 290-293, 367-372 *)
      match hs with
      | [] => Do ONop (fun _ => Go [FMkReady false (OVal (match kd with KAll => VFuts [] | KAny _ => VAny None [] end))])
      | _ => Do (OWNew (is_all kd) hs) (fun w => Go [FWId w kd hs])
      end
  | FWId w kd hs =>                                                 (* 237, 329, 64, 159 *)
      Do OMyId (fun i => Go (match kd with
                             | KAny false => [FWFillAll w kd i hs []]
                             | _ => [FWEach w kd i 0 (WrH hs)]
                             end))
  | FWFillAll w kd i todo acc =>                                    (* 402, 146-153 *)
      match todo with
      | [] => Do ONop (fun _ => Go [FWEach w kd i 0 (WrT acc)])
      | h :: r => Do (OWFill w h) (fun x => Go [FWFillAll w kd i r (acc ++ [x])])
      end
  | FWEach w kd i idx r =>                                          (* 239-241, 330-333, 403, 277 *)
      match r with
      | WrH (h :: hs) => Do (OWFill w h) (fun x => Go [FWThen w kd i idx (fst x) (snd x) (WrH hs)])
      | WrT ((u, p) :: l) => Do ONop (fun _ => Go [FWThen w kd i idx u p (WrT l)])
      | _ => Do ONop (fun _ => Go (match kd with KAll => [FWRet w] | KAny _ => [FWFin w] end))
      end
  | FWThen w kd i idx u p r => Do (OWThen w idx u) (fun _ => Go [FWPack w kd i idx p r]) (* 242, 334, 67, 161 *)
  | FWPack w kd i idx p r => Do (ONewState true (PuHook (is_all kd) w idx p)) (fun q => Go [FWAtt w kd i idx p q r])  (* future.hpp:730 *)
  | FWAtt w kd i idx p q r =>                                       (* future.hpp:739 *)
      let cb := mkCb i LOther (TPack q (wbody kd w idx p)) in
      Do (OAttach p cb) (fun b : bool => Go (if b then [FWProc w kd i idx r] else [FFire1 p cb (LkWhen w kd i idx r)]))
  | FWProc w kd i idx r =>                                          (* when_all_any.hpp:352, 93 *)
      match kd with
      | KAll => Do ONop (fun _ => Go [FWEach w kd i (S idx) r])
      | KAny _ => Do (OWProcess w) (fun _ => Go [FWEach w kd i (S idx) r])
      end
  | FWFin w => Do (OLock (LWhen w)) (fun _ => Go [FWFin1 w])        (* 356, 405 *)
  | FWFin1 w =>                                                     (* 357-360, 406-409 *)
      Do (OWFinal w) (fun x => Go (match x with
                                   | Some (p, v) => [FSet p (OVal v); FWMark w WaRet]
                                   | None => [FWUnl w WaRet]
                                   end))
  | FWIn all w idx par q =>                                         (* 166-171, 246-251; 71-82, 339-350 *)
      if all
      then Do (OWAll w idx par q) (fun x => Go (match x with
                                              | Some (p, v) => [FSet p (OVal v); FWUnl w (WaPack q)]
                                              | None => [FWUnl w (WaPack q)]
                                              end))
      else Do (OWAny w idx par q) (fun x => Go (match x with
                                              | Some (p, v) => [FSet p (OVal v); FWMark w (WaPack q)]
                                              | None => [FWUnl w (WaPack q)]
                                              end))
  | FWMark w a => Do (OWMark w) (fun _ => Go [FWUnl w a])           (* 80, 348, 361, 410 *)
  | FWUnl w a => Do (OUnlock (LWhen w)) (fun _ => Go (wresume_after w a))
  | FWRet w => Do (OWHandle w) (fun n => Go [FWRel w; FRes (RHnd n)]) (* 255, 278, 365, 413 *)
  | FWRel w => Do (OWRel w) (fun x => Go (match x with Some p => [FPromDtor p] | None => [] end))
  (* ---- pools ---- *)
  | FPool o lvs =>                                                  (* thread_pool.cpp:293-297; a std::map is sorted *)
      if is_strict_levels lvs then Do (OPoolNew o) (fun pl => Go [FPoolB pl lvs; FPoolEnd o pl])
      else Do (OUb UbPrecondition) (fun _ => Go [])
  | FPoolEnd o pl => Do (OPoolBind o pl) (fun _ => Go [])           (* 296 *)
  | FPoolB pl lvs =>                                                (* 43-51 *)
      match lvs with
      | [] => Do ONop (fun _ => Go [])
      | (lv, 0) :: r => Do ONop (fun _ => Go [FPoolB pl r])
      | (lv, n) :: r => Do (OPLevel pl lv) (fun _ => Go [FPoolW pl lv n r])
      end
  | FPoolW pl lv n r =>                                             (* 52-58 *)
      match n with
      | 0 => Do ONop (fun _ => Go [FPoolB pl r])
      | S m => Do ONop (fun _ => Go [FSpawn BLoop (SpPool pl lv m r)])
      end
  | FPWk pl lv n i => Do (OPWorker pl lv n i) (fun _ => Go [])      (* 55 *)
  | FPApi o a => Do (OPoolGet o) (fun x => Go (match fst x with
                                               | None => [FUb (UbNullPool o)]
                                               | Some pl => pact_frames o pl a
                                               end))                (* 301-334 *)
  | FSched o pl g v u caps => Do (ONewState v (PuFun u)) (fun p => Go [FSched1 o pl g p u caps]) (* thread_pool.h:218 *)
  | FSched1 o pl g p u caps => Do (ONewState true PuJob) (fun q => Go [FSched2 o pl g p q u caps]) (* thread_pool.cpp:83 *)
  | FSched2 o pl g p q u caps => Do (OLock (LPool pl)) (fun _ => Go [FSched3 o pl g p q u caps]) (* 84 *)
  | FSched3 o pl g p q u caps =>                                    (* 85-93 *)
      Do (OPAdd pl g (TPack q (BTask (TPack p (BUser u caps)))) p q)
         (fun j => Go [FPNotify pl (g_level g); FPUnl pl; FSched4 o p j])
  | FSched4 o p j => Do (OHndNew false (Some p)) (fun h => Go [FSched5 o h j]) (* thread_pool.h:219-223 *)
  | FSched5 o h j => Do (OPoolGet o) (fun x => Go [FRes (RJob h j (snd x))])
  | FPNotify pl lv => Do (OPWork pl lv) (fun ws => Go [FPDisp pl ws]) (* thread_pool.cpp:194-203 *)
  | FPDisp pl ws =>                                                 (* 203-210 *)
      match ws with
      | [] => Do ONop (fun _ => Go [])
      | (lv, i) :: r => Do ONop (fun _ => Go [FDisp i (TCheck pl lv) LkDisc; FPDisp pl r])
      end
  | FPUnl pl => Do (OUnlock (LPool pl)) (fun _ => Go [])
  | FPChg pl j g => Do (OLock (LPool pl)) (fun _ => Go [FPChg1 pl j g]) (* 98 *)
  | FPChg1 pl j g =>                                                (* 100-115 *)
      Do (OPChange pl j g) (fun b : bool => Go (if b then [FPNotify pl (g_level g); FPUnl pl] else [FPUnl pl]))
  | FPClr pl j chk => Do (OLock (LPool pl)) (fun _ => Go [FPClr1 pl j chk]) (* 120 *)
  | FPClr1 pl j chk =>                                              (* 121-136: the entry is destroyed under the lock *)
      Do (OPClear pl j chk) (fun x => Go (match x with
                                          | Some k => destroy [k] ++ [FPUnl pl]
                                          | None => [FPUnl pl]
                                          end))
  | FPStopAll pl => Do (OLock (LPool pl)) (fun _ => Go [FPClrAll pl]) (* 140 *)
  | FPClrAll pl => Do (OPClearAll pl) (fun ks => Go (destroy ks ++ [FPUnl pl])) (* 141-143 *)
  | FPWait pl j => Do (OPFind pl j) (fun x => Go (match x with None => [] | Some q => [FSt q None GApi] end)) (* 145-159 *)
  | FPWaitAll pl => Do (OPFuts pl) (fun ps => Go [FWaitList ps])    (* 161-179 *)
  | FPCount pl => Do (OPCount pl) (fun n => Go [FRes (RInt (Z.of_nat n))])
  | FPMove d s =>                                                   (* thread_pool.h:148-149, thread_pool.cpp:68-79 *)
      Do (OPoolMove d s) (fun x => Go (match x with
                                       | None => [FPMoveS d s]
                                       | Some pl => [FPStopAll pl; FPJoin pl; FPMoveS d s]
                                       end))
  | FPMoveS d s => Do (OPoolSent d s) (fun _ => Go [])
  | FPKill o => Do (OPoolKill o) (fun x => Go (match x with None => [] | Some pl => [FPStopAll pl; FPJoin pl] end)) (* 68-79 *)
  | FPJoin pl => Do (OPMoveW pl) (fun ws => Go [FJoinL ws])         (* 72-78 *)
  | FJoinL ws => match ws with
                 | [] => Do ONop (fun _ => Go [])
                 | (n, i) :: r => Do ONop (fun _ => Go [FNExit i; FJoin n; FJoinL r]) (* thread.cpp:717-723 *)
                 end
  | FCheck pl lv => Do OExit (fun b : bool => Go (if b then [] else [FCheck1 pl lv])) (* thread_pool.cpp:238-241 *)
  | FCheck1 pl lv => Do (OLock (LPool pl)) (fun _ => Go [FCheck2 pl lv]) (* 247 *)
  | FCheck2 pl lv =>                                                (* 248-275 *)
      Do (OPTake pl lv) (fun x => Go (match snd x with
                                      | None => [FPUnl pl]
                                      | Some (j, k) => [FPUnl pl; FRun k; FCheckEnd pl j k]
                                      end))
  | FCheckEnd pl j k => Do (OLog (fun t => EvJobEnd t pl j)) (fun _ => Go ([FPClr pl j false] ++ destroy [k])) (* 278 *)
  | FJob s o a => Do (OSentQ s) (fun b : bool => Go (if b then [FPApi o a] else [])) (* 336-360 *)
  end.

(** Exception propagation: what happens to frame [g] when the exception [e]
    leaves the frame above it (stack unwinding, handlers). *)
Definition catch (g : frame) (e : exn) : act :=
  match g with
  | FApi c => Do (OLog (fun t => EvRet t c (RExn e))) (fun _ => Go [])  (* the API call throws to the user code *)
  | FNoexcept => Do (OUb UbTerminate) (fun _ => Go [])
  | FEnd => Do (OUb UbTerminate) (fun _ => Go [])
  | FDrop k => Do ONop (fun _ => Go (destroy [k] ++ [FThrow e]))
  | FCheckEnd pl j k => Do ONop (fun _ => Go (destroy [k] ++ [FThrow e]))
  | FPackGuard p => Do ONop (fun _ => Go [FSet p (OExn e); FSwallow])   (* future.hpp:637-643 *)
  | FSwallow => Do ONop (fun _ => Go [])                                (* future.hpp:644-646 *)
  | FDestroy _ => Do (OUb UbTerminate) (fun _ => Go [])                 (* destructors are noexcept *)
  | FWMark w a | FWUnl w a =>                                           (* the lock and, in when_*, the shared_ptr are released *)
      Do (OUnlock (LWhen w)) (fun _ => Go (match a with WaRet => [FWRel w; FThrow e] | _ => [FThrow e] end))
  | FPUnl pl => Do (OUnlock (LPool pl)) (fun _ => Go [FThrow e])
  | FNotifyL _ => Do (OUb UbTerminate) (fun _ => Go [])                 (* notify_one / notify_all are noexcept *)
  | FPoEnd c => Do (OLog (fun t => EvAbort t c)) (fun _ => Go [FThrow e]) (* thread.cpp:428-429 is skipped *)
  | FRes _ | FProc _ | FPfNow _ _ | FLoop | FSlNow _ | FSemRe _ _ _ _ _ _ _
  | FUnreg | FPackVal _ => Do ONop (fun _ => Go [FThrow e])
  | _ => Halt
  end.

(** The API calls. *)
Definition api_frames (c : api) : list frame :=
  match c with
  | AInit => [FInit] | AShutdown d => [FShut d]
  | ARegThis => [FRegSelf] | ARegThread n => [FReg n] | AUnregThis => [FUnreg]
  | AInvoke i u caps => [FInvoke i (TUser u caps) LkUser]           (* thread.h:293-298 *)
  | ADispatch i u caps => [FDisp i (TUser u caps) LkUser]
  | ANotify i => [FDisp i TNop LkDisc]                              (* thread.cpp:335-341 *)
  | ANotifyExit i => [FNExit i]
  | ASetConfig i => [FDisp i TConfig LkUser]                        (* thread.cpp:725-735 *)
  | AGetAll => [FGetAll] | ACount i => [FCount i] | AMainId => [FMainId] | AMyId => [FMyId]
  | ADepth => [FDepth] | AIsReg => [FIsReg] | AExitQ => [FExitQ]
  | AProcess => [FProcess] | AProcessFor d => [FProcessFor d]
  | AWait => [FWait None WApi] | AWaitFor d => [FWaitFor d WApiFor] | AWaitUntil z => [FWaitUntil z]
  | ASleepFor d => [FSleepFor d] | ASleepUntil z => [FSleepUntil z]
  | AStdThread u => [FSpawn (BFun u) SpStd]
  | AThread o b => [FThNew o b] | AThJoin o => [FThJoin o] | AThDetach o => [FThDetach o]
  | AThMove d s => [FThMove d s] | AThAssign d s => [FThAssign d s] | AThSwap a b => [FThSwap a b]
  | AThDtor o => [FThDtor o] | AThId o => [FThId o]
  | AULock m => [FULock m] | AUUnlock m => [FUUnlock m]
  | ACvWait c m => [FSem (SCv c) (Some (LUser m)) None KCv]         (* condition_variable.hpp:37-49 *)
  | ACvWaitFor c m d => [FSem (SCv c) (Some (LUser m)) (Some d) KCvFor] (* 58-72 *)
  | ACvNotifyOne c => [FNotify (SCv c) false] | ACvNotifyAll c => [FNotify (SCv c) true]
  | AMLock m => [FMLock m] | AMTry m => [FMTry m] | AMUnlock m => [FMUnlock m]
  | APromise v => [FPNew v]
  | APSet pr v => [FPSet pr (OVal v)] | APSetExn pr n => [FPSet pr (OExn (XUser n))]
  | APAbandon pr => [FPSet pr (OExn XBroken)]
  | APGetFuture pr => [FPGetF pr] | APDtor pr => [FPDtor pr] | APAssign d s => [FPAssign d s]
  | AFValid h => [FHValid h] | AFReady h => [FHReady h] | AFHasError h => [FHErr h]
  | AFWait h => [FHWait h None] | AFWaitFor h d => [FHWait h (Some d)] | AFGet h => [FGet h]
  | AFShare h => [FHShare h] | AFCopy h => [FHCopy h] | AFMove h => [FHMove h]
  | AFFromVal p sh => [FHFrom sh p]
  | AFThen h i pol v u caps => [FThen h i pol v u caps]
  | AFThenNew h pol v u caps => [FSpawn BOnce (SpThen h pol v u caps)]
  | AAsync i pol v u caps => [FAsync i pol v u caps]
  | AAsyncNew pol v u caps => [FSpawn BOnce (SpAsync pol v u caps)]
  | AMakeReady v => [FMkReady (match v with VUnit => true | _ => false end) (OVal v)]
  | AMakeExn n => [FMkReady false (OExn (XUser n))]
  | AWhenAll hs => [FWhen KAll hs] | AWhenAny vec hs => [FWhen (KAny vec) hs]
  | APool o lvs => [FPool o lvs]
  | APSched o g v u caps => [FPApi o (PaSched g v u caps)]
  | APChange o j g => [FPApi o (PaChange j g)] | APStop o j => [FPApi o (PaStop j)]
  | APStopAll o => [FPApi o PaStopAll] | APWait o j => [FPApi o (PaWait j)]
  | APWaitAll o => [FPApi o PaWaitAll] | APCount o => [FPApi o PaCount]
  | APMove d s => [FPMove d s] | APDestroy o => [FPKill o]
  | AJStop s o j => [FJob s o (PaStop j)] | AJChange s o j g => [FJob s o (PaChange j g)]
  end.
