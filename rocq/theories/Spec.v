(** * Spec: the vocabulary of the property statements.
    Only lists of observable events (Types.v) occur here, nothing of the model. *)
From Verif Require Import Types.

(** [at_each P tr]: every event [e] of the history [tr] stands in relation [P]
    with the events before it. *)
Definition at_each (P : list event -> event -> Prop) (tr : list event) : Prop :=
  forall tr1 e tr2, tr = tr1 ++ e :: tr2 -> P tr1 e.

(** ** Registration *)
(** Ids given out by registrations that created one. *)
Definition created_ids (tr : list event) : list id :=
  flat_map (fun e => match e with EvReg _ _ i true => [i] | _ => [] end) tr.
(** Pairs (native thread, id) currently registered. *)
Definition reg_step (l : list (tid * id)) (e : event) : list (tid * id) :=
  match e with
  | EvReg _ n i true => (n, i) :: l
  | EvUnreg _ i => filter (fun x => negb (snd x =? i)) l
  | _ => l
  end.
Definition registered (tr : list event) : list (tid * id) := fold_left reg_step tr [].
(** The context the thread itself is attached to (register_this_thread). *)
Definition loc_step (t : tid) (l : option id) (e : event) : option id :=
  match e with
  | EvLoc t' i => if t' =? t then i else l
  | EvSpawn _ n => if n =? t then None else l
  | EvThreadEnd n => if n =? t then None else l
  | _ => l
  end.
Definition attached (t : tid) (tr : list event) : option id := fold_left (loc_step t) tr None.

(** ** Task queues *)
Definition accepted (i : id) (tr : list event) : list task :=
  flat_map (fun e => match e with EvAccept _ j k => if j =? i then [k] else [] | _ => [] end) tr.
Definition started (i : id) (tr : list event) : list task :=
  flat_map (fun e => match e with EvStart _ j k => if j =? i then [k] else [] | _ => [] end) tr.
Definition completed (i : id) (tr : list event) : nat :=
  length (filter (fun e => match e with EvDone _ j => j =? i | _ => false end) tr).
Definition exit_requested (i : id) (tr : list event) : Prop := exists t, In (EvExitSet t i) tr.

(** ** Time *)
Definition clock (tr : list event) : Z :=
  fold_right Z.add 0%Z (map (fun e => match e with EvTick d => d | _ => 0%Z end) tr).

(** The context of [i] was destroyed. *)
Definition gone (i : id) (tr : list event) : Prop := exists ts, In (EvCtxGone i ts) tr.

(** ** API calls *)
(** The native thread that performs an event. *)
Definition actor (e : event) : option tid :=
  match e with
  | EvCall t _ | EvRet t _ _ | EvUser t _ _ _ | EvUserEnd t _ _ _ | EvReg t _ _ _ | EvUnreg t _
  | EvAccept t _ _ | EvStart t _ _ | EvDone t _ | EvAbort t _ | EvSleep t _ | EvExitSet t _
  | EvDrop t _ | EvWaiter t _ _ _ _ | EvUnwaiter t _ _ | EvNotify t _ _ _ | EvInterrupt t _
  | EvReady t _ _ | EvAttach t _ _ | EvFire t _ _ | EvGot t _ _ | EvMxAcq t _ | EvMxRel t _
  | EvJobTake t _ _ _ _ | EvJobSkip t _ _ _ | EvJobClear t _ _ | EvJobAdd t _ _ _ _ _ | EvJobRegroup t _ _ _ | EvJobErase t _ _ | EvJobEnd t _ _ | EvThreadEnd t | EvSpawn t _ | EvLoc t _
  | EvLock t _ | EvUnlock t _ | EvState t _ _ _ | EvPrm t _ _ | EvHnd t _ _ _ | EvThObj t _ _ _
  | EvPoolNew t _ _ | EvWorker t _ _ _ _ | EvWorkersOut t _ | EvPoolMove t _ _ | EvPoolSent t _ _ | EvPoolKill t _ | EvRetr t _ _ | EvInit t _ | EvMain t _ | EvWhen t _ _ _ _ | EvHook t _ _ _ => Some t
  | EvCtxGone _ _ | EvTick _ => None
  end.
Definition by_thread (t : tid) (e : event) : bool :=
  match actor e with Some t' => t' =? t | None => false end.

(** An API call that has not returned yet: what was called, the history before
    the call, and what the thread has done in it so far (not counting what it
    does inside API calls made by user code that runs within this call). *)
Record call := mkCall { cl_api : api; cl_pre : list event; cl_acts : list event }.
Definition add_act (e : event) (cs : list call) : list call :=
  match cs with
  | [] => []
  | c :: r => mkCall (cl_api c) (cl_pre c) (cl_acts c ++ [e]) :: r
  end.
(** The open calls of [t], innermost first; the argument lists the history newest first. *)
Fixpoint calls_r (t : tid) (l : list event) : list call :=
  match l with
  | [] => []
  | e :: r =>
      match e with
      | EvCall t' c => if t' =? t then mkCall c (rev r) [] :: calls_r t r else calls_r t r
      | EvRet t' _ _ => if t' =? t then tl (calls_r t r) else calls_r t r
      | EvSpawn t' n => if n =? t then [] else if t' =? t then add_act e (calls_r t r) else calls_r t r
      | EvThreadEnd n => if n =? t then [] else calls_r t r
      | _ => if by_thread t e then add_act e (calls_r t r) else calls_r t r
      end
  end.
Definition open_calls (t : tid) (tr : list event) : list call := calls_r t (rev tr).

(** Every call that returns in [tr] satisfies [P]: [P t c tr r] is asked for the
    thread, the call, the history at the time of the return, and the result. *)
Definition each_return (P : tid -> call -> list event -> res -> Prop) (tr : list event) : Prop :=
  at_each (fun tr e => match e with
    | EvRet t c r => exists cl rest, open_calls t tr = cl :: rest /\ cl_api cl = c /\ P t cl tr r
    | _ => True
    end) tr.

(** [m] is the history at some moment between the call and the later history [tr]. *)
Definition moment (cl : call) (tr m : list event) : Prop :=
  exists a b, m = cl_pre cl ++ a /\ tr = m ++ b.
(** During the call, at history [m], the event [e] happens. *)
Definition happens (cl : call) (tr m : list event) (e : event) : Prop :=
  exists a b, m = cl_pre cl ++ a /\ tr = m ++ e :: b.

(** ** Replaying the history *)
(** The value given by the latest event for which [f] is defined. *)
Definition latest {A} (f : event -> option A) (d : A) (tr : list event) : A :=
  fold_left (fun x e => match f e with Some y => y | None => x end) tr d.

Definition init_level (tr : list event) : Z :=
  latest (fun e => match e with EvInit _ z => Some z | _ => None end) 0%Z tr.
Definition main_of (tr : list event) : id :=
  latest (fun e => match e with EvMain _ i => Some i | _ => None end) invalid_id tr.
(** The id the thread sees as its own; invalid if it is not attached. *)
Definition my_id (t : tid) (tr : list event) : id :=
  match attached t tr with Some i => i | None => invalid_id end.
Definition reg_ids (tr : list event) : list id := map snd (registered tr).
(** What notified_for_exit reports on [t]. *)
Definition exit_seen (t : tid) (tr : list event) : Prop :=
  match attached t tr with Some i => exit_requested i tr | None => True end.

(** Objects of the user: the state a promise object / future object refers to,
    the native thread owned by a thread object and its id. *)
Definition prom_of (pr : nat) (tr : list event) : option sid :=
  latest (fun e => match e with EvPrm _ p x => if p =? pr then Some x else None | _ => None end) None tr.
Definition fut_of (n : nat) (tr : list event) : bool * option sid :=
  latest (fun e => match e with EvHnd _ m sh x => if m =? n then Some (sh, x) else None | _ => None end) (false, None) tr.
Definition thobj_of (o : nat) (tr : list event) : option tid * id :=
  latest (fun e => match e with EvThObj _ m x i => if m =? o then Some (x, i) else None | _ => None end) (None, invalid_id) tr.

(** Locks and mutexes: the thread that holds them. *)
Definition lock_holder (l : lockid) (tr : list event) : option tid :=
  latest (fun e => match e with
    | EvLock t k => if lock_eqb k l then Some (Some t) else None
    | EvUnlock _ k => if lock_eqb k l then Some None else None
    | _ => None end) None tr.
Definition mx_holder (m : nat) (tr : list event) : option tid :=
  latest (fun e => match e with
    | EvMxAcq t k => if k =? m then Some (Some t) else None
    | EvMxRel _ k => if k =? m then Some None else None
    | _ => None end) None tr.

(** Condition variables: the registered waiters, oldest first. *)
Definition waiters_step (s : semid) (l : list (id * nat)) (e : event) : list (id * nat) :=
  match e with
  | EvWaiter _ s' i tk true => if sem_eqb s' s then l ++ [(i, tk)] else l
  | EvUnwaiter _ s' i => if sem_eqb s' s then filter (fun w => negb (fst w =? i)) l else l
  | EvNotify _ s' _ ws => if sem_eqb s' s then skipn (length ws) l else l
  | _ => l
  end.
Definition waiters (s : semid) (tr : list event) : list (id * nat) := fold_left (waiters_step s) tr [].
Definition interrupted (tk : nat) (tr : list event) : Prop := exists t, In (EvInterrupt t tk) tr.

(** Shared states. *)
Definition outcome_of (p : sid) (tr : list event) : option outcome :=
  latest (fun e => match e with EvReady _ q o => if q =? p then Some (Some o) else None | _ => None end) None tr.
Definition is_ready (p : sid) (tr : list event) : Prop := outcome_of p tr <> None.
Definition void_state (p : sid) (tr : list event) : bool :=
  latest (fun e => match e with EvState _ q v _ => if q =? p then Some v else None | _ => None end) false tr.
(** What get delivers for a stored outcome.  A state of type void without an
    exception delivers a normal return; another state without value and exception
    delivers broken_promise. *)
Definition delivers (void : bool) (o : option outcome) : res :=
  match o with
  | Some (OExn e) => RExn e
  | Some (OVal v) => RVal (if void then VUnit else v)
  | None => if void then RVal VUnit else RExn XBroken
  end.

(** Pools: the pool a pool object owns, and the jobs in its table. *)
Definition pool_step (m : nat -> option nat) (e : event) : nat -> option nat :=
  match e with
  | EvPoolNew _ o pl => fun x => if x =? o then Some pl else m x
  | EvPoolMove _ d s => fun x => if x =? d then m s else if x =? s then None else m x
  | EvPoolKill _ o => fun x => if x =? o then None else m x
  | _ => m
  end.
Definition pool_of (o : nat) (tr : list event) : option nat := fold_left pool_step tr (fun _ => None) o.
Definition jobs_step (pl : nat) (l : list nat) (e : event) : list nat :=
  match e with
  | EvJobAdd _ pl' j _ _ _ => if pl' =? pl then l ++ [j] else l
  | EvJobErase _ pl' js | EvJobClear _ pl' js => if pl' =? pl then filter (fun j => negb (existsb (Nat.eqb j) js)) l else l
  | _ => l
  end.
Definition jobs_of (pl : nat) (tr : list event) : list nat := fold_left (jobs_step pl) tr [].

(** get_future has been called on state [p]. *)
Definition retrieved (p : sid) (tr : list event) : Prop := exists t b, In (EvRetr t p b) tr.
(** Callbacks attached to [p] while it was not ready, oldest first. *)
Definition cbs_step (p : sid) (l : list callback) (ready : bool) (e : event) : list callback :=
  match e with
  | EvAttach _ q c => if (q =? p) && negb ready then l ++ [c] else l
  | _ => l
  end.
Definition ready_step (p : sid) (ready : bool) (e : event) : bool :=
  match e with EvReady _ q _ => if q =? p then true else ready | _ => ready end.
Definition early_step (p : sid) (x : list callback * bool) (e : event) : list callback * bool :=
  (cbs_step p (fst x) (snd x) e, ready_step p (snd x) e).
Definition early_cbs (p : sid) (tr : list event) : list callback := fst (fold_left (early_step p) tr ([], false)).
