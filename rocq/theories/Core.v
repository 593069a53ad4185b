(** * Core: the data structures of the library and the critical sections on
    them, as pure functions.  Each definition cites the lines it models. *)
From Verif Require Import Types.

(** ** Finite-map helpers *)
Definition upd {A} (f : nat -> A) (k : nat) (v : A) : nat -> A :=
  fun x => if x =? k then v else f x.
Definition updl {A} (f : lockid -> A) (k : lockid) (v : A) : lockid -> A :=
  fun x => if lock_eqb x k then v else f x.
Definition upds {A} (f : semid -> A) (k : semid) (v : A) : semid -> A :=
  fun x => if sem_eqb x k then v else f x.
Fixpoint set_nth {A} (n : nat) (v : A) (l : list A) : list A :=
  match l, n with
  | [], _ => []
  | _ :: r, 0 => v :: r
  | x :: r, S m => x :: set_nth m v r
  end.

(** ** thread_context (thread.cpp:12-29)
    Simplifications: vector capacities, capacity_shrink_threashold and the
    name have no effect on which tasks run and are left out; [cx_sig] records
    that wakeup_event was notified since the owner last started to wait on it;
    [cx_refs] lists the threads that hold a shared_ptr copy of the context in a
    local variable, one entry per copy, so that the use count is its length plus
    one while the context is in program_context::contexts;
    processing_stack_depth is an integer so that a decrement below zero would
    be visible as a negative number. *)
Record ctx := mkCtx {
  cx_native : tid;
  cx_tasks : list task;
  cx_proc : list task;
  cx_idx : nat;
  cx_depth : Z;
  cx_wakeup : bool;
  cx_sig : bool;
  cx_exit : bool;
  cx_refs : list tid }.

(** make_shared<thread_context>() as filled in by register_thread_impl,
    thread.cpp:129-137. *)
Definition new_ctx (n : tid) : ctx := mkCtx n [] [] 0 0 false false false [].
(** Value of unused entries of the context table. *)
Definition no_ctx : ctx := mkCtx 0 [] [] 0 0 false false false [].

(** has_tasks_to_process, thread.cpp:292-295 *)
Definition has_tasks_to_process (c : ctx) : bool := cx_idx c <? length (cx_proc c).

(** prepare_tasks, thread.cpp:297-311: swap the two vectors when the processing
    one is exhausted, clear the other one, restart the index. *)
Definition prepare_tasks (c : ctx) : ctx :=
  if negb (has_tasks_to_process c) && negb (match cx_tasks c with [] => true | _ => false end)
  then mkCtx (cx_native c) [] (cx_tasks c) 0 (cx_depth c) (cx_wakeup c) (cx_sig c) (cx_exit c) (cx_refs c)
  else c.

(** The locked first half of process_one, thread.cpp:412-417: move the task at
    the index out (a moved-from std::function is empty), advance, increment the
    depth. *)
Definition take_task (c : ctx) : option task * ctx :=
  let c := prepare_tasks c in
  if has_tasks_to_process c then
    (Some (nth (cx_idx c) (cx_proc c) TNull),
     mkCtx (cx_native c) (cx_tasks c) (set_nth (cx_idx c) TNull (cx_proc c)) (S (cx_idx c))
           (cx_depth c + 1) (cx_wakeup c) (cx_sig c) (cx_exit c) (cx_refs c))
  else (None, c).

(** The locked second half of process_one, thread.cpp:428-429. *)
Definition end_task (c : ctx) : ctx :=
  mkCtx (cx_native c) (cx_tasks c) (cx_proc c) (cx_idx c) (cx_depth c - 1)
        (cx_wakeup c) (cx_sig c) (cx_exit c) (cx_refs c).

(** invoke_packaged_task, thread.cpp:382-384 *)
Definition push_task (c : ctx) (k : task) : ctx :=
  mkCtx (cx_native c) (cx_tasks c ++ [k]) (cx_proc c) (cx_idx c) (cx_depth c)
        true true (cx_exit c) (cx_refs c).

(** notify_for_exit, thread.cpp:330-332 *)
Definition set_exit (c : ctx) : ctx :=
  mkCtx (cx_native c) (cx_tasks c) (cx_proc c) (cx_idx c) (cx_depth c)
        true true true (cx_refs c).

(** wait / wait_for before blocking, thread.cpp:526-528 and 569-571 *)
Definition start_sleep (c : ctx) : ctx :=
  mkCtx (cx_native c) (cx_tasks c) (cx_proc c) (cx_idx c) (cx_depth c)
        false false (cx_exit c) (cx_refs c).
(** wait / wait_for after waking up, thread.cpp:533 and 573 *)
Definition clear_wakeup (c : ctx) : ctx :=
  mkCtx (cx_native c) (cx_tasks c) (cx_proc c) (cx_idx c) (cx_depth c)
        false (cx_sig c) (cx_exit c) (cx_refs c).
(** shared_ptr<thread_context> copies and releases *)
Definition set_refs (c : ctx) (n : list tid) : ctx :=
  mkCtx (cx_native c) (cx_tasks c) (cx_proc c) (cx_idx c) (cx_depth c)
        (cx_wakeup c) (cx_sig c) (cx_exit c) n.

(** get_pending_task_count_detailed, thread.cpp:269-272.  Unsigned C++
    arithmetic is modelled in Z: a wrap would show as a negative term. *)
Definition pending_count (c : ctx) : Z :=
  let left_to_process := (Z.of_nat (length (cx_proc c)) - Z.of_nat (cx_idx c))%Z in
  (cx_depth c + left_to_process + Z.of_nat (length (cx_tasks c)))%Z.

(** Tasks still in the two vectors; also the closures destroyed with the
    context (members are destroyed in reverse order: processing_tasks, then
    tasks, thread.cpp:17-19; moved-from elements are empty functions). *)
Definition ctx_pending (c : ctx) : list task := skipn (cx_idx c) (cx_proc c) ++ cx_tasks c.

(** ** detail::semaphore (detail/semaphore.h:90-107): a vector of waiter_info *)
Definition waiter := (id * nat)%type.   (* thread id, interrupt token *)

(** The search of add_waiter, semaphore.cpp:160-169 *)
Definition find_waiter (ws : list waiter) (i : id) : option nat :=
  option_map snd (find (fun w => fst w =? i) ws).
(** remove_waiter, semaphore.cpp:178-189 *)
Definition del_waiter (ws : list waiter) (i : id) : list waiter :=
  filter (fun w => negb (fst w =? i)) ws.

(** ** future_state (detail/future_state.hpp:18-192)
    [fs_void] selects the specialisation future_state<void>; [fs_taken] records
    that a unique future moved the value out (future.hpp:307). *)
Record fstate := mkFs {
  fs_void : bool;
  fs_status : vstatus;
  fs_value : option val;
  fs_exn : option exn;
  fs_cbs : list callback;
  fs_retrieved : bool;
  fs_taken : bool }.
Definition new_fs (v : bool) : fstate := mkFs v SNotSet None None [] false false.

(** ready, future_state.hpp:32-35; has_error, 37-40 *)
Definition fs_ready (f : fstate) : bool := match fs_status f with SNotSet => false | _ => true end.
Definition fs_has_error (f : fstate) : bool := match fs_status f with SError => true | _ => false end.

(** set_value (142-150, 178-185) / set_exception (44-51) followed by the locked
    part of set_ready (56-60), when not yet ready: store the outcome, set the
    status, take the callbacks. *)
Definition fs_set (f : fstate) (o : outcome) : fstate * list callback :=
  (match o with
   | OVal v => mkFs (fs_void f) SReady (if fs_void f then fs_value f else Some v) (fs_exn f) []
                    (fs_retrieved f) (fs_taken f)
   | OExn e => mkFs (fs_void f) SError (fs_value f) (Some e) [] (fs_retrieved f) (fs_taken f)
   end, fs_cbs f).

(** set_continuation when not ready, future_state.hpp:80 *)
Definition fs_attach (f : fstate) (c : callback) : fstate :=
  mkFs (fs_void f) (fs_status f) (fs_value f) (fs_exn f) (fs_cbs f ++ [c]) (fs_retrieved f) (fs_taken f).
Definition fs_retrieve (f : fstate) : fstate :=
  mkFs (fs_void f) (fs_status f) (fs_value f) (fs_exn f) (fs_cbs f) true (fs_taken f).
Definition fs_take (f : fstate) : fstate :=
  mkFs (fs_void f) (fs_status f) (fs_value f) (fs_exn f) (fs_cbs f) (fs_retrieved f) true.

(** get_value_assuming_ready, future_state.hpp:153-170 (T) and 188-191 (void) *)
Definition fs_get (f : fstate) : res :=
  if fs_void f then
    match fs_exn f with Some e => RExn e | None => RVal VUnit end
  else
    match fs_value f with
    | Some v => RVal v
    | None => match fs_exn f with Some e => RExn e | None => RExn XBroken end
    end.

(** ** Combinator contexts (when_all_any.hpp:223-230, 267-274, 295-318, 381-396) *)
Record wctx := mkW {
  w_total : nat;
  w_nready : nat;                    (* when_all: ready_futures *)
  w_processed : nat;                 (* when_any: processed *)
  w_ready : bool;                    (* when_any: ready *)
  w_set : bool;                      (* when_any: promise_set / result_moved *)
  w_index : option nat;              (* when_any: result.index *)
  w_result : list (option sid);      (* result / result.futures *)
  w_states : list sid;               (* when_any: states *)
  w_prom : sid;                      (* the promise p *)
  w_refs : nat }.                    (* shared_ptr use count of the context *)
Definition no_w : wctx := mkW 0 0 0 false false None [] [] 0 0.

(** when_all lambda, lines 246-251 (166-171): store the future, count it;
    when it was the last one the result is moved into the promise. *)
Definition wall_step (w : wctx) (i : nat) (par : sid) : wctx * option val :=
  let r := set_nth i (Some par) (w_result w) in
  let n := S (w_nready w) in
  if n =? w_total w then
    (mkW (w_total w) n (w_processed w) (w_ready w) (w_set w) (w_index w) [] (w_states w) (w_prom w) (w_refs w),
     Some (VFuts r))
  else
    (mkW (w_total w) n (w_processed w) (w_ready w) (w_set w) (w_index w) r (w_states w) (w_prom w) (w_refs w), None).

(** recover_input_futures, lines 306-317 and 97-107 *)
Fixpoint recover (r : list (option sid)) (st : list sid) : list (option sid) :=
  match r, st with
  | Some x :: r', _ :: st' => Some x :: recover r' st'
  | None :: r', s :: st' => Some s :: recover r' st'
  | r', _ => r'
  end.

(** when_any lambda, lines 339-347 (71-79) up to and including the move of the result *)
Definition wany_step (w : wctx) (i : nat) (par : sid) : wctx * option val :=
  if w_ready w then (w, None)
  else
    let r := set_nth i (Some par) (w_result w) in
    if (w_processed w =? w_total w) && negb (w_set w) then
      (mkW (w_total w) (w_nready w) (w_processed w) true (w_set w) (Some i) [] (w_states w) (w_prom w) (w_refs w),
       Some (VAny (Some i) (recover r (w_states w))))
    else
      (mkW (w_total w) (w_nready w) (w_processed w) true (w_set w) (Some i) r (w_states w) (w_prom w) (w_refs w), None).

(** final block of when_any, lines 355-363 (404-412) *)
Definition wany_final (w : wctx) : wctx * option val :=
  if w_ready w && negb (w_set w) then
    (mkW (w_total w) (w_nready w) (w_processed w) (w_ready w) (w_set w) (w_index w) [] (w_states w) (w_prom w) (w_refs w),
     Some (VAny (w_index w) (recover (w_result w) (w_states w))))
  else (w, None).
(** promise_set = true / result_moved = true, lines 348, 361, 80, 410 *)
Definition w_mark (w : wctx) : wctx :=
  mkW (w_total w) (w_nready w) (w_processed w) (w_ready w) true (w_index w) (w_result w) (w_states w) (w_prom w) (w_refs w).
(** emplace one input into result (and states), lines 241, 332-333, 149-150, 158 *)
Definition w_fill (w : wctx) (p : sid) : wctx :=
  mkW (w_total w) (w_nready w) (w_processed w) (w_ready w) (w_set w) (w_index w)
      (w_result w ++ [Some p]) (w_states w ++ [p]) (w_prom w) (w_refs w).
(** the part of .then that empties result[index] when it is a unique future
    (future.hpp:729) and the shared_context copy captured by the lambda *)
Definition w_then (w : wctx) (i : nat) (unique : bool) : wctx :=
  mkW (w_total w) (w_nready w) (w_processed w) (w_ready w) (w_set w) (w_index w)
      (if unique then set_nth i None (w_result w) else w_result w) (w_states w) (w_prom w) (S (w_refs w)).
(** ++processed, lines 352, 93 *)
Definition w_process (w : wctx) : wctx :=
  mkW (w_total w) (w_nready w) (S (w_processed w)) (w_ready w) (w_set w) (w_index w) (w_result w) (w_states w)
      (w_prom w) (w_refs w).
Definition w_setrefs (w : wctx) (n : nat) : wctx :=
  mkW (w_total w) (w_nready w) (w_processed w) (w_ready w) (w_set w) (w_index w) (w_result w) (w_states w) (w_prom w) n.

(** ** thread_pool::impl (thread_pool.cpp:13-287) *)
(** job_handle, lines 15-19 *)
Record handle := mkHandle { hd_id : nat; hd_group : group }.
(** job_info, lines 21-27 *)
Record job := mkJob { jb_group : group; jb_callable : task; jb_future : sid }.
Record pool := mkPool {
  pl_free : nat;                               (* free_id_, line 283 *)
  pl_workers : list (nat * (tid * id));        (* workers_, by level in map order: level, thread *)
  pl_jobs : list (nat * job);                  (* jobs_ *)
  pl_queues : list (nat * list handle) }.      (* job_priority_queues_, a std::map: sorted by level *)
Definition no_pool : pool := mkPool 1 [] [] [].

(** std::map::operator[] on the queues: insert an empty queue if absent *)
Fixpoint qs_touch (qs : list (nat * list handle)) (lv : nat) : list (nat * list handle) :=
  match qs with
  | [] => [(lv, [])]
  | (l, q) :: r => if l =? lv then (l, q) :: r
                   else if lv <? l then (lv, []) :: (l, q) :: r
                   else (l, q) :: qs_touch r lv
  end.
Fixpoint qs_get (qs : list (nat * list handle)) (lv : nat) : list handle :=
  match qs with
  | [] => []
  | (l, q) :: r => if l =? lv then q else qs_get r lv
  end.
Fixpoint qs_set (qs : list (nat * list handle)) (lv : nat) (v : list handle) : list (nat * list handle) :=
  match qs with
  | [] => []
  | (l, q) :: r => if l =? lv then (l, v) :: r else (l, q) :: qs_set r lv v
  end.
(** job_priority_queues_[level].emplace(handle), line 190 *)
Definition qs_push (qs : list (nat * list handle)) (lv : nat) (h : handle) :=
  let qs := qs_touch qs lv in qs_set qs lv (qs_get qs lv ++ [h]).

(** get_highest_priority_queue_above, lines 215-234 (the selected level) *)
Fixpoint select_level (qs : list (nat * list handle)) (level selected : nat) : nat :=
  match qs with
  | [] => selected
  | (l, q) :: r =>
      select_level r level (if (level <=? l) && negb (match q with [] => true | _ => false end) then l else selected)
  end.

(** std::priority_queue with operator< on group.priority (lines 29-32): top()
    is an element of maximal priority.  Which one among equals is unspecified;
    the index [inp] supplied by the schedule chooses. *)
Definition max_prio (q : list handle) : nat := fold_right (fun h m => Nat.max (g_prio (hd_group h)) m) 0 q.
Fixpoint first_max (q : list handle) (m : nat) : nat :=
  match q with
  | [] => 0
  | h :: r => if g_prio (hd_group h) =? m then 0 else S (first_max r m)
  end.
Definition pq_index (q : list handle) (inp : nat) : nat :=
  match nth_error q inp with
  | Some h => if g_prio (hd_group h) =? max_prio q then inp else first_max q (max_prio q)
  | None => first_max q (max_prio q)
  end.
Fixpoint remove_nth {A} (n : nat) (l : list A) : list A :=
  match l, n with
  | [], _ => []
  | _ :: r, 0 => r
  | x :: r, S m => x :: remove_nth m r
  end.

Fixpoint jobs_find (js : list (nat * job)) (j : nat) : option job :=
  match js with
  | [] => None
  | (k, x) :: r => if k =? j then Some x else jobs_find r j
  end.
Fixpoint jobs_set (js : list (nat * job)) (j : nat) (x : job) : list (nat * job) :=
  match js with
  | [] => []
  | (k, y) :: r => if k =? j then (k, x) :: r else (k, y) :: jobs_set r j x
  end.
Definition jobs_erase (js : list (nat * job)) (j : nat) : list (nat * job) :=
  filter (fun e => negb (fst e =? j)) js.

Definition task_null (k : task) : bool := match k with TNull => true | _ => false end.

(** notify_workers, lines 194-213: the workers that get a check, in order *)
Definition workers_for (p : pool) (lv : nat) : list (nat * id) :=
  map (fun w => (fst w, snd (snd w))) (filter (fun w => fst w <=? lv) (pl_workers p)).

(** add_job under the lock, lines 85-92 *)
Definition pool_add (p : pool) (g : group) (k : task) (q : sid) : pool * nat :=
  let j := pl_free p in
  (mkPool (S j) (pl_workers p) (pl_jobs p ++ [(j, mkJob g k q)])
          (qs_push (pl_queues p) (g_level g) (mkHandle j g)), j).

(** change_priority, lines 100-115; true when a handle was queued *)
Definition pool_change (p : pool) (j : nat) (g : group) : pool * bool :=
  match jobs_find (pl_jobs p) j with
  | None => (p, false)
  | Some x =>
      if task_null (jb_callable x) || group_eqb (jb_group x) g then (p, false)
      else
        (mkPool (pl_free p) (pl_workers p) (jobs_set (pl_jobs p) j (mkJob g (jb_callable x) (jb_future x)))
                (qs_push (pl_queues p) (g_level g) (mkHandle j g)), true)
  end.

(** clear, lines 121-135: the new pool and whether the entry was removed *)
Definition pool_clear (p : pool) (j : nat) (check_callable : bool) : pool * option job :=
  match jobs_find (pl_jobs p) j with
  | None => (p, None)
  | Some x =>
      if check_callable && task_null (jb_callable x) then (p, None)
      else (mkPool (pl_free p) (pl_workers p) (jobs_erase (pl_jobs p) j) (pl_queues p), Some x)
  end.

(** clear_all, lines 141-142 *)
Definition pool_clear_all (p : pool) : pool := mkPool (pl_free p) (pl_workers p) [] [].

(** The queue entry considered by check_jobs, lines 248-254. *)
Definition pool_top (p : pool) (level inp : nat) : option handle :=
  let q := qs_get (pl_queues p) (select_level (pl_queues p) level level) in
  match q with
  | [] => None
  | _ => Some (nth (pq_index q inp) q (mkHandle 0 (mkGroup 0 0)))
  end.
(** check_jobs under the lock, lines 247-271.  Result: the job taken, if any.
    user_job stays empty when the job was already taken (its callable is empty)
    or when its current level is below the worker's. *)
Definition pool_take (p : pool) (level inp : nat) : pool * option (nat * task) :=
  let lv := select_level (pl_queues p) level level in
  let qs := qs_touch (pl_queues p) lv in
  let q := qs_get qs lv in
  match q with
  | [] => (mkPool (pl_free p) (pl_workers p) (pl_jobs p) qs, None)
  | _ =>
      let n := pq_index q inp in
      let h := nth n q (mkHandle 0 (mkGroup 0 0)) in
      let qs' := qs_set qs lv (remove_nth n q) in
      match jobs_find (pl_jobs p) (hd_id h) with
      | None => (mkPool (pl_free p) (pl_workers p) (pl_jobs p) qs', None)
      | Some x =>
          if level <=? g_level (jb_group x) then
            (mkPool (pl_free p) (pl_workers p)
                    (jobs_set (pl_jobs p) (hd_id h) (mkJob (jb_group x) TNull (jb_future x))) qs',
             if task_null (jb_callable x) then None else Some (hd_id h, jb_callable x))
          else (mkPool (pl_free p) (pl_workers p) (pl_jobs p) qs', None)
      end
  end.

(** visit_at / visit_impl, when_all_any.hpp:187-212, 416-420: recursion from the
    tuple size down; [inl] is the element passed to f, [inr] the exception. *)
Fixpoint visit_impl {A} (i : nat) (tup : list A) (idx : nat) (d : A) : A + exn :=
  match i with
  | 0 => inr XBadIndex
  | S j => if idx =? j then inl (nth j tup d) else visit_impl j tup idx d
  end.
Definition visit_at {A} (tup : list A) (idx : nat) (d : A) : A + exn :=
  visit_impl (length tup) tup idx d.
