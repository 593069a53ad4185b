(** * SpecRace: data races on the members that are not atomic.
    C++ calls it a data race when two threads access one memory location, at least
    one of them writes, and no lock orders the two accesses.  [accesses h f] lists the
    plain members that the next step of a thread reads or writes when its top frame
    is [f].  [ac_own] says that the step is a whole critical section of the mutex that
    guards the member: two such steps come one after the other.  A step made while the
    mutex is held since an earlier step is not marked.  Left out: the configuration
    data, and the writes of the constructor of a pool (nobody else can reach the pool
    yet). *)
From Coq Require Import List Arith Bool.
Import ListNotations.
From Verif Require Import Types Core State Ops Code Machine.

Inductive cell :=
| CExn (p : sid)                         (* basic_state::exception, future_state.hpp:27 *)
| CVal (p : sid)                         (* future_state::value, 130 *)
| CCbs (p : sid)                         (* basic_state::callbacks, 25 *)
| CFlag (w : nat)                        (* ready, promise_set, ready_futures, when_all_any.hpp:225-230, 297-304 *)
| CElem (w i : nat)                      (* element i of result or result.futures, 227, 299 *)
| CMain                                  (* main_thread_id, thread.cpp:38 *)
| CJobs (pl : nat)                       (* the jobs and the queues of a pool *)
| CWorkers (pl : nat).                   (* the workers of a pool *)
Record access := mkAc { ac_cell : cell; ac_write : bool; ac_own : bool }.

(** The result is moved into the promise, when_all_any.hpp:170, 250, 345-346, 359-360. *)
Definition elems (w n : nat) : list access := map (fun i => mkAc (CElem w i) true false) (seq 0 n).

Definition accesses (h : heap) (f : frame) : list access :=
  match f with
  (* set_value and set_exception: the guard is held, future_state.hpp:42-62, 136-151, 176-186 *)
  | FSet1 p o =>
      if fs_ready (h_fsts h p) then []
      else mkAc (CCbs p) true false ::
           match o with
           | OExn _ => [mkAc (CExn p) true false]
           | OVal _ => if fs_void (h_fsts h p) then [] else [mkAc (CVal p) true false]
           end
  (* set_continuation, 74-83 *)
  | FThen2 p _ _ | FWAtt _ _ _ _ p _ _ => if fs_ready (h_fsts h p) then [] else [mkAc (CCbs p) true true]
  (* get_value_assuming_ready, 153-170; for void 188-191 and 118-124: no lock *)
  | FGet3 p _ =>
      if fs_void (h_fsts h p) then [mkAc (CExn p) false false]
      else [mkAc (CVal p) false true; mkAc (CExn p) false true]
  (* thread.cpp:181-182 and 390-394 *)
  | FInit3 _ => [mkAc CMain true true]
  | FMainId => [mkAc CMain false false]
  (* when_all_any.hpp:71-82, 166-171, 246-251, 339-350, 356-362, 405-411 *)
  | FWIn all w i _ _ =>
      let x := h_wcs h w in
      mkAc (CFlag w) true false ::
      (if all then mkAc (CElem w i) true false :: (if S (w_nready x) =? w_total x then elems w (w_total x) else [])
       else if w_ready x then []
       else mkAc (CElem w i) true false :: (if (w_processed x =? w_total x) && negb (w_set x) then elems w (w_total x) else []))
  | FWFin1 w =>
      let x := h_wcs h w in
      mkAc (CFlag w) true false :: (if w_ready x && negb (w_set x) then elems w (w_total x) else [])
  | FWMark w _ => [mkAc (CFlag w) true false]
  (* the calling thread fills the elements, 149, 158, 241, 332; and calls then, 67, 161, 242, 334: no lock *)
  | FWFillAll w _ _ (_ :: _) acc => [mkAc (CElem w (length acc)) true false]
  | FWEach w _ _ i (WrH (_ :: _)) => [mkAc (CElem w i) true false]
  | FWThen w _ _ i u _ _ => [mkAc (CElem w i) u false]
  (* thread_pool.cpp: 85-92, 100-115, 121-135, 141-142, 248-270 *)
  | FSched3 _ pl _ _ _ _ _ | FPChg1 pl _ _ | FPClr1 pl _ _ | FPClrAll pl | FCheck2 pl _ => [mkAc (CJobs pl) true false]
  (* 147-156, 163-173, 181-185 *)
  | FPWait pl _ | FPWaitAll pl | FPCount pl => [mkAc (CJobs pl) false true]
  (* 194-213, 72-76 *)
  | FPNotify pl _ | FPDisp pl _ => [mkAc (CWorkers pl) false false]
  | FPJoin pl => [mkAc (CWorkers pl) true true]
  | _ => []
  end.

(** Thread [t] can make its next step now, and the step makes access [a]. *)
Definition about_to (s : st) (t : tid) (a : access) : Prop :=
  (exists inp s', step s (LStep t inp) = Some s') /\ exists f r, stk s t = f :: r /\ In a (accesses (hp s) f).
Definition race (s : st) (t u : tid) (c : cell) : Prop :=
  t <> u /\ exists a b, about_to s t a /\ about_to s u b /\ ac_cell a = c /\ ac_cell b = c /\
    ac_write a || ac_write b = true /\ ac_own a && ac_own b = false.

(** The next step of [t] is the read in get of a void future, the write of an exception,
    the read in main_thread::get_id, the write in init. *)
Definition at_get (s : st) (t : tid) (p : sid) : Prop := exists x r, stk s t = FGet3 p x :: r.
Definition at_fail (s : st) (t : tid) (p : sid) : Prop := exists e r, stk s t = FSet1 p (OExn e) :: r.
Definition at_main (s : st) (t : tid) : Prop := exists r, stk s t = FMainId :: r.
Definition at_init (s : st) (t : tid) : Prop := exists i r, stk s t = FInit3 i :: r.
Definition known_race (s : st) (t u : tid) (c : cell) : Prop :=
  match c with
  | CMain => at_main s t /\ at_init s u
  | CExn p => at_get s t p /\ at_fail s u p /\ fs_void (h_fsts (hp s) p) = true /\ fs_ready (h_fsts (hp s) p) = false
  | _ => False
  end.
