(** * SpecCheck: checks of a pool's queue that are still to come.
    A worker looks into the queue of the pool when it runs the closure TCheck
    (thread_pool.cpp:206-209, 236-279). *)
From Verif Require Import Types Core State Ops Code Machine Spec SpecPool.

Definition is_check (pl lv : nat) (k : task) : bool := match k with TCheck p l => (p =? pl) && (l =? lv) | _ => false end.
Definition at_id (x : option id) (i : id) : bool := match x with Some j => j =? i | None => false end.
(** Workers of category [lv] with the id [i] among those still to be informed. *)
Fixpoint how_often (lv : nat) (i : id) (ws : list (nat * id)) : nat :=
  match ws with [] => 0 | (l, j) :: r => (if (l =? lv) && (j =? i) then 1 else 0) + how_often lv i r end.
(** The checks of pool [pl] that frame [f] will still submit to worker [i], a
    worker of category [lv]. *)
Definition sending (pl lv : nat) (i : id) (f : frame) : nat :=
  match f with
  | FPNotify p l => if (p =? pl) && (lv <=? l) then 1 else 0
  | FPDisp p ws => if p =? pl then how_often lv i ws else 0
  | FDisp c k _ | FInvoke c k _ | FPush c k _ => if (c =? i) && is_check pl lv k then 1 else 0
  | _ => 0
  end.
(** The frame is a check that has not yet looked into the queue. *)
Definition checking (pl lv : nat) (f : frame) : bool :=
  match f with
  | FRun k => is_check pl lv k
  | FCheck p l | FCheck1 p l | FCheck2 p l => (p =? pl) && (l =? lv)
  | _ => false
  end.
(** The closures accepted for [i] and not started. *)
Definition queued (i : id) (tr : list event) : list task := skipn (length (started i tr)) (accepted i tr).
(** A check by worker [i], running on thread [n], is to come: it is queued, a thread
    is about to queue it, or [n] is about to do it. *)
Definition check_due (pl lv : nat) (n : tid) (i : id) (s : st) : Prop :=
  In (TCheck pl lv) (queued i (trace s)) \/
  (exists t f, In f (stk s t) /\ 0 < sending pl lv i f) \/
  (exists f r, stk s n = f :: r /\ attached n (trace s) = Some i /\ checking pl lv f = true).
