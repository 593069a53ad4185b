(** * SpecOwn: who is responsible for a shared state. *)
From Verif Require Import Types Core State Ops Code Machine Spec.

(** The closure owns the promise of [q] (future.hpp:627-629): it is the packaged
    task of [q], or wraps it (a pool job). *)
Fixpoint has (q : sid) (k : task) : bool :=
  match k with
  | TPack p b => (p =? q) || match b with BTask k' => has q k' | _ => false end
  | _ => false
  end.
Definition has_cb (q : sid) (cb : callback) : bool := has q (cb_task cb).
Definition has_item (q : sid) (d : ditem) : bool :=
  match d with
  | DTask k => has q k
  | DBody (BTask k) => has q k
  | DProm p => p =? q
  | _ => false
  end.
Definition is_sid (q : sid) (x : option sid) : bool := match x with Some p => p =? q | None => false end.
Definition has_lk (q : sid) (c : lk) : bool :=
  match c with LkFire _ rest lft => existsb (has_cb q) rest || existsb (has q) lft | _ => false end.
(** A local variable of a call in progress owns the promise of [q]. *)
Definition frame_has (q : sid) (f : frame) : bool :=
  match f with
  | FDrop k | FCheckEnd _ _ k => has q k
  | FDestroy l => existsb (has_item q) l
  | FPromDtor p | FPNew1 p | FMkReady1 p _ => p =? q
  | FPAssign1 _ x => is_sid q x
  | FInvoke _ k c | FPush _ k c | FDisp _ k c | FLaunch _ _ k c | FLaunch1 _ _ k c => has q k || has_lk q c
  | FSet2 _ cbs => existsb (has_cb q) cbs
  | FFire _ cbs lft => existsb (has_cb q) cbs || existsb (has q) lft
  | FFire1 _ cb c => has_cb q cb || has_lk q c
  | FThen2 _ cb _ => has_cb q cb
  | FWAtt _ _ _ _ _ p _ | FSched1 _ _ _ p _ _ => p =? q
  | FSched2 _ _ _ p p' _ _ | FSched3 _ _ _ p p' _ _ => (p =? q) || (p' =? q)
  | _ => false
  end.
(** Something in state [s] owns the promise of [q]: a queued closure, a callback
    attached to a state, a promise object, a combinator context, a pool job, or a
    local variable. *)
Definition owned (q : sid) (s : st) : Prop :=
  (exists i k, alive (hp s) i = true /\ In k (ctx_pending (h_ctxs (hp s) i)) /\ has q k = true) \/
  (exists p cb, In cb (fs_cbs (h_fsts (hp s) p)) /\ has_cb q cb = true) \/
  (exists pr, h_prms (hp s) pr = Some q) \/
  (exists w, w_refs (h_wcs (hp s) w) <> 0 /\ w_prom (h_wcs (hp s) w) = q) \/
  (exists pl j b, In (j, b) (pl_jobs (h_pools (hp s) pl)) /\ has q (jb_callable b) = true) \/
  (exists t f, In f (stk s t) /\ frame_has q f = true).
(** A thread is inside set_value, set_exception or the destructor of the promise
    and is about to make [q] ready. *)
Definition being_set (q : sid) (s : st) : Prop :=
  exists t f, In f (stk s t) /\ match f with FSet p _ | FSet1 p _ => p = q | _ => False end.
Definition created (q : sid) (tr : list event) : Prop :=
  (exists t v u, In (EvState t q v u) tr) \/ (exists t a w ins, In (EvWhen t a w q ins) tr).
(** A promise object has referred to [q]. *)
Definition promised (q : sid) (tr : list event) : Prop := exists t pr, In (EvPrm t pr (Some q)) tr.
(** A promise object that refers to [q] was assigned another promise. *)
Definition overwritten (q : sid) (tr : list event) : Prop :=
  exists tr1 t d sr x tr2, tr = tr1 ++ EvPrm t d x :: tr2 /\ In (EvCall t (APAssign d sr)) tr1 /\ prom_of d tr1 = Some q.
(** Its next step does that. *)
Definition setting (q : sid) (s : st) : Prop :=
  exists t f r, stk s t = f :: r /\ match f with FSet p _ | FSet1 p _ => p = q | _ => False end.
