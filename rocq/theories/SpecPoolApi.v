(** * SpecPoolApi: what the calls of thread_pool and job_future do and return.
    Only histories occur here. *)
From Verif Require Import Types Spec SpecApi SpecPool.
From Verif Require SpecObj.

(** The worker [i] of level [l] was told to look for a job: the check was queued
    for it, or it is not registered, or it is the calling thread itself and has been
    asked to exit. *)
Definition informed (t : tid) (pl l : nat) (i : id) (cl : call) (tr : list event) : Prop :=
  In (EvAccept t i (TCheck pl l)) (cl_acts cl) \/
  (In (EvDrop t (TCheck pl l)) (cl_acts cl) /\
   (i = invalid_id \/ sometime cl tr (unknown i) \/ (sometime cl tr (fun m => my_id t m = i) /\ sometime cl tr (exit_seen t)))).
(** All workers of a level up to [lv] were. *)
Definition alerted (t : tid) (pl lv : nat) (cl : call) (tr : list event) : Prop :=
  sometime cl tr (fun m => forall l n i, In (l, (n, i)) (workers_of pl m) -> l <= lv -> informed t pl l i cl tr).
(** Both states of job [j] scheduled before [m], the one of the user and the one of
    the pool, are ready. *)
Definition settled (pl j : nat) (m tr : list event) : Prop :=
  forall t g p q, In (EvJobAdd t pl j g p q) m -> is_ready p tr /\ is_ready q tr.

Definition sched_spec (t : tid) (o : nat) (g : group) (v : bool) (u : nat) (cl : call) (tr : list event) (r : res) : Prop :=
  exists pl p q j n se,
    r = RJob n j se /\
    sometime cl tr (fun m => pool_of o m = Some pl) /\
    begins cl [EvState t p v (PuFun u); EvState t q true PuJob; EvLock t (LPool pl); EvJobAdd t pl j g p q] /\
    alerted t pl (g_level g) cl tr /\
    In (EvUnlock t (LPool pl)) (cl_acts cl) /\
    In (EvHnd t n false (Some p)) (cl_acts cl).
Definition change_spec (t : tid) (pl j : nat) (g : group) (cl : call) (tr : list event) : Prop :=
  (cl_acts cl = [EvLock t (LPool pl); EvUnlock t (LPool pl)] /\
   sometime cl tr (fun m => ~ waiting_job pl j m \/ group_of pl j m = Some g)) \/
  (begins cl [EvLock t (LPool pl); EvJobRegroup t pl j g] /\
   alerted t pl (g_level g) cl tr /\ In (EvUnlock t (LPool pl)) (cl_acts cl)).
Definition stop_spec (t : tid) (pl j : nat) (cl : call) (tr : list event) : Prop :=
  (cl_acts cl = [EvLock t (LPool pl); EvUnlock t (LPool pl)] /\ sometime cl tr (fun m => ~ waiting_job pl j m)) \/
  (begins cl [EvLock t (LPool pl); EvJobErase t pl [j]] /\ 
   does cl tr (EvJobErase t pl [j]) (fun m => waiting_job pl j m /\ settled pl j m tr) /\
   In (EvUnlock t (LPool pl)) (cl_acts cl)).
Definition stop_all_spec (t : tid) (pl : nat) (cl : call) (tr : list event) : Prop :=
  exists js, begins cl [EvLock t (LPool pl); EvJobClear t pl js] /\
    does cl tr (EvJobClear t pl js) (fun m => forall j, waiting_job pl j m -> settled pl j m tr) /\
    In (EvUnlock t (LPool pl)) (cl_acts cl).
(** The call works on the implementation of pool object [o]. *)
Definition on_pool (o : nat) (cl : call) (tr : list event) (P : nat -> Prop) : Prop :=
  exists pl, sometime cl tr (fun m => pool_of o m = Some pl) /\ P pl.

Definition pool_contract (t : tid) (cl : call) (tr : list event) (r : res) : Prop :=
  match cl_api cl with
  | APSched o g v u caps => sched_spec t o g v u cl tr r
  | APChange o j g => r = RUnit /\ on_pool o cl tr (fun pl => change_spec t pl j g cl tr)
  | APStop o j => r = RUnit /\ on_pool o cl tr (fun pl => stop_spec t pl j cl tr)
  | APStopAll o => r = RUnit /\ on_pool o cl tr (fun pl => stop_all_spec t pl cl tr)
  | APCount o => cl_acts cl = [] /\ on_pool o cl tr (fun pl => exists n, r = RInt (Z.of_nat n) /\ sometime cl tr (fun m => n = length (jobs_of pl m)))
  | AJChange _ o j g => r = RUnit /\ (cl_acts cl = [] \/ on_pool o cl tr (fun pl => change_spec t pl j g cl tr))
  | AJStop _ o j => r = RUnit /\ (cl_acts cl = [] \/ on_pool o cl tr (fun pl => stop_spec t pl j cl tr))
  | _ => True
  end.

(** Destroying the implementation of pool [pl]: the jobs that wait are dropped and
    settled, then every worker is asked to exit and its thread ends. *)
Definition killed (t : tid) (pl : nat) (cl : call) (tr : list event) : Prop :=
  exists js,
    does cl tr (EvJobClear t pl js) (fun m => forall j, waiting_job pl j m -> settled pl j m tr) /\
    does cl tr (EvWorkersOut t pl) (fun m => In (EvJobClear t pl js) m /\
      forall l n i, In (l, (n, i)) (workers_of pl m) -> told t cl tr i /\ sometime cl tr (SpecObj.ended n)).
(** ~thread_pool, and the assignment of another pool, which destroys the old implementation. *)
Definition kill_contract (t : tid) (cl : call) (tr : list event) (r : res) : Prop :=
  match cl_api cl with
  | APDestroy o => r = RUnit /\ begins cl [EvPoolKill t o] /\
      does cl tr (EvPoolKill t o) (fun m => match pool_of o m with
        | None => cl_acts cl = [EvPoolKill t o]
        | Some pl => killed t pl cl tr end)
  | APMove d s => r = RUnit /\ begins cl [EvPoolMove t d s] /\
      does cl tr (EvPoolMove t d s) (fun m => match (if d =? s then None else pool_of d m) with
        | None => cl_acts cl = [EvPoolMove t d s; EvPoolSent t d s]
        | Some pl => killed t pl cl tr /\ In (EvPoolSent t d s) (cl_acts cl) end)
  | _ => True
  end.
