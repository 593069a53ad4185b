(** * SpecFut: what the calls on futures, promises and the waiting calls of pools do
    and return.  Like SpecApi: only histories occur here. *)
From Verif Require Import Types Spec SpecApi SpecWait.

(** A task processed while waiting has thrown. *)
Definition threw (t : tid) (cl : call) (r : res) : Prop :=
  exists e c k l, r = RExn e /\ scheds cl = l ++ [EvStart t c k; EvAbort t c].
(** Waiting for state [p] without limit ends when it is ready or exit is requested. *)
Definition waited (t : tid) (p : sid) (cl : call) (tr : list event) : Prop :=
  is_ready p tr \/ sometime cl tr (exit_seen t).
(** What the status returned by wait_for with limit [d] says. *)
Definition status_spec (t : tid) (p : sid) (d : Z) (cl : call) (tr : list event) (f : fstatus) : Prop :=
  match f with
  | FsReady => is_ready p tr
  | FsDeferred => sometime cl tr (exit_seen t)
  | FsTimeout => sometime cl tr (fun x => clock (cl_pre cl) + d < clock x + 1000)%Z
  end.
(** The future object [h] is invalid: the call fails and does nothing. *)
Definition invalid (h : nat) (cl : call) (tr : list event) (r : res) : Prop :=
  r = RExn XNoState /\ cl_acts cl = [] /\ sometime cl tr (fun m => snd (fut_of h m) = None).
Definition refers (h : nat) (p : sid) (cl : call) (tr : list event) : Prop :=
  sometime cl tr (fun m => snd (fut_of h m) = Some p).
(** The thread enters and leaves the internal lock of [p]; in between it may process tasks. *)
Definition locked (t : tid) (p : sid) (cl : call) : Prop :=
  exists l, cl_acts cl = EvLock t (LState p) :: l ++ [EvUnlock t (LState p)].

Definition fwait_spec (t : tid) (h : nat) (cl : call) (tr : list event) (r : res) : Prop :=
  invalid h cl tr r \/
  exists p, refers h p cl tr /\ begins cl [EvLock t (LState p)] /\
    ((r = RUnit /\ locked t p cl /\ waited t p cl tr) \/ threw t cl r).
Definition fwaitfor_spec (t : tid) (h : nat) (d : Z) (cl : call) (tr : list event) (r : res) : Prop :=
  invalid h cl tr r \/
  exists p, refers h p cl tr /\ begins cl [EvLock t (LState p)] /\
    ((exists f, r = RFs f /\ locked t p cl /\ status_spec t p d cl tr f) \/ threw t cl r).
(** The future object is a shared one, or it has given up its state. *)
Definition used_up (t : tid) (h : nat) (p : sid) (cl : call) (tr : list event) : Prop :=
  sometime cl tr (fun m => fut_of h m = (true, Some p)) \/ exists sh, In (EvHnd t h sh None) (cl_acts cl).
(** get: reads the outcome as its last action, after waiting. *)
Definition fget_spec (t : tid) (h : nat) (cl : call) (tr : list event) (r : res) : Prop :=
  invalid h cl tr r \/
  exists p, refers h p cl tr /\ begins cl [EvLock t (LState p)] /\
    (((exists l, cl_acts cl = l ++ [EvGot t p r]) /\ used_up t h p cl tr /\
      does cl tr (EvGot t p r) (fun m => waited t p cl m /\ r = delivers (void_state p m) (outcome_of p m))) \/ threw t cl r).

(** Job [j] of pool [pl] is in the table and its pool future has state [q]. *)
Definition job_state (pl j : nat) (q : sid) (m : list event) : Prop :=
  In j (jobs_of pl m) /\ exists t g p, In (EvJobAdd t pl j g p q) m.
Definition jwait_spec (t : tid) (o j : nat) (cl : call) (tr : list event) (r : res) : Prop :=
  exists pl, sometime cl tr (fun m => pool_of o m = Some pl) /\
    ((r = RUnit /\ cl_acts cl = [] /\ sometime cl tr (fun m => ~ In j (jobs_of pl m))) \/
     exists q, sometime cl tr (job_state pl j q) /\ begins cl [EvLock t (LState q)] /\
       ((r = RUnit /\ locked t q cl /\ waited t q cl tr) \/ threw t cl r)).
Definition jwaitall_spec (t : tid) (o : nat) (cl : call) (tr : list event) (r : res) : Prop :=
  exists pl, sometime cl tr (fun m => pool_of o m = Some pl) /\
    exists qs, sometime cl tr (fun m => Forall2 (fun j q => job_state pl j q m) (jobs_of pl m) qs) /\
      ((r = RUnit /\ forall q, In q qs -> waited t q cl tr) \/ threw t cl r).

Definition fwait_contract (t : tid) (cl : call) (tr : list event) (r : res) : Prop :=
  match cl_api cl with
  | AFWait h => fwait_spec t h cl tr r
  | AFWaitFor h d => fwaitfor_spec t h d cl tr r
  | AFGet h => fget_spec t h cl tr r
  | APWait o j => jwait_spec t o j cl tr r
  | APWaitAll o => jwaitall_spec t o cl tr r
  | _ => True
  end.
