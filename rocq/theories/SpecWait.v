(** * SpecWait: what the processing and waiting calls of thread.h do and return.
    Like SpecApi: only histories occur here. *)
From Verif Require Import Types Spec SpecApi.

(** Scheduling events: going to sleep, starting and leaving a task. *)
Definition sched (e : event) : bool :=
  match e with EvStart _ _ _ | EvSleep _ _ | EvDone _ _ | EvAbort _ _ => true | _ => false end.
(** The scheduling events of a call, in order. *)
Definition scheds (cl : call) : list event := filter sched (cl_acts cl).
(** The tasks [ks] of context [c], each run to its end. *)
Definition ran (t : tid) (c : id) (ks : list task) : list event := flat_map (fun k => [EvStart t c k; EvDone t c]) ks.

Definition idle (c : id) (m : list event) : Prop := accepted c m = started c m.
Definition unattached (t : tid) (m : list event) : Prop := attached t m = None.

(** process, and process_for with a time limit: run pending tasks until there is
    none, or exit is requested, or the time is up. *)
Definition process_spec (t : tid) (lim : option Z) (cl : call) (tr : list event) (r : res) : Prop :=
  (r = RUnit /\ scheds cl = [] /\ at_end t cl tr (unattached t)) \/
  (exists c ks, sometime cl tr (fun m => attached t m = Some c) /\
     ((r = RUnit /\ scheds cl = ran t c ks /\
       at_end t cl tr (fun m => unattached t m \/ exit_requested c m \/ idle c m \/
         match lim with Some d => (clock (cl_pre cl) + 1000 * Z.quot d 1000 <= clock m)%Z | None => False end)) \/
      (exists e k, r = RExn e /\ scheds cl = ran t c ks ++ [EvStart t c k; EvAbort t c]))).

(** wait ([lim] = None) and wait_for; the second component of the result of wait_for
    tells whether it timed out. *)
Definition wait_res (lim : option Z) (late : bool) : res := match lim with None => RUnit | Some _ => RCv late end.
Definition wait_spec (t : tid) (lim : option Z) (cl : call) (tr : list event) (r : res) : Prop :=
  (* nothing to do *)
  (r = wait_res lim false /\ scheds cl = [] /\
     ((exists d, lim = Some d /\ (d <= 0)%Z) \/ at_end t cl tr (unattached t) \/
      exists c, at_end t cl tr (fun m => attached t m = Some c /\ idle c m /\ exit_requested c m))) \/
  (* exactly one task, possibly after sleeping *)
  (r = wait_res lim false /\ exists c k, scheds cl = ran t c [k] \/ scheds cl = EvSleep t c :: ran t c [k]) \/
  (* slept, and came back without a task *)
  (exists c late, r = wait_res lim late /\ scheds cl = [EvSleep t c] /\
     at_end t cl tr (fun m => idle c m /\
       if late then exists d, lim = Some d /\ (clock (cl_pre cl) + 1000 * (d / 1000) <= clock m)%Z
       else exit_requested c m)) \/
  (* the task threw *)
  (exists e c k l, r = RExn e /\ (l = [] \/ l = [EvSleep t c]) /\ scheds cl = l ++ [EvStart t c k; EvAbort t c]).

(** sleep_for and sleep_until, until time [z]. *)
Definition sleep_spec (t : tid) (z : Z) (cl : call) (tr : list event) (r : res) : Prop :=
  (r = RUnit /\ at_end t cl tr (fun m => (z <= clock m)%Z \/ exit_seen t m)) \/
  (exists e c k l, r = RExn e /\ scheds cl = l ++ [EvStart t c k; EvAbort t c]).

Definition wait_contract (t : tid) (cl : call) (tr : list event) (r : res) : Prop :=
  match cl_api cl with
  | AProcess => process_spec t None cl tr r
  | AProcessFor d => process_spec t (Some d) cl tr r
  | AWait => wait_spec t None cl tr r
  | AWaitFor d => wait_spec t (Some d) cl tr r
  | AWaitUntil z => exists m, moment cl tr m /\ wait_spec t (Some (z - clock m)%Z) cl tr r
  | ASleepFor d => sleep_spec t (clock (cl_pre cl) + d) cl tr r
  | ASleepUntil z => sleep_spec t z cl tr r
  | _ => True
  end.

(** The functions of this_thread called on a thread that is not attached. *)
Definition idle_contract (t : tid) (cl : call) (tr : list event) (r : res) : Prop :=
  attached t (cl_pre cl) = None ->
  let at_once x := cl_acts cl = [] /\ r = x in
  match cl_api cl with
  | AProcess | AProcessFor _ | AWait | ASleepFor _ | ASleepUntil _ => at_once RUnit
  | AWaitFor _ | AWaitUntil _ => at_once (RCv false)
  | AMyId => at_once (RId invalid_id)
  | AExitQ => at_once (RBool true)
  | AIsReg => at_once (RBool false)
  | ADepth => at_once (RInt 0)
  | _ => True
  end.
