(** * SpecJobWait: when the function of a job has finished. *)
From Verif Require Import Types Spec SpecApi SpecPool SpecPoolApi SpecPack SpecFut.

(** The function whose outcome goes to [p] has returned or thrown. *)
Definition finished (p : sid) (tr : list event) : Prop := exists t u r, In (EvUserEnd t u (Some p) r) tr.
(** It is not being executed: it has not begun or has finished. *)
Definition idle_fun (p : sid) (tr : list event) : Prop := begun p tr -> finished p tr.
(** In the execution [full] the function has finished in the part [tr] or never begins. *)
Definition over (p : sid) (tr full : list event) : Prop := begun p full -> finished p tr.
(** stop_all (or the destruction of the pool) removed job [j] while a worker was executing it. *)
Definition cleared_running (pl j : nat) (tr : list event) : Prop :=
  exists a t js b, tr = a ++ EvJobClear t pl js :: b /\ In j js /\ taken pl j a.
(** After a wait [cl] on object [o] by [t]: its pool [pl] existed during the call, and the
    functions of the jobs [sel] added before the call are over, unless the thread was
    not registered or told to exit, or the job was removed while it was executed. *)
Definition waited_jobs (sel : nat -> Prop) (t : tid) (o : nat) (cl : call) (tr full : list event) : Prop :=
  exists pl, sometime cl tr (fun m => pool_of o m = Some pl) /\
    forall j t0 g p q, sel j -> In (EvJobAdd t0 pl j g p q) (cl_pre cl) ->
      sometime cl tr (exit_seen t) \/ cleared_running pl j tr \/ over p tr full.
(** What a wait or wait_all that returned normally says. *)
Definition after_wait (t : tid) (cl : call) (tr full : list event) (r : res) : Prop :=
  r = RUnit -> match cl_api cl with
    | APWait o j => waited_jobs (eq j) t o cl tr full
    | APWaitAll o => waited_jobs (fun _ => True) t o cl tr full
    | _ => True end.
