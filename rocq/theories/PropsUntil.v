(** * Waiting until a point in time (C78). *)
From Verif Require Import Types Core State Ops Code Machine Scenario Spec SpecApi SpecWait SpecFut SpecState SpecSync PropsCv.
From Verif Require ThmUntil.

(** wait_until (condition_variable.hpp:81-86, future.hpp:155-159) reads the clock and calls wait_for with the
    difference.  [a] is the history when the clock was read; any number of steps may lie between.
    C78: wait_until reports a timeout only when the point [z] in time has come, up to the
    microsecond that wait_for cuts off. *)
Theorem C78_cv : forall s, reachable s -> each_return (fun t cl tr r => forall c m z a b,
  cl_pre cl = a ++ b -> cl_api cl = ACvWaitFor c m (z - clock a) -> r = RCv true -> sometime cl tr (fun x => z < clock x + 1000)%Z) (trace s).
Proof. exact ThmUntil.cv_until. Qed.
Print Assumptions C78_cv.
Theorem C78_future : forall s, reachable s -> each_return (fun t cl tr r => forall h z a b,
  cl_pre cl = a ++ b -> cl_api cl = AFWaitFor h (z - clock a) -> r = RFs FsTimeout -> sometime cl tr (fun x => z < clock x + 1000)%Z) (trace s).
Proof. exact ThmUntil.fut_until. Qed.
Print Assumptions C78_future.

(** The worker wants to wait until 6000 and reads the clock at 700; it is held up until 800.  Both
    waits come back after 6000. *)
Definition sc78 (c : api) : list cmd :=
  sc_two ++ [Call 0 (APromise false); Call 0 (APGetFuture 0); Call 0 (AInvoke 2 10 []); Rn 5 0 20; Call 5 (AULock 0); Lb (LTick 700); Lb (LTick 100);
    Call 5 c; Lb (LTick 5300); Rn 5 0 60].
Definition read_at (n : Z) (a b : list event) (c : api) (r : res) : Prop :=
  clock a = n /\ exists b1 b2, b = EvTick 100 :: b1 ++ b2 /\ In (EvCall 5 c) b1 /\ In (EvRet 5 c r) b2.
Fixpoint cut (P : event -> bool) (l : list event) : list event * list event :=
  match l with [] => ([], []) | e :: r => if P e then ([], l) else let (x, y) := cut P r in (e :: x, y) end.
Example C78_cv_example : exists s a b, play st0 (sc78 (ACvWaitFor 0 0 (6000 - 700))) = Some s /\ trace s = a ++ b /\
  read_at 700 a b (ACvWaitFor 0 0 (6000 - 700)) (RCv true) /\ clock (trace s) = 6100%Z.
Proof.
  eexists. exists (fst (cut (fun e => match e with EvTick 100 => true | _ => false end) (match play st0 (sc78 (ACvWaitFor 0 0 (6000 - 700))) with Some s => trace s | None => [] end))),
    (snd (cut (fun e => match e with EvTick 100 => true | _ => false end) (match play st0 (sc78 (ACvWaitFor 0 0 (6000 - 700))) with Some s => trace s | None => [] end))).
  split; [vm_compute; reflexivity|]. split; [vm_compute; reflexivity|]. split; [|vm_compute; reflexivity].
  split; [vm_compute; reflexivity|]. vm_compute. eexists [_], _. split; [reflexivity|]. cbn. intuition.
Qed.
Example C78_future_example : exists s a b, play st0 (sc78 (AFWaitFor 0 (6000 - 700))) = Some s /\ trace s = a ++ b /\
  read_at 700 a b (AFWaitFor 0 (6000 - 700)) (RFs FsTimeout) /\ clock (trace s) = 6100%Z.
Proof.
  eexists. exists (fst (cut (fun e => match e with EvTick 100 => true | _ => false end) (match play st0 (sc78 (AFWaitFor 0 (6000 - 700))) with Some s => trace s | None => [] end))),
    (snd (cut (fun e => match e with EvTick 100 => true | _ => false end) (match play st0 (sc78 (AFWaitFor 0 (6000 - 700))) with Some s => trace s | None => [] end))).
  split; [vm_compute; reflexivity|]. split; [vm_compute; reflexivity|]. split; [|vm_compute; reflexivity].
  split; [vm_compute; reflexivity|]. vm_compute. eexists [_], _. split; [reflexivity|]. cbn. intuition.
Qed.
