(** * ThmUntil: waiting until a point in time. *)
From Verif Require Import Types Core State Ops Code Machine Base Spec SpecApi SpecWait SpecFut SpecState SpecSync Rules ApiWait ThmApi.
From Verif Require ThmSync ThmFut ThmRegistry.

Lemma late_until : forall s1 cl d z a b, reachable s1 -> cl_pre cl = a ++ b -> d = (z - clock a)%Z ->
  sometime cl (trace s1) (fun x => clock (cl_pre cl) + d < clock x + 1000)%Z -> sometime cl (trace s1) (fun x => z < clock x + 1000)%Z.
Proof.
  intros s1 cl d z a b R E -> (m & M & L). exists m. split; [exact M|].
  destruct M as (a' & b' & -> & M). rewrite <- app_assoc in M.
  destruct (ThmRegistry.prefix_reachable s1 R _ _ M) as (s2 & R2 & E2).
  pose proof (clock_mono s2 R2 a b) as C. rewrite E2 in C. specialize (C E). lia.
Qed.
Theorem cv_until : forall s, reachable s -> each_return (fun t cl tr r => forall c m z a b,
  cl_pre cl = a ++ b -> cl_api cl = ACvWaitFor c m (z - clock a) -> r = RCv true -> sometime cl tr (fun x => z < clock x + 1000)%Z) (trace s).
Proof.
  intros s R. eapply each_return_imp; [exact R|exact (ThmSync.late_enough s R)|].
  intros s1 t cl cs r R1 _ _ H c m z a b P A ->. eapply late_until; eauto.
Qed.
Theorem fut_until : forall s, reachable s -> each_return (fun t cl tr r => forall h z a b,
  cl_pre cl = a ++ b -> cl_api cl = AFWaitFor h (z - clock a) -> r = RFs FsTimeout -> sometime cl tr (fun x => z < clock x + 1000)%Z) (trace s).
Proof.
  intros s R. eapply each_return_imp; [exact R|exact (ThmFut.wait_returns s R)|].
  intros s1 t cl cs r R1 _ _ H h z a b P A ->. destruct (H h) as [_ H']. destruct (H' _ A) as (_ & _ & H''). eapply late_until; eauto.
Qed.
