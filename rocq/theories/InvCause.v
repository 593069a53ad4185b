(** * InvCause: the causes put together. *)
From Verif Require Import Types Core State Ops Code Machine Base Spec SpecApi SpecUb SpecCause InvUb InvRelock InvTerm InvLive.

Theorem cause_step : forall s t u, reachable s -> goes_wrong s t u -> cause t u (trace s).
Proof.
  intros s t u R W. destruct u; cbn [cause]; try exact (misuse_holds s t _ R W).
  - exact (relock_holds s t l R W).
  - exact (dead_touch s t i R W).
  - exact (terminate_cause s t R W).
Qed.
Theorem cause_state : forall s u, reachable s -> ubs s = Some u -> exists t, cause t u (trace s).
Proof.
  intros s u R U. destruct (wrong_state s u R U) as (t & s0 & R0 & W & ->). exists t. now apply cause_step.
Qed.
Theorem no_cause : forall s, reachable s -> (forall t u, ~ cause t u (trace s)) -> ubs s = None.
Proof.
  intros s R N. destruct (ubs s) as [u|] eqn:U; auto. destruct (cause_state s u R U) as [t C]. now apply N in C.
Qed.
