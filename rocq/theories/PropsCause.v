(** * Undefined behaviour always has a cause (C65). *)
From Verif Require Import Types Core State Ops Code Machine Scenario Spec SpecApi SpecLive SpecUb SpecTerm SpecRelock SpecCause.
From Verif Require InvCause PropsUb.

(** C65 *)
Theorem C65_step : forall s t u, reachable s -> goes_wrong s t u -> cause t u (trace s).
Proof. exact InvCause.cause_step. Qed.
Print Assumptions C65_step.
Theorem C65_cause : forall s u, reachable s -> ubs s = Some u -> exists t, cause t u (trace s).
Proof. exact InvCause.cause_state. Qed.
Print Assumptions C65_cause.
(** A program that gives no cause for it has no undefined behaviour. *)
Theorem C65_defined : forall s, reachable s -> (forall t u, ~ cause t u (trace s)) -> ubs s = None.
Proof. exact InvCause.no_cause. Qed.
Print Assumptions C65_defined.

Example C65_example : exists s, reachable s /\ goes_wrong s 0 UbNullContext /\ cause 0 UbNullContext (trace s).
Proof. destruct PropsUb.C62_example as (_ & _ & _ & _ & s & R & W). exists s. repeat split; auto. exact (C65_step s 0 _ R W). Qed.
(** Main registers, makes a promise and satisfies it. *)
Definition sc65 : list cmd := [Call 0 AInit; Call 0 (APromise false); Call 0 (APGetFuture 0); Call 0 (APSet 0 (VNat 5))].
Definition tr65 : list event :=
  [EvCall 0 AInit; EvInit 0 1; EvReg 0 0 1 true; EvLoc 0 (Some 1); EvMain 0 1; EvRet 0 AInit RUnit;
   EvCall 0 (APromise false); EvState 0 0 false PuPromise; EvPrm 0 0 (Some 0); EvRet 0 (APromise false) (RProm 0);
   EvCall 0 (APGetFuture 0); EvRetr 0 0 false; EvHnd 0 0 false (Some 0); EvRet 0 (APGetFuture 0) (RHnd 0);
   EvCall 0 (APSet 0 (VNat 5)); EvLock 0 (LState 0); EvReady 0 0 (OVal (VNat 5)); EvNotify 0 (SSt 0) true [];
   EvUnlock 0 (LState 0); EvRet 0 (APSet 0 (VNat 5)) RUnit].
Example C65_defined_example : exists s, reachable s /\ trace s = tr65 /\ forall t u, ~ cause t u (trace s).
Proof.
  destruct (play st0 sc65) as [s|] eqn:E; [|vm_compute in E; discriminate E].
  assert (T : trace s = tr65) by (vm_compute in E; injection E as <-; reflexivity).
  exists s. split; [now apply (play_reachable sc65)|]. split; [exact T|]. rewrite T. clear.
  assert (O : forall t, open_calls t tr65 = []) by (intros [|]; reflexivity).
  assert (I : forall t cl, ~ inside t cl tr65) by (intros t cl [cs H]; now rewrite O in H).
  assert (L : forall l t, lock_holder l tr65 <> Some t).
  { intros l t H. unfold tr65, lock_holder, latest in H. cbn -[lock_eqb] in H. now destruct (lock_eqb (LState 0) l). }
  assert (Un : forall t i, ~ In (EvUnreg t i) tr65) by (intros t i H; unfold tr65 in H; cbn [In] in H; intuition discriminate).
  intros t u C. destruct u; cbn [cause misuse] in C.
  - destruct C as [C _]. now apply L in C.
  - destruct C as (m & cl & _ & C & _). now apply I in C.
  - destruct C as [(a & b & C & _)|[_ C]]; apply (Un t i); auto. rewrite C. apply in_elt.
  - destruct C as (cl & C & _). now apply I in C.
  - destruct C as (h & cl & C & _). now apply I in C.
  - destruct C as (cl & C & _). now apply I in C.
  - destruct C as (cl & C & _). now apply I in C.
  - destruct C as [[_ (u & e & C)]|[(p & u & o & a & b & C & N & X & _)|(cl & o & C & _)]].
    + unfold tr65 in C. cbn [In] in C. intuition discriminate.
    + assert (H : In (EvUnlock t (LState p)) tr65) by (rewrite C; apply in_elt).
      assert (H' : In (EvReady u p o) tr65) by (rewrite C; apply in_or_app; auto).
      unfold tr65 in H, H'. cbn [In] in H, H'. intuition congruence.
    + now apply I in C.
Qed.
