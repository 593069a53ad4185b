(** * InvRootProm: who still holds a promise without result (C88). *)
From Verif Require Import Types Core State Ops Code Machine Base Spec SpecKind SpecOwn SpecPack SpecPool SpecWhen SpecBegun SpecRestWhen SpecRoot SpecRootAny Rules Events InvCtx InvBound InvStack InvRefs Contract Count Replay ReplayObj InvCv InvKind Adj Own OwnRefs OwnProm OwnDead InvPack InvTab InvWhen OwnJob InvRestWhen.
From Verif Require OwnTask InvRest.

Theorem promise_held : forall s p, reachable s -> of_promise s p -> ~ is_ready p (trace s) ->
  (exists pr, prom_of pr (trace s) = Some p) \/ overwritten p (trace s) \/ exists t, carried s p t.
Proof.
  intros s p R P N.
  assert (C : created p (trace s)) by (destruct P as [(t & v & J)|(t & a & w & ins & _ & Q)]; [left; eauto|discriminate Q]).
  assert (Hh : forall k, has p k = true -> tk (purpose_is (trace s)) k -> False).
  { intros k Hk Kk. destruct (has_pur _ _ _ Hk Kk) as [y Py]. pose proof (purpose_inj s p _ _ R P Py) as Q. destruct y; discriminate Q. }
  destruct (k_inv_reachable s R) as [K0 _].
  destruct (OwnTask.promise_owned s p R C) as [H|[(t & f & r & E & H)|[H|H]]]; [contradiction| |auto|].
  - right; right. exists t, f. split; [rewrite E; now left|auto].
  - destruct H as [(i & k & Al & J & K)|[(r & cb & J & K)|[(pr & K)|[(w & J & K)|[(pl & j & b & J & K)|(t & f & J & K)]]]]].
    + exfalso. apply (Hh k K). destruct (hk_ctx _ _ K0 i) as [C1 C2]. rewrite Forall_forall in C1, C2. unfold ctx_pending in J. apply in_app_or in J as [J|J]; auto.
      apply C2. rewrite <- (firstn_skipn (cx_idx (h_ctxs (hp s) i)) (cx_proc (h_ctxs (hp s) i))). apply in_or_app. now right.
    + exfalso. apply (Hh _ K). pose proof (hk_cbs _ _ K0 r) as Ck. rewrite Forall_forall in Ck. exact (proj1 (Ck _ J)).
    + left. exists pr. now rewrite <- (replay_prms pr s R).
    + exfalso. destruct (InvRest.wmade_reachable s R) as [M1 M2]. destruct (M2 w (M1 w J)) as (t & a & ins & Ev). rewrite K in Ev.
      assert (Q : PuPromise = PuWhen w); [|discriminate Q]. apply (purpose_inj s p _ (PuWhen w) R P). right. eauto 8.
    + exfalso. apply (Hh _ K). pose proof (hk_job _ _ K0 pl) as Ck. rewrite Forall_forall in Ck. apply (Ck _ J).
    + right; right. exists t, f. auto.
Qed.
