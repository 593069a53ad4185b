(** * InvStall: why nothing moves (C84). *)
From Verif Require Import Types Core State Ops Code Machine Base Spec SpecKind SpecOwn SpecPool SpecPack SpecState SpecCheck SpecRest SpecStall.
From Verif Require ThmCheck ThmSleep InvRest InvRestWhen.

Lemma stalled_idle : forall s t i, reachable s -> ubs s = None -> stalled s t i -> ctx_pending (h_ctxs (hp s) i) = [] /\ ~ exit_requested i (trace s).
Proof.
  intros s t i R U (Sl & Rg & St). pose proof (ThmSleep.pending_spec s i R) as P. split.
  - destruct (ctx_pending (h_ctxs (hp s) i)) as [|k r] eqn:E; auto. exfalso.
    destruct (ThmSleep.no_lost_wakeup s t i R U Sl Rg) as (_ & _ & s' & X & _); [|congruence].
    left. intros Q. rewrite Q in P. apply (f_equal (@length _)) in P. rewrite app_length in P. cbn in P. lia.
  - intros X. destruct (ThmSleep.no_lost_wakeup s t i R U Sl Rg (or_intror X)) as (_ & _ & s' & Y & _). congruence.
Qed.
Lemma rest_sends : forall s, at_rest s -> forall pl lv i t f, In f (stk s t) -> sending pl lv i f = 0.
Proof. intros s A pl lv i t f J. apply A in J. destruct f; try discriminate J; reflexivity. Qed.
Theorem rest_check : forall s pl j g lv n i, reachable s -> at_rest s -> waiting_job pl j (trace s) -> group_of pl j (trace s) = Some g -> lv <= g_level g ->
  In (lv, (n, i)) (workers_of pl (trace s)) -> In i (reg_ids (trace s)) -> ~ exit_requested i (trace s) -> In (TCheck pl lv) (queued i (trace s)).
Proof.
  intros s pl j g lv n i R A W G L Wk Rg X. destruct (ThmCheck.job_check s pl j g lv n i R W G L Wk Rg X) as [H|[(t & f & J & H)|(f & r & E & _ & C)]]; auto; exfalso.
  - rewrite (rest_sends s A pl lv i t f J) in H. lia.
  - assert (J : In f (stk s n)) by (rewrite E; now left). apply A in J. destruct f; try discriminate J; discriminate C.
Qed.
Theorem stall_job : forall s a pl j g p q g' lv n i, reachable s -> ubs s = None -> at_rest s -> In (EvJobAdd a pl j g p q) (trace s) -> ~ is_ready q (trace s) ->
  group_of pl j (trace s) = Some g' -> In (lv, (n, i)) (workers_of pl (trace s)) -> stalled s n i -> waiting_job pl j (trace s) /\ g_level g' < lv.
Proof.
  intros s a pl j g p q g' lv n i R U A J N G Wk St. destruct (InvRest.no_job_lost s R A _ _ _ _ _ _ J) as [W|[_ H]]; [|contradiction].
  split; auto. destruct (stalled_idle s n i R U St) as [E X]. destruct (Nat.lt_ge_cases (g_level g') lv) as [H|H]; auto. exfalso.
  destruct St as (_ & Rg & _). pose proof (rest_check s pl j g' lv n i R A W G H Wk Rg X) as K. rewrite (ThmCheck.queued_pending s i R), E in K. destruct K.
Qed.
Theorem stall_fun : forall s p u, reachable s -> ubs s = None -> at_rest s -> purpose_is (trace s) p (PuFun u) ->
  is_ready p (trace s) \/
  (exists i k, alive (hp s) i = true /\ In k (ctx_pending (h_ctxs (hp s) i)) /\ has p k = true /\ forall t, ~ stalled s t i) \/
  (exists r cb, ~ is_ready r (trace s) /\ In cb (fs_cbs (h_fsts (hp s) r)) /\ has_cb p cb = true) \/
  (exists pl j b, In (j, b) (pl_jobs (h_pools (hp s) pl)) /\ has p (jb_callable b) = true).
Proof.
  intros s p u R U A P. destruct (InvRest.rest_where s p u R A P) as [H|[(i & k & H1 & H2 & H3)|[(r & cb & H1 & H2)|H]]]; auto.
  - right; left. exists i, k. repeat split; auto. intros t St. destruct (stalled_idle s t i R U St) as [E _]. rewrite E in H2. destruct H2.
  - right; right; left. exists r, cb. split; auto. eapply InvRestWhen.attached_now; eauto.
Qed.
