(** * ThmSleep: proofs about thread affinity and wakeups. *)
From Verif Require Import Types Core State Ops Code Machine Base Spec SpecState Rules Events InvCtx InvQueue InvStack InvRefs InvEvents InvAff InvTop InvSleep ThmRegistry.

Definition affine (tr : list event) (e : event) : Prop :=
  match e with
  | EvStart t i _ | EvSleep t i => (exists u, In (EvReg u t i true) tr) /\ forall n, In (n, i) (registered tr) -> n = t
  | _ => True
  end.
Theorem affinity : forall s, reachable s -> at_each affine (trace s).
Proof.
  intros s R tr1 e tr2 E. pose proof (ctx_ev_reachable s R _ _ _ E) as X.
  destruct (prefix_reachable s R tr1 _ E) as (s1 & R1 & E1). subst tr1.
  assert (H : forall t i, attached t (trace s1) = Some i -> (exists u, In (EvReg u t i true) (trace s1)) /\ forall n, In (n, i) (registered (trace s1)) -> n = t).
  { intros t i A. change (trace s1) with (tr_of (hp s1)) in A.
    rewrite (rv_loc _ (r_inv_reachable s1 R1)) in A. apply (loc_own_reachable s1 R1) in A.
    split; [now apply own_event|]. intros n N. change (trace s1) with (tr_of (hp s1)) in N.
    apply (rv_native _ (r_inv_reachable s1 R1)) in N. destruct A. congruence. }
  destruct e; cbn in *; auto; apply H, X.
Qed.

Lemma exit_dec : forall s i, reachable s -> exit_requested i (trace s) <-> cx_exit (h_ctxs (hp s) i) = true.
Proof. intros s i R. destruct (q_inv_reachable s R i) as (_ & _ & X & _). rewrite X. reflexivity. Qed.
Lemma pending_spec : forall s i, reachable s -> accepted i (trace s) = started i (trace s) ++ ctx_pending (h_ctxs (hp s) i).
Proof. intros s i R. apply (q_inv_reachable s R i). Qed.

Theorem no_lost_wakeup : forall s t i, reachable s -> ubs s = None -> asleep s t i -> In i (reg_ids (trace s)) ->
  accepted i (trace s) <> started i (trace s) \/ exit_requested i (trace s) ->
  cx_wakeup (h_ctxs (hp s) i) = true /\ cx_sig (h_ctxs (hp s) i) = true /\
  exists s', step s (LStep t 0) = Some s' /\ ubs s' = None /\ ~ asleep s' t i /\
    ((accepted i (trace s) = started i (trace s) /\ trace s' = trace s) \/
     exists k r, accepted i (trace s) = started i (trace s) ++ k :: r /\ trace s' = trace s ++ [EvStart t i k]).
Proof.
  intros s t i R U (dl & k & r & E) G C.
  destruct (sleep_woken s R t _ _ E) as (Lc & W1 & W2).
  pose proof (pending_spec s i R) as P.
  assert (Wk : cx_wakeup (h_ctxs (hp s) i) = true).
  { apply W2. destruct C as [C|C]; [left|right; now apply exit_dec]. intros X. rewrite X, app_nil_r in P. auto. }
  assert (Sg : cx_sig (h_ctxs (hp s) i) = true) by congruence.
  split; [auto|]. split; [auto|].
  assert (Al : alive (hp s) i = true).
  { apply alive_mem, mem_In. rewrite <- (rv_regd _ (r_inv_reachable s R)). exact G. }
  assert (Nx : forall fs, (exists f, hd_error fs = Some f /\ forall dl' k', f <> FSleep i dl' k') \/ fs = [] ->
    forall h, ~ asleep (mkSt h (upd (stk s) t (fs ++ r)) None) t i).
  { intros fs H h (dl' & k' & r' & X). cbn [stk] in X. rewrite upd_same in X. destruct H as [(f & H & N)|H].
    - destruct fs as [|g fs]; [discriminate|]. cbn in H, X. injection H as ->. injection X as X _. now apply N in X.
    - subst. cbn in X. pose proof (under_reachable s R t) as Ut. rewrite E in Ut. cbn in Ut. rewrite X in Ut. discriminate. }
  assert (St : step s (LStep t 0) = exec s t (code (FSleep i dl k)) r 0) by (unfold step; now rewrite U, E).
  rewrite St. unfold exec. cbn [code atom]. unfold do_wake. rewrite Al, Wk, Sg, Lc, (Nat.eqb_refl i). cbn [orb andb].
  destruct (take_task (clear_wakeup (h_ctxs (hp s) i))) as [[k0|] c'] eqn:T.
  - eexists. split; [reflexivity|]. split; [reflexivity|]. split.
    + apply Nx. left. cbn. eexists. split; [reflexivity|]. discriminate.
    + right. apply take_some in T as (T & _). exists k0, (ctx_pending c'). split; [|reflexivity].
      rewrite P. f_equal. rewrite <- T. reflexivity.
  - eexists. split; [reflexivity|]. split; [reflexivity|]. split.
    + apply Nx. destruct k; cbn; auto; left; eexists; (split; [reflexivity|]); discriminate.
    + left. split; [|reflexivity]. apply take_none in T as [_ T]. change (ctx_pending (h_ctxs (hp s) i) = []) in T.
      now rewrite P, T, app_nil_r.
Qed.
