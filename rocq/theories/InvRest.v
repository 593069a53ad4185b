(** * InvRest: no job is lost. *)
From Verif Require Import Types Core State Ops Code Machine Base Spec SpecKind SpecOwn SpecPack SpecPool SpecRest Rules Events InvCtx InvBound InvStack InvRefs Contract Count Replay ReplayObj InvCv InvKind Adj Own OwnRefs OwnProm OwnDead InvPack InvTab InvWhen OwnJob.
From Verif Require OwnTask InvJobReady InvTook.
Local Open Scope Z_scope.

Definition wmade (h : heap) (tr : list event) : Prop :=
  (forall w, w_refs (h_wcs h w) <> 0%nat -> (w < h_nw h)%nat) /\ forall w, (w < h_nw h)%nat -> exists t a ins, In (EvWhen t a w (w_prom (h_wcs h w)) ins) tr.
Lemma wmade_mono : forall h h' tr l, h_wcs h' = h_wcs h -> h_nw h' = h_nw h -> wmade h tr -> wmade h' (tr ++ l).
Proof.
  intros h h' tr l E1 E2 [H1 H2]. unfold wmade. rewrite E1, E2. split; auto. intros w N. destruct (H2 w N) as (t & a & ins & J). exists t, a, ins. apply in_or_app. auto.
Qed.
Lemma wmade_mono0 : forall h h' tr, h_wcs h' = h_wcs h -> h_nw h' = h_nw h -> wmade h tr -> wmade h' tr.
Proof. intros h h' tr E1 E2 H. rewrite <- (app_nil_r tr). eapply wmade_mono; eauto. Qed.
(** One combinator changes and keeps its promise. *)
Lemma wmade_upd : forall h h' w x tr l, h_wcs h' = upd (h_wcs h) w x -> h_nw h' = h_nw h -> (w < h_nw h)%nat -> w_prom x = w_prom (h_wcs h w) -> wmade h tr -> wmade h' (tr ++ l).
Proof.
  intros h h' w x tr l E1 E2 Lt Ep [H1 H2]. unfold wmade. rewrite E1, E2. split.
  - intros w0 N. destruct (Nat.eq_dec w0 w) as [->|Ne]; auto. rewrite upd_other in N by auto. auto.
  - intros w0 N. destruct (H2 w0 N) as (t & a & ins & J). exists t, a, ins. apply in_or_app. left.
    destruct (Nat.eq_dec w0 w) as [->|Ne]; [now rewrite upd_same, Ep|now rewrite upd_other].
Qed.
Lemma wmade_upd0 : forall h h' w x tr, h_wcs h' = upd (h_wcs h) w x -> h_nw h' = h_nw h -> (w < h_nw h)%nat -> w_prom x = w_prom (h_wcs h w) -> wmade h tr -> wmade h' tr.
Proof. intros h h' w x tr E1 E2 Lt Ep H. rewrite <- (app_nil_r tr). eapply wmade_upd; eauto. Qed.
Theorem wmade_reachable : forall s, reachable s -> wmade (hp s) (trace s).
Proof.
  apply (replay_rule wmade).
  - split; [intros w H; now destruct H|intros w H; cbn in H; lia].
  - intros h l d. now apply wmade_mono.
  - intros h l e H _. revert H. now apply wmade_mono.
  - intros h t T o inp h' x G O H At N.
    destruct o; try contradiction.
    all: try (destruct (atom_wcs _ _ _ _ _ _ _ At N Logic.I) as [E1 E2];
      match goal with |- context [op_event ?h ?t ?o ?x] => destruct (op_event h t o x) end; [apply (wmade_mono h)|apply (wmade_mono0 h)]; auto; fail).
    1: { cbn [op_event] in *. cbn [atom] in At. destruct (all_some (map _ _)) as [ins|] eqn:As; [|discriminate At]. inversion At; subst; clear At. destruct H as [H1 H2]. unfold wmade. hs. split; intros w N0.
      + destruct (Nat.eq_dec w (h_nw h)) as [->|Ne]; [lia|]. rewrite upd_other in N0 by auto. specialize (H1 w N0). lia.
      + destruct (Nat.eq_dec w (h_nw h)) as [->|Ne].
        * rewrite upd_same. cbn. eexists _, _, _. apply in_or_app. right. left. reflexivity.
        * rewrite upd_other by auto. destruct (H2 w ltac:(lia)) as (t0 & a0 & ins0 & J). exists t0, a0, ins0. apply in_or_app. auto. }
    all: cbn [opb bof] in O; cbn [op_event]; atom_split At;
      repeat match goal with
        | E : wall_step _ _ _ = _ |- _ => apply w_total_all in E as [_ ?]
        | E : wany_step _ _ _ = _ |- _ => apply w_total_any in E as [_ ?]
        | E : wany_final _ = _ |- _ => apply w_total_fin in E as [_ ?]
        end; try (destruct (h_hnds h n)); try destruct o;
      first [eapply wmade_upd | eapply wmade_upd0]; try exact H; try reflexivity; auto; try tauto.
Qed.

Lemma run_heap : forall p s, spent p s -> forall B, exists B', (B <= B')%nat /\ hw (one p) (one p) zero zero B' (hp s) <= 0.
Proof.
  intros p s [B0 D] B. exists (B0 + B)%nat. split; [lia|]. specialize (D (B0 + B)%nat ltac:(lia)). unfold run_total, total in D.
  pose proof (sumN_nonneg (fun t => sumf (fw (one p) (one p) zero zero) (stk s t)) (B0 + B)%nat (fun t => sumf_nonneg _ _ _ (run_fnn p))). cbn beta in *. lia.
Qed.
Lemma spent_heap : forall p s, spent p s ->
  (forall i k, alive (hp s) i = true -> In k (ctx_pending (h_ctxs (hp s) i)) -> has p k = false) /\
  (forall r cb, In cb (fs_cbs (h_fsts (hp s) r)) -> has_cb p cb = false) /\
  (forall pl j b, In (j, b) (pl_jobs (h_pools (hp s) pl)) -> has p (jb_callable b) = false).
Proof.
  intros p s Sp.
  assert (Z0 : forall n, exists B, (n < B)%nat /\ sumN (ctxw (one p) zero (hp s)) B <= 0 /\ sumN (fun i => fsw (one p) zero (h_fsts (hp s) i)) B <= 0 /\ sumN (fun i => jbw (one p) zero (h_pools (hp s) i)) B <= 0).
  { intros n. destruct (run_heap p s Sp (S n)) as (B & L & D). exists B. split; [lia|]. unfold hw in D.
    assert (A1 : 0 <= sumN (ctxw (one p) zero (hp s)) B) by (apply sumN_nonneg; intros; unfold ctxw; destruct (alive _ _); [|lia]; apply sumf_nonneg, tw_nn).
    assert (A2 : 0 <= sumN (fun i => fsw (one p) zero (h_fsts (hp s) i)) B) by (apply sumN_nonneg; intros; apply sumf_nonneg, cbw_nn).
    assert (A3 : 0 <= sumN (fun i => ow zero (h_prms (hp s) i)) B) by (apply sumN_nonneg; intros; apply ow_nonneg, zero_nonneg).
    assert (A4 : 0 <= sumN (fun i => wcw zero (h_wcs (hp s) i)) B) by (apply sumN_nonneg; intros; apply wcw_nonneg, zero_nonneg).
    assert (A5 : 0 <= sumN (fun i => jbw (one p) zero (h_pools (hp s) i)) B) by (apply sumN_nonneg; intros; apply sumf_nonneg; intros; apply tw_nn).
    lia. }
  split; [|split].
  - intros i k Al J. destruct (has p k) eqn:Hk; auto. apply has_tw in Hk. exfalso. destruct (Z0 i) as (B & L & D & _ & _).
    pose proof (sumN_in (ctxw (one p) zero (hp s)) B i ltac:(intros i1; unfold ctxw; destruct (alive (hp s) i1); [|lia]; apply sumf_nonneg, tw_nn) L) as X.
    unfold ctxw in X at 1. rewrite Al in X. pose proof (sumf_in _ (tw zero (one p)) _ k (tw_nn p) J). lia.
  - intros r cb J. unfold has_cb. destruct (has p (cb_task cb)) eqn:Hk; auto. apply has_tw in Hk. exfalso. destruct (Z0 r) as (B & L & _ & D & _).
    pose proof (sumN_in (fun i => fsw (one p) zero (h_fsts (hp s) i)) B r ltac:(intros; apply sumf_nonneg, cbw_nn) L) as X. cbn beta in X. change (sumf (cbw (one p) zero) (fs_cbs (h_fsts (hp s) r)) <= sumN (fun i => fsw (one p) zero (h_fsts (hp s) i)) B) in X.
    pose proof (sumf_in _ (cbw (one p) zero) _ cb (cbw_nn p) J) as Y. unfold cbw in Y at 1. lia.
  - intros pl j b J. destruct (has p (jb_callable b)) eqn:Hk; auto. apply has_tw in Hk. exfalso. destruct (Z0 pl) as (B & L & _ & _ & D).
    pose proof (sumN_in (fun i => jbw (one p) zero (h_pools (hp s) i)) B pl ltac:(intros; apply sumf_nonneg; intros; apply tw_nn) L) as X. cbn beta in X. unfold jbw in X at 1.
    pose proof (sumf_in _ (fun e : nat * job => tw zero (one p) (jb_callable (snd e))) _ (j, b) ltac:(intros; apply tw_nn) J) as Y. cbn [snd] in Y. lia.
Qed.
Lemma prom_promised : forall pr q tr, prom_of pr tr = Some q -> promised q tr.
Proof.
  intros pr q tr. unfold prom_of, promised. induction tr as [|e a IH] using rev_ind; [discriminate|]. rewrite latest_snoc.
  assert (M : (exists t pr, In (EvPrm t pr (Some q)) a) -> exists t pr, In (EvPrm t pr (Some q)) (a ++ [e])).
  { intros (u & x & H). exists u, x. apply in_or_app; auto. }
  destruct e; auto. destruct (_ =? _)%nat; auto. intros ->. eexists _, _. apply in_or_app. right. left. reflexivity.
Qed.
Theorem rest_ready : forall s p x, reachable s -> at_rest s -> purpose_is (trace s) p x -> x <> PuPromise -> (forall w, x <> PuWhen w) -> spent p s -> is_ready p (trace s).
Proof.
  intros s p x R A P N1 N2 Sp. destruct (OwnTask.result_owned s p x R P N1) as [H|[(t & f & r & E & H)|H]]; auto; exfalso.
  - assert (J : In f (stk s t)) by (rewrite E; now left). apply A in J. destruct f; try contradiction; discriminate J.
  - destruct (spent_heap p s Sp) as (H1 & H2 & H3).
    destruct H as [(i & k & Al & J & K)|[(r & cb & J & K)|[(pr & K)|[(w & J & K)|[(pl & j & b & J & K)|(t & f & J & K)]]]]].
    + rewrite (H1 _ _ Al J) in K. discriminate K.
    + rewrite (H2 _ _ J) in K. discriminate K.
    + rewrite (replay_prms pr s R) in K. apply N1. apply (purpose_inj s p x PuPromise R P). apply OwnTask.promised_purpose; auto. eapply prom_promised; eauto.
    + destruct (wmade_reachable s R) as [M1 M2]. destruct (M2 w (M1 w J)) as (t & a & ins & Ev). rewrite K in Ev.
      apply (N2 w). apply (purpose_inj s p x (PuWhen w) R P). right. eauto 8.
    + rewrite (H3 _ _ _ J) in K. discriminate K.
    + apply A in J. destruct f; try discriminate J; discriminate K.
Qed.
Theorem no_job_lost : forall s, reachable s -> at_rest s -> forall a pl j g p q, In (EvJobAdd a pl j g p q) (trace s) ->
  waiting_job pl j (trace s) \/ (is_ready p (trace s) /\ is_ready q (trace s)).
Proof.
  intros s R A a pl j g p q J. destruct (InvJobReady.placed2 s R _ _ _ _ _ _ J) as [W|[(t1 & lv & g' & k0 & a1 & f & b & T & E1 & C & _)|[[H _] Hq]]]; [now left|exfalso|right].
  - assert (I : In (FCheckEnd pl j k0) (stk s t1)) by (rewrite E1; apply in_or_app; right; now right). apply A in I. discriminate I.
  - destruct (InvTook.job_fun s _ _ _ _ _ _ R J) as [u P]. split.
    + eapply rest_ready; eauto; discriminate.
    + apply in_split in J as (x & y & E). pose proof (InvJobReady.job_purpose s R _ _ _ E) as Pq. cbn in Pq.
      apply (rest_ready s q PuJob); auto; try discriminate. rewrite E. destruct Pq as [(t & v & J)|(t & a2 & w & ins & _ & Q)]; [|discriminate Q]. left. exists t, v. apply in_or_app; auto.
Qed.
Theorem rest_where : forall s p u, reachable s -> at_rest s -> purpose_is (trace s) p (PuFun u) ->
  is_ready p (trace s) \/
  (exists i k, alive (hp s) i = true /\ In k (ctx_pending (h_ctxs (hp s) i)) /\ has p k = true) \/
  (exists r cb, In cb (fs_cbs (h_fsts (hp s) r)) /\ has_cb p cb = true) \/
  (exists pl j b, In (j, b) (pl_jobs (h_pools (hp s) pl)) /\ has p (jb_callable b) = true).
Proof.
  intros s p u R A P. destruct (OwnTask.result_owned s p (PuFun u) R P ltac:(discriminate)) as [H|[(t & f & r & E & H)|H]]; auto.
  - exfalso. assert (J : In f (stk s t)) by (rewrite E; now left). apply A in J. destruct f; try contradiction; discriminate J.
  - destruct H as [H|[H|[(pr & K)|[(w & J & K)|[H|(t & f & J & K)]]]]]; auto; exfalso.
    + rewrite (replay_prms pr s R) in K. assert (Q : PuFun u = PuPromise); [|discriminate Q]. apply (purpose_inj s p _ PuPromise R P). apply OwnTask.promised_purpose; auto. eapply prom_promised; eauto.
    + destruct (wmade_reachable s R) as [M1 M2]. destruct (M2 w (M1 w J)) as (t & a & ins & Ev). rewrite K in Ev.
      assert (Q : PuFun u = PuWhen w); [|discriminate Q]. apply (purpose_inj s p _ (PuWhen w) R P). right. eauto 8.
    + apply A in J. destruct f; try discriminate J; discriminate K.
Qed.
