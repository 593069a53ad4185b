(** * InvRestWhen: no combinator is lost. *)
From Verif Require Import Types Core State Ops Code Machine Base Spec SpecKind SpecOwn SpecPack SpecPool SpecWhen SpecBegun SpecRest SpecRestWhen Rules Events InvCtx InvBound InvStack InvRefs Contract Count Replay ReplayObj InvCv InvKind Adj Own OwnRefs OwnProm OwnDead InvPack InvTab InvWhen OwnJob InvRest.
From Verif Require OwnTask InvFire InvHook InvComb InvFill.
Local Open Scope Z_scope.

Lemma tw_refers : forall w k, 0 < tw (one w) zero k -> refers w k = true.
Proof.
  intros w. fix IH 1. intros k. destruct k; cbn [tw refers]; try lia. destruct b; unfold zero at 1; try lia.
  - intros P. apply IH. lia.
  - intros P. apply Nat.eqb_eq. unfold one in P. destruct (Nat.eqb_spec w0 w); [auto|lia].
  - intros P. apply Nat.eqb_eq. unfold one in P. destruct (Nat.eqb_spec w0 w); [auto|lia].
Qed.
Lemma has_pur : forall R p k, has p k = true -> tk R k -> exists y, R p (bpur y).
Proof.
  intros R p. fix IH 1. intros k. destruct k; cbn [has tk]; try discriminate. intros H [K1 K2]. destruct (Nat.eqb_spec p0 p) as [->|_]; [eauto|].
  cbn [orb] in H. destruct b; try discriminate H. apply (IH _ H). apply K2.
Qed.
Lemma attached_now : forall s r cb, reachable s -> In cb (fs_cbs (h_fsts (hp s) r)) -> ~ is_ready r (trace s) /\ exists t, In (EvAttach t r cb) (trace s).
Proof.
  intros s r cb R J. destruct (replay_fs r s R) as [_ O _ _]. unfold is_ready. destruct (outcome_of r (trace s)) as [[v|e]|] eqn:Eo.
  - destruct O as (_ & _ & _ & O). rewrite O in J. destruct J.
  - destruct O as (_ & _ & _ & O). rewrite O in J. destruct J.
  - destruct O as (_ & _ & _ & O). split; [congruence|]. rewrite O in J. exact (InvFire.early_attached _ _ _ J).
Qed.
Theorem rest_when : forall s all w p ins, reachable s -> at_rest s -> combines (trace s) all w p ins ->
  is_ready p (trace s) \/
  (exists c k, alive (hp s) c = true /\ In k (ctx_pending (h_ctxs (hp s) c)) /\ refers w k = true) \/
  (exists i r cb, nth_error ins i = Some r /\ ~ is_ready r (trace s) /\ In cb (fs_cbs (h_fsts (hp s) r)) /\ hook_closure all w i (cb_task cb)).
Proof.
  intros s all w p ins R A (t0 & Ev).
  assert (P : purpose_is (trace s) p (PuWhen w)) by (right; eauto 8).
  destruct (OwnTask.result_owned s p (PuWhen w) R P ltac:(discriminate)) as [H|[(t & f & r & E & H)|H]]; auto.
  - exfalso. assert (J : In f (stk s t)) by (rewrite E; now left). apply A in J. destruct f; try contradiction; discriminate J.
  - right.
    destruct (Nat.eq_dec (w_refs (h_wcs (hp s) w)) 0) as [Z0|Nz].
    + exfalso.
      assert (Hh : forall k, has p k = true -> tk (purpose_is (trace s)) k -> False).
      { intros k Hk Kk. destruct (has_pur _ _ _ Hk Kk) as [y Py]. pose proof (purpose_inj s p _ _ R P Py) as Q. destruct y; discriminate Q. }
      destruct (k_inv_reachable s R) as [K0 _].
      destruct H as [(i & k & Al & J & K)|[(r & cb & J & K)|[(pr & K)|[(w' & J & K)|[(pl & j & b & J & K)|(t & f & J & K)]]]]].
      * apply (Hh k K). destruct (hk_ctx _ _ K0 i) as [C1 C2]. rewrite Forall_forall in C1, C2. unfold ctx_pending in J. apply in_app_or in J as [J|J]; auto.
        apply C2. rewrite <- (firstn_skipn (cx_idx (h_ctxs (hp s) i)) (cx_proc (h_ctxs (hp s) i))). apply in_or_app. now right.
      * apply (Hh _ K). pose proof (hk_cbs _ _ K0 r) as Ck. rewrite Forall_forall in Ck. exact (proj1 (Ck _ J)).
      * rewrite (replay_prms pr s R) in K. assert (Q : PuWhen w = PuPromise); [|discriminate Q]. apply (purpose_inj s p _ PuPromise R P). apply OwnTask.promised_purpose; auto. eapply prom_promised; eauto.
      * destruct (wmade_reachable s R) as [M1 M2]. destruct (M2 w' (M1 w' J)) as (t & a & ins' & Ev'). rewrite K in Ev'.
        assert (Q : PuWhen w = PuWhen w') by (apply (purpose_inj s p _ _ R P); right; eauto 8). injection Q as ->. contradiction.
      * apply (Hh _ K). pose proof (hk_job _ _ K0 pl) as Ck. rewrite Forall_forall in Ck. apply (Ck _ J).
      * apply A in J. destruct f; try discriminate J; discriminate K.
    + destruct (wrefs_reachable s R w) as [B T]. specialize (T B (le_n _)).
      assert (Ps : 0 < total zero zero zero (one w) B s) by lia.
      apply (total_pos _ _ _ _ zero_nonneg zero_nonneg (fun _ => Z.le_refl _) (one_nonneg w)) in Ps.
      destruct Ps as [(t & f & J & Pf)|[(i & k & Al & J & Pf)|[(r & cb & J & Pf)|[(pr & q' & J & Pf)|[(w' & J & Pf)|(pl & [j b] & J & Pf)]]]]].
      * exfalso. apply A in J. destruct f; try discriminate J; cbn in Pf; lia.
      * left. exists i, k. split; auto. split; auto. now apply tw_refers.
      * right. apply tw_refers in Pf. destruct (attached_now s r cb R J) as [Nr (t & At)]. apply in_split in At as (l1 & l2 & El).
        destruct (InvHook.attached_body s R _ _ _ El) as (q & b & Ec & Ab & Pq). rewrite Ec in Pf. cbn [refers] in Pf.
        destruct Ab as [(sh & u & caps & ->)|(kd & w' & idx & ->)]; [discriminate Pf|].
        assert (w' = w) by (destruct kd; apply Nat.eqb_eq in Pf; auto). subst w'.
        assert (Pq' : purpose_is (trace s) q (PuHook (is_all kd) w idx r)).
        { rewrite El. apply InvHook.pur_app'. destruct kd; exact Pq. }
        apply InvComb.purpose_hook in Pq' as (t' & v & Pe). destruct (InvComb.hook_input s R _ _ _ _ _ _ _ Pe) as [Nth (ins' & C')].
        assert (C : InvFill.comb (hp s) all w ins) by (exists p, t0; exact Ev). destruct (InvFill.comb_one _ _ _ _ _ _ R C C') as [-> <-].
        destruct (InvComb.prefix_reachable s R _ _ _ C) as (rst & Pf2 & _).
        exists idx, r, cb. split; [|split; [auto|split; auto]].
        -- rewrite Pf2. now apply InvComb.nth_app.
        -- rewrite Ec. exists q, r. destruct kd; reflexivity.
      * unfold zero in Pf. lia.
      * unfold zero in Pf. lia.
      * exfalso. cbn [snd] in Pf. pose proof (tab_inv pl s R) as F. rewrite Forall_forall in F. destruct (F _ J) as (? & ? & ? & ? & _ & _ & [C|(? & ? & C)]); cbn [snd] in C; rewrite C in Pf; cbn in Pf; unfold zero in Pf; lia.
Qed.
Corollary rest_all : forall s w p ins, reachable s -> at_rest s -> queues_empty s -> combines (trace s) true w p ins -> (forall r, In r ins -> is_ready r (trace s)) -> is_ready p (trace s).
Proof.
  intros s w p ins R A Q C H. destruct (rest_when s true w p ins R A C) as [X|[(c & k & Al & J & _)|(i & r & cb & N & X & _)]]; auto; exfalso.
  - rewrite (Q c Al) in J. destruct J.
  - apply X, H. eapply nth_error_In; eauto.
Qed.
