(** * InvRootAny: the cause of a future without result, at any moment (C88). *)
From Verif Require Import Types Core State Ops Code Machine Base Spec SpecKind SpecOwn SpecPack SpecPool SpecWhen SpecBegun SpecRestWhen SpecRoot SpecRootAny SpecHang Rules Events InvCtx InvBound InvStack InvRefs Contract Count Replay ReplayObj InvCv InvKind Adj Own OwnRefs OwnProm OwnDead InvPack InvTab InvWhen OwnJob InvRestWhen.
From Verif Require OwnTask InvFire InvHook InvComb InvFill InvRest InvRoot InvHang ThmCheck.
Local Open Scope Z_scope.

Lemma sum_refers : forall A (g : A -> Z) (b : A -> bool) l, (forall x, 0 <= g x) -> (forall x, 0 < g x -> b x = true) -> 0 < sumf g l -> existsb b l = true.
Proof. intros A g b l N H P. apply ThmCheck.sumf_pos in P as (x & J & K); auto. apply existsb_exists. eauto. Qed.
Section W.
Variable w : nat.
Notation fz := (fw zero zero zero (one w)).
Lemma tw_nn : forall k, 0 <= tw (one w) zero k.
Proof. fix IH 1. intros k. destruct k; cbn [tw]; try lia. destruct b; unfold zero at 1; try (pose proof (one_nonneg w w0)); try (pose proof (IH k)); lia. Qed.
Lemma cb_ref : forall l, 0 < sumf (cbw zero (one w)) l -> existsb (refers_cb w) l = true.
Proof. intros l. apply sum_refers; [intros x; apply tw_nn|intros x; apply tw_refers]. Qed.
Lemma tk_ref : forall l, 0 < sumf (tw (one w) zero) l -> existsb (refers w) l = true.
Proof. intros l. apply sum_refers; [apply tw_nn|apply tw_refers]. Qed.
Lemma one_ref : forall v, 0 < one w v -> (v =? w)%nat = true.
Proof. intros v. unfold one. destruct (v =? w)%nat; lia. Qed.
Lemma lk_ref : forall c, 0 < lw zero zero (one w) c -> refers_lk w c = true.
Proof.
  intros c. destruct c; cbn [lw refers_lk]; try lia; [|apply one_ref]. intros P.
  destruct (existsb (refers_cb w) rest) eqn:E1; [reflexivity|]. cbn [orb]. apply tk_ref.
  assert (sumf (cbw zero (one w)) rest <= 0); [|lia]. destruct (Z_lt_le_dec 0 (sumf (cbw zero (one w)) rest)) as [Q|Q]; auto. apply cb_ref in Q. congruence.
Qed.
Lemma it_ref : forall d, 0 < dw zero (one w) d -> refers_item w d = true.
Proof.
  intros d. destruct d; cbn [dw refers_item]; try (unfold zero; lia); try apply tw_refers; try apply one_ref.
  destruct b; cbn [bw]; try lia; [apply tw_refers|apply one_ref|apply one_ref].
Qed.
Lemma it_nn : forall d, 0 <= dw zero (one w) d.
Proof.
  intros d. destruct d; cbn [dw]; try (unfold zero; lia); try apply tw_nn; try apply one_nonneg.
  destruct b; cbn [bw]; try lia; [apply tw_nn|apply one_nonneg|apply one_nonneg].
Qed.
Lemma lk_nn : forall c, 0 <= lw zero zero (one w) c.
Proof.
  intros c. destruct c; cbn [lw]; try lia; [|apply one_nonneg].
  pose proof (sumf_nonneg _ (cbw zero (one w)) rest (fun x => tw_nn (cb_task x))). pose proof (sumf_nonneg _ (tw (one w) zero) lft tw_nn). lia.
Qed.
Lemma plus_ref : forall a b (x y : bool), (0 < a -> x = true) -> (0 < b -> y = true) -> 0 < a + b -> x || y = true.
Proof. intros a b x y H1 H2 P. destruct (Z_lt_le_dec 0 a) as [Q|Q]; [now rewrite (H1 Q)|rewrite (H2 ltac:(lia)); apply orb_true_r]. Qed.
Lemma fr_ref : forall f, 0 < fz f -> frame_refers w f = true.
Proof.
  intros f. destruct f; cbn [fw frame_refers]; try lia; unfold ow, rn; try (unfold zero; lia).
  all: try apply one_ref; try apply tw_refers; try apply cb_ref.
  all: try (apply plus_ref; [first [apply tw_refers|apply cb_ref]|first [apply lk_ref|apply tk_ref]]).
  all: try (intros P; apply one_ref; unfold zero in P; lia).
  all: try (match goal with |- context [match ?z with _ => _ end] => destruct z end; try apply one_ref; unfold zero; lia).
  apply sum_refers; [apply it_nn|apply it_ref].
Qed.
End W.
Theorem when_any_time : forall s all w p ins, reachable s -> combines (trace s) all w p ins ->
  is_ready p (trace s) \/ (exists c, in_queue s p c) \/ (exists t, carried s p t) \/ (exists r, hangs_on s p r).
Proof.
  intros s all w p ins R (t0 & Ev).
  assert (P : purpose_is (trace s) p (PuWhen w)) by (right; eauto 8).
  assert (Cm : combines (trace s) all w p ins) by (exists t0; exact Ev).
  destruct (OwnTask.result_owned s p (PuWhen w) R P ltac:(discriminate)) as [H|[(t & f & r & E & H)|H]]; auto.
  - right; right; left. exists t, f. split; [rewrite E; now left|]. right; left. exact H.
  - right.
    destruct (Nat.eq_dec (w_refs (h_wcs (hp s) w)) 0) as [Z0|Nz].
    + assert (Hh : forall k, has p k = true -> tk (purpose_is (trace s)) k -> False).
      { intros k Hk Kk. destruct (has_pur _ _ _ Hk Kk) as [y Py]. pose proof (purpose_inj s p _ _ R P Py) as Q. destruct y; discriminate Q. }
      destruct (k_inv_reachable s R) as [K0 _].
      destruct H as [(i & k & Al & J & K)|[(r & cb & J & K)|[(pr & K)|[(w' & J & K)|[(pl & j & b & J & K)|(t & f & J & K)]]]]].
      * left. exists i. split; auto. exists k. auto.
      * right; right. exists r. split; [eapply attached_now; eauto|]. exists cb. auto.
      * exfalso. rewrite (replay_prms pr s R) in K. assert (Q : PuWhen w = PuPromise); [|discriminate Q]. apply (purpose_inj s p _ PuPromise R P). apply OwnTask.promised_purpose; auto. eapply InvRest.prom_promised; eauto.
      * exfalso. destruct (InvRest.wmade_reachable s R) as [M1 M2]. destruct (M2 w' (M1 w' J)) as (t & a & ins' & Ev'). rewrite K in Ev'.
        assert (Q : PuWhen w = PuWhen w') by (apply (purpose_inj s p _ _ R P); right; eauto 8). injection Q as ->. contradiction.
      * exfalso. apply (Hh _ K). pose proof (hk_job _ _ K0 pl) as Ck. rewrite Forall_forall in Ck. apply (Ck _ J).
      * right; left. exists t, f. auto.
    + destruct (wrefs_reachable s R w) as [B T]. specialize (T B (le_n _)).
      assert (Ps : 0 < total zero zero zero (one w) B s) by lia.
      apply (total_pos _ _ _ _ zero_nonneg zero_nonneg (fun _ => Z.le_refl _) (one_nonneg w)) in Ps.
      destruct Ps as [(t & f & J & Pf)|[(i & k & Al & J & Pf)|[(r & cb & J & Pf)|[(pr & q' & J & Pf)|[(w' & J & Pf)|(pl & [j b] & J & Pf)]]]]].
      * right; left. exists t, f. split; auto. right; right. exists all, w, ins. split; auto. now apply fr_ref.
      * left. exists i. split; auto. exists k. split; auto. right. exists all, w, ins. split; auto. now apply tw_refers.
      * right; right. apply tw_refers in Pf. destruct (attached_now s r cb R J) as [Nr (t & At)]. apply in_split in At as (l1 & l2 & El).
        destruct (InvHook.attached_body s R _ _ _ El) as (q & b & Ec & Ab & Pq). rewrite Ec in Pf. cbn [refers] in Pf.
        destruct Ab as [(sh & u & caps & ->)|(kd & w' & idx & ->)]; [discriminate Pf|].
        assert (w' = w) by (destruct kd; apply Nat.eqb_eq in Pf; auto). subst w'.
        assert (Pq' : purpose_is (trace s) q (PuHook (is_all kd) w idx r)).
        { rewrite El. apply InvHook.pur_app'. destruct kd; exact Pq. }
        apply InvComb.purpose_hook in Pq' as (t' & v & Pe). destruct (InvComb.hook_input s R _ _ _ _ _ _ _ Pe) as [Nth (ins' & C')].
        assert (C : InvFill.comb (hp s) all w ins) by (exists p, t0; exact Ev). destruct (InvFill.comb_one _ _ _ _ _ _ R C C') as [-> <-].
        destruct (InvComb.prefix_reachable s R _ _ _ C) as (rst & Pf2 & _).
        exists r. split; auto. exists cb. split; auto. right. exists (is_all kd), w, ins, idx. split; [exact Cm|split].
        -- rewrite Pf2. now apply InvComb.nth_app.
        -- rewrite Ec. exists q, r. destruct kd; reflexivity.
      * unfold zero in Pf. lia.
      * unfold zero in Pf. lia.
      * exfalso. cbn [snd] in Pf. pose proof (tab_inv pl s R) as F. rewrite Forall_forall in F. destruct (F _ J) as (? & ? & ? & ? & _ & _ & [C|(? & ? & C)]); cbn [snd] in C; rewrite C in Pf; cbn in Pf; unfold zero in Pf; lia.
Qed.
Lemma one_cause : forall s p x, reachable s -> purpose_is (trace s) p x -> ~ is_ready p (trace s) ->
  of_promise s p \/ (exists pl j, in_table s p pl j) \/ (exists c, in_queue s p c) \/ (exists t, carried s p t) \/ exists r, hangs_on s p r.
Proof.
  intros s p x R P N.
  assert (D : x = PuPromise \/ x <> PuPromise) by (destruct x; auto; right; discriminate). destruct D as [->|D]; [now left|].
  destruct (OwnTask.result_owned s p x R P D) as [H|[(t & f & r & E & H)|H]]; [contradiction| |].
  - right; right; right; left. exists t, f. split; [rewrite E; now left|]. right; left. exact H.
  - destruct H as [(i & k & Al & J & K)|[(r & cb & J & K)|[(pr & K)|[(w & J & K)|[(pl & j & b & J & K)|(t & f & J & K)]]]]].
    + right; right; left. exists i. split; auto. exists k. auto.
    + right; right; right; right. exists r. split; [eapply attached_now; eauto|]. exists cb. auto.
    + left. rewrite (replay_prms pr s R) in K. apply OwnTask.promised_purpose; auto. eapply InvRest.prom_promised; eauto.
    + destruct (InvRest.wmade_reachable s R) as [M1 M2]. destruct (M2 w (M1 w J)) as (t & a & ins & Ev). rewrite K in Ev.
      assert (C : combines (trace s) a w p ins) by (exists t; exact Ev).
      destruct (when_any_time s a w p ins R C) as [H|[H|[H|H]]]; [contradiction|auto..].
    + right; left. exists pl, j, b. auto.
    + right; right; right; left. exists t, f. auto.
Qed.
Theorem root : forall s p x, reachable s -> purpose_is (trace s) p x -> ~ is_ready p (trace s) ->
  exists r, hangs s p r /\ ~ is_ready r (trace s) /\
    (of_promise s r \/ (exists pl j, in_table s r pl j) \/ (exists c, in_queue s r c) \/ exists t, carried s r t).
Proof.
  intros s p x R. revert x. induction p as [p IH] using lt_wf_ind. intros x P N.
  destruct (one_cause s p x R P N) as [H|[H|[H|[H|(r & H)]]]]; [exists p; split; [constructor|]; auto..|].
  pose proof (InvRoot.hangs_older s p r R H) as Lt.
  assert (Pr : exists y, purpose_is (trace s) r y). { apply InvPack.purpose_ex; auto. pose proof (proj1 (InvKind.purpose_one s R) p x P). lia. }
  destruct Pr as [y Py]. destruct (IH r Lt y Py (proj1 H)) as (q & Hq & Nq & C). exists q. split; [|auto]. econstructor; eauto.
Qed.
Theorem hang_any : forall s t i p tk, reachable s -> ubs s = None -> nobody_wakes s -> hangs_in s t i p tk ->
  struck_off t i p tk (trace s) \/
  exists r, hangs s p r /\ ~ is_ready r (trace s) /\
    (of_promise s r \/ (exists pl j, in_table s r pl j) \/ (exists c, in_queue s r c) \/ exists u, carried s r u).
Proof.
  intros s t i p tk R U A H. destruct (InvHang.hang_unready s t i p tk R U A H) as [X|N]; [now left|right].
  destruct (InvHang.hang_made s t i p tk R H) as [x P]. exact (root s p x R P N).
Qed.
