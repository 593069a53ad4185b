(** * ThmCheck: no job is stranded. *)
From Verif Require Import Types Core State Ops Code Machine Base Spec SpecPool SpecState SpecLock SpecCheck Rules Events InvCtx InvBound InvStack InvRefs InvAff InvCv InvPack Adj Count Replay ReplayObj InvQueue InvJobs InvTab ThmPool Own InvLock InvGuard ThmSleep InvFire InvAttach InvBuild InvCheck.
Local Open Scope Z_scope.

Lemma queued_pending : forall s i, reachable s -> queued i (trace s) = ctx_pending (h_ctxs (hp s) i).
Proof. intros s i R. unfold queued. rewrite (pending_spec s i R). rewrite skipn_app, skipn_all, Nat.sub_diag. reflexivity. Qed.
Lemma sumf_pos : forall A (f : A -> Z) l, (forall x, 0 <= f x) -> 0 < sumf f l -> exists x, In x l /\ 0 < f x.
Proof.
  intros A f l N. induction l as [|x l IH]; cbn [sumf]; [lia|]. intros H. destruct (Z_lt_dec 0 (f x)); [exists x; split; [now left|auto]|].
  pose proof (N x). destruct IH as (y & J & K); [lia|]. exists y. split; [now right|auto].
Qed.
Lemma cnt_pos : forall pl lv tr j g, In (j, g) (entries_of pl tr) -> (lv <= g_level g)%nat -> 0 < cnt pl lv tr.
Proof.
  intros pl lv tr j g J K. unfold cnt. assert (In (j, g) (filter (fun x => (lv <=? g_level (snd x))%nat) (entries_of pl tr))).
  { apply filter_In. split; auto. now apply Nat.leb_le. }
  destruct (filter _ _); [destruct H|]. cbn [length]. lia.
Qed.
Lemma top_frame : forall s t f pl lv, reachable s -> In f (stk s t) -> checking pl lv f = true -> exists r, stk s t = f :: r.
Proof.
  intros s t f pl lv R J C. apply in_split in J as (a & r & E). pose proof (ctop_reachable s R t) as Ct. pose proof (adj_in _ _ _ _ _ _ Ct E) as Q.
  assert (is_top f = true) by (destruct f; try discriminate C; auto; destruct k; try discriminate C; auto). apply Q in H.
  destruct a as [|x a]; [eauto|]. destruct (lasto_some (x :: a) None) as [y Y]; [discriminate|]. congruence.
Qed.
Theorem job_check : forall s pl j g lv n i, reachable s -> waiting_job pl j (trace s) -> group_of pl j (trace s) = Some g -> (lv <= g_level g)%nat ->
  In (lv, (n, i)) (workers_of pl (trace s)) -> In i (reg_ids (trace s)) -> ~ exit_requested i (trace s) -> check_due pl lv n i s.
Proof.
  intros s pl j g lv n i R Wj Gj Lv W Rg X.
  destruct (waiting_queued s pl j R Wj) as (g' & G' & Je). assert (g' = g) by congruence. subst g'.
  pose proof (worker_ids _ _ R _ _ _ W) as Ow.
  assert (Rh : In i (h_regd (hp s))) by (rewrite <- (rv_regd _ (r_inv_reachable s R)); exact Rg).
  assert (X0 : cx_exit (h_ctxs (hp s) i) = false) by (destruct (cx_exit (h_ctxs (hp s) i)) eqn:Q; auto; apply (exit_dec s i R) in Q; contradiction).
  destruct (checks_match pl lv i s R n W Rh X0) as [B K]. pose proof (cnt_pos _ _ _ _ _ Je Lv) as P.
  assert (T : 0 < tot pl lv i B s) by lia. unfold tot in T. unfold check_due.
  destruct (Z_lt_dec 0 (qc pl lv i (hp s))) as [Q|Q].
  - left. rewrite (queued_pending s i R). unfold qc in Q. apply sumf_pos in Q as (k & J & Kk); [|intros; apply qk01]. unfold qk, b2z in Kk.
    destruct k; cbn in Kk; try lia. destruct (Nat.eqb_spec pl0 pl); [|cbn in Kk; lia]. destruct (Nat.eqb_spec lv0 lv); [|cbn in Kk; lia]. now subst.
  - right. assert (Q' : 0 < sumN (fun t => sumf (fwt pl lv i (h_loc (hp s)) t) (stk s t)) B) by lia. unfold sumN in Q'.
    apply sumf_pos in Q' as (t & _ & Q'); [|intros; apply sum_nn]. apply sumf_pos in Q' as (f & J & Kf); [|intros; apply fwt_nn]. unfold fwt in Kf.
    destruct (sending pl lv i f) as [|m] eqn:Sf; [right|left; exists t, f; split; auto; lia].
    destruct (checking pl lv f) eqn:C; [|cbn in Kf; lia]. destruct (h_loc (hp s) t) as [c|] eqn:Lc; [|cbn in Kf; lia]. cbn in Kf. destruct (Nat.eqb_spec c i) as [->|]; [|cbn in Kf; lia].
    pose proof (loc_own_reachable s R t i Lc) as [_ N1]. destruct Ow as [_ N2]. assert (En : t = n) by congruence. clear N1 N2. subst t.
    destruct (top_frame s n f pl lv R J C) as [r E]. exists f, r. rewrite (rv_loc _ (r_inv_reachable s R)). auto.
Qed.

(** ** Checks are sent under the lock of the pool *)
Definition sends (f : frame) : option nat :=
  match f with
  | FLaunch1 _ _ (TCheck p _) _ | FLaunch _ _ (TCheck p _) _ | FPNotify p _ | FPDisp p _ | FDisp _ (TCheck p _) _ | FInvoke _ (TCheck p _) _ | FPush _ (TCheck p _) _ => Some p
  | _ => None
  end.
Definition under (a : option frame) (f : frame) (r : list frame) : Prop :=
  match sends f with Some p => match r with FPUnl q :: _ | FPDisp q _ :: _ => q = p | _ => False end | None => True end.
Lemma fire_task : forall s t p cb c, reachable s -> In (FFire1 p cb c) (stk s t) -> exists q b, cb_task cb = TPack q b.
Proof.
  intros s t p cb c R J. assert (A : exists u, In (EvAttach u p cb) (trace s)).
  { pose proof (fok_reachable s R t) as F. rewrite Forall_forall in F. specialize (F _ J). cbn [fok] in F.
    assert (P : forall r, pend p (cb :: r) (trace s) -> exists u, In (EvAttach u p cb) (trace s)).
    { intros r P. destruct P as (_ & dn & Q & _). apply early_attached. rewrite Q. apply in_or_app. right. now left. }
    destruct c; try (destruct F as [_ F]; eauto; fail). }
  destruct A as [u A]. apply in_split in A as (a & b & A). destruct (attach_new s R _ _ _ A) as (q & b' & Q & _). eauto.
Qed.
Theorem under_reachable : forall s, reachable s -> forall t, adj under None (stk s t).
Proof.
  apply (adj_rule (fun s t => under)); auto.
  - intros t. cbn. destruct t; cbn; unfold under; cbn; auto.
  - intros s t pre rest h n R R' E L Fp. split; [|split].
    + assert (Ft : forall p cb c, pre = [FFire1 p cb c] -> exists q b, cb_task cb = TPack q b).
      { intros p cb c ->. eapply (fire_task s t); eauto. rewrite E. now left. }
      lstep_cases L; try destruct (Ft _ _ _ eq_refl) as (? & ? & ->); cbn [next_frames] in *; sh_; try exact Logic.I; unfold under in *; cbn [sends] in *; auto.
      all: try (match goal with |- context [match ?k with TNull => _ | _ => _ end] => destruct k end; auto).
      all: try (cbn in *; match goal with H : _ /\ _ |- _ => destruct H as [H _]; exact H | _ => reflexivity end).
    + destruct rest as [|g r]; auto.
    + destruct (spawned n) as [[c cfs]|] eqn:Sp; auto. destruct (lstep_spawned _ _ _ _ _ _ _ L Sp) as (_ & _ & b & ->). destruct b; cbn; unfold under; cbn; auto.
Qed.
Lemma sends_locked : forall l a f p, adj under a l -> In f l -> sends f = Some p -> In (FPUnl p) l.
Proof.
  induction l as [|g l IH]; intros a f p H J Q; [destruct J|]. destruct H as [H1 H2]. right. destruct J as [<-|J]; [|eapply IH; eauto].
  unfold under in H1. rewrite Q in H1. destruct l as [|x l]; [contradiction|]. destruct x; try contradiction; subst; [|now left].
  eapply (IH (Some g) (FPDisp p ws) p); auto. now left.
Qed.
Lemma sending_sends : forall p9 lv i f, (0 < sending p9 lv i f)%nat -> sends f = Some p9.
Proof.
  intros p9 lv i f H. destruct f; cbn in *; try lia.
  all: try (destruct (Nat.eqb_spec i0 i); cbn in H; [|lia]; destruct k; cbn in *; try lia).
  all: match goal with H : context [(?a =? ?b)%nat && _] |- _ => destruct (Nat.eqb_spec a b); cbn in H; [congruence|lia] | H : context [(?a =? ?b)%nat] |- _ => destruct (Nat.eqb_spec a b); cbn in H; [congruence|lia] end.
Qed.
Theorem job_check_free : forall s pl j g lv n i, reachable s -> waiting_job pl j (trace s) -> group_of pl j (trace s) = Some g -> (lv <= g_level g)%nat ->
  In (lv, (n, i)) (workers_of pl (trace s)) -> In i (reg_ids (trace s)) -> ~ exit_requested i (trace s) -> lock_holder (LPool pl) (trace s) = None ->
  In (TCheck pl lv) (queued i (trace s)) \/ (attached n (trace s) = Some i /\ exists f r, stk s n = f :: r /\ checking pl lv f = true).
Proof.
  intros s pl j g lv n i R Wj Gj Lv W Rg X Lk. destruct (job_check s pl j g lv n i R Wj Gj Lv W Rg X) as [H|[(t & f & J & H)|(f & r & E & A & C)]]; auto; [|right; eauto].
  exfalso. apply sending_sends in H. pose proof (sends_locked _ _ _ _ (under_reachable s R t) J H) as K.
  pose proof (hold_in (LPool pl) s t _ eq_refl R K) as Q. cbn in Q. rewrite Nat.eqb_refl in Q. specialize (Q eq_refl). congruence.
Qed.
(** If such a worker sleeps, the check is in its queue and it can go on at once with the first closure of it. *)
Theorem sleeping_worker : forall s pl j g lv n i, reachable s -> ubs s = None -> waiting_job pl j (trace s) -> group_of pl j (trace s) = Some g -> (lv <= g_level g)%nat ->
  In (lv, (n, i)) (workers_of pl (trace s)) -> In i (reg_ids (trace s)) -> ~ exit_requested i (trace s) -> lock_holder (LPool pl) (trace s) = None -> asleep s n i ->
  In (TCheck pl lv) (queued i (trace s)) /\
  exists s' k r, step s (LStep n 0) = Some s' /\ ubs s' = None /\ queued i (trace s) = k :: r /\ trace s' = trace s ++ [EvStart n i k].
Proof.
  intros s pl j g lv n i R U Wj Gj Lv W Rg X Lk Sl.
  assert (Q : In (TCheck pl lv) (queued i (trace s))).
  { destruct (job_check_free s pl j g lv n i R Wj Gj Lv W Rg X Lk) as [H|(_ & f & r & E & C)]; auto.
    destruct Sl as (dl & k & r' & E'). rewrite E' in E. injection E as <- _. discriminate C. }
  split; auto. assert (Ne : accepted i (trace s) <> started i (trace s)).
  { intros Q1. unfold queued in Q. rewrite Q1, skipn_all in Q. destruct Q. }
  destruct (no_lost_wakeup s n i R U Sl Rg (or_introl Ne)) as (_ & _ & s' & St & U' & _ & [[H _]|(k & r & H1 & H2)]); [contradiction|].
  exists s', k, r. split; auto. split; auto. split; auto. unfold queued. rewrite H1, skipn_app, skipn_all, Nat.sub_diag. reflexivity.
Qed.
