(** * InvHangMx: why a thread does not come back from a mutex or a condition variable (C87). *)
From Verif Require Import Types Core State Ops Code Machine Base Spec SpecState SpecMutex SpecLost SpecStall SpecHang SpecHangMx.
From Verif Require InvLost InvSleep InvQueue InvCv InvMutex InvStall ReplayObj ThmSleep ThmObj ThmRegistry.

Lemma unw_dec : forall sm i b, struck_out i sm b \/ forall u, ~ In (EvUnwaiter u sm i) b.
Proof.
  intros sm i b. set (f := fun e => match e with EvUnwaiter _ q j => sem_eqb q sm && (j =? i) | _ => false end).
  assert (SE : forall a b, sem_eqb a b = true <-> a = b).
  { intros [] []; cbn; split; intros H; try discriminate; try (apply Nat.eqb_eq in H; congruence); injection H as ->; apply Nat.eqb_refl. }
  destruct (existsb f b) eqn:E.
  - left. apply existsb_exists in E as (e & J & H). destruct e; try discriminate H. cbn in H.
    apply andb_true_iff in H as [H1 H2]. apply SE in H1. apply Nat.eqb_eq in H2. subst. eexists. exact J.
  - right. intros u J. assert (X : existsb f b = true); [|congruence]. apply existsb_exists. eexists. split; [exact J|]. cbn. rewrite Nat.eqb_refl, andb_true_r. now apply SE.
Qed.
Section H.
Variables (s : st) (t : tid) (i : id) (sm : semid) (tk : nat).
Hypotheses (R : reachable s) (U : ubs s = None) (A : nobody_wakes s) (H : hangs_at s t i sm tk).
Lemma hang_reg : exists a b f, trace s = a ++ EvWaiter t sm i tk f :: b.
Proof.
  destruct H as (St & dl & l & e & k & r & E).
  pose proof (InvCv.cvf_reachable s R t) as F. rewrite E in F. inversion F as [|? ? F1 _]; subst. cbn in F1. destruct F1 as [f J].
  apply in_split in J as (a & b & El). eauto.
Qed.
Lemma hang_att : attached t (trace s) = Some i /\ i <> invalid_id.
Proof.
  destruct H as (St & dl & l & e & k & r & E). destruct (InvSleep.sleep_woken s R t _ _ E) as [Lc _].
  assert (At : attached t (trace s) = Some i) by (rewrite <- Lc; apply (InvQueue.rv_loc _ (InvQueue.r_inv_reachable s R))).
  split; auto. now destruct (InvMutex.att_unique s t t i R At At).
Qed.
Lemma hang_tok : ~ interrupted tk (trace s).
Proof.
  intros X. destruct hang_att as [At _]. destruct H as (St & dl & l & e & k & r & E).
  destruct (InvCv.interrupted_wakes s R t i dl sm l tk e k r E At (proj1 (proj2 St)) X) as [Y|(u & g & r' & E' & Y)].
  - destruct (InvStall.stalled_idle s t i R U St) as [Q _]. pose proof (ThmSleep.pending_spec s i R) as P. rewrite Q, app_nil_r in P. contradiction.
  - assert (J : In g (stk s u)) by (rewrite E'; now left). apply A in J. destruct Y as [->|[->| ->]]; discriminate J.
Qed.
Lemma hang_free : forall u all ws, In (EvNotify u sm all ws) (trace s) -> ~ In (i, tk) ws.
Proof.
  intros u all ws J K. destruct hang_att as [_ Ni].
  destruct (InvCv.notified_reachable s R u sm all ws (i, tk) J K Ni) as [X|(ws' & X & _)]; [exact (hang_tok X)|]. apply A in X. discriminate X.
Qed.
Theorem hang_sem : exists a b f, trace s = a ++ EvWaiter t sm i tk f :: b /\
  (struck_out i sm b \/ (In (i, tk) (waiters sm (trace s)) /\ unnotified sm (i, tk) b)).
Proof.
  destruct hang_reg as (a & b & f & El). exists a, b, f. split; auto. destruct (unw_dec sm i b) as [X|X]; [now left|right].
  assert (Fr : forall u all ws, In (EvNotify u sm all ws) b -> ~ In (i, tk) ws).
  { intros u all ws J. apply (hang_free u all ws). rewrite El. apply in_or_app. right. now right. }
  split.
  - destruct (InvCv.waiter_stays s R a b t sm i tk f El X) as [Y|(u & all & ws & J & K)]; auto. elim (Fr u all ws J K).
  - intros u all ws J. split; [|eauto]. destruct all; auto. exfalso.
    pose proof J as J0. apply in_split in J as (b1 & b2 & ->).
    assert (E2 : trace s = (a ++ EvWaiter t sm i tk f :: b1) ++ EvNotify u sm true ws :: b2) by (rewrite El, <- app_assoc; reflexivity).
    destruct (ThmRegistry.prefix_reachable s R _ _ E2) as (s1 & R1 & E1).
    pose proof (ThmObj.notify_takes s R _ _ _ E2) as T. cbn in T.
    destruct (InvCv.waiter_stays s1 R1 a b1 t sm i tk f E1) as [Y|(v & all & ws' & I1 & I2)].
    + intros v I. apply (X v). apply in_or_app. now left.
    + apply (Fr u true ws J0). rewrite T, <- E1. exact Y.
    + apply (Fr v all ws'); auto. apply in_or_app. now left.
Qed.
End H.
Theorem hang_mutex : forall s t i m tk, reachable s -> ubs s = None -> nobody_wakes s -> hangs_at s t i (SMx m) tk ->
  mx_holder m (trace s) <> None \/
  exists a b f, trace s = a ++ EvWaiter t (SMx m) i tk f :: b /\ (struck_out i (SMx m) b \/ missed t m a b).
Proof.
  intros s t i m tk R U A H.
  destruct (mx_holder m (trace s)) as [u|] eqn:Hm; [left; congruence|right].
  destruct (hang_reg s t i (SMx m) tk R H) as (a & b & f & El). exists a, b, f. split; auto.
  destruct (unw_dec (SMx m) i b) as [X|X]; [now left|right].
  apply (InvLost.unlock_lost s a b t m i tk f R El); auto.
  - split; [apply (hang_att s t i (SMx m) tk R H)|]. split; [exact X|apply (hang_tok s t i (SMx m) tk R U A H)].
  - intros [(u & r' & E')|(u & ws & J & _)].
    + assert (J : In (FNotify (SMx m) true) (stk s u)) by (rewrite E'; now left). apply A in J. discriminate J.
    + apply A in J. discriminate J.
Qed.
