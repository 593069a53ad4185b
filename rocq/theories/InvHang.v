(** * InvHang: why a wait for a future does not return (C86). *)
From Verif Require Import Types Core State Ops Code Machine Base Spec SpecKind SpecOwn SpecPool SpecRest SpecState SpecStall SpecRoot SpecReadySeen SpecHang.
From Verif Require InvReadySeen InvSleep InvQueue InvCv InvMutex InvBound InvPack InvStall InvRoot ThmSleep.

Lemma unw_dec : forall p i b, (exists u, In (EvUnwaiter u (SSt p) i) b) \/ forall u, ~ In (EvUnwaiter u (SSt p) i) b.
Proof.
  intros p i b. set (f := fun e => match e with EvUnwaiter _ (SSt q) j => (q =? p) && (j =? i) | _ => false end).
  destruct (existsb f b) eqn:E.
  - left. apply existsb_exists in E as (e & J & H). destruct e; try discriminate H. cbn in H.
    match type of H with match ?z with _ => _ end = true => destruct z; try discriminate H end.
    apply andb_true_iff in H as [H1 H2]. apply Nat.eqb_eq in H1, H2. subst. eauto.
  - right. intros u J. assert (X : existsb f b = true); [|congruence]. apply existsb_exists. eexists. split; [exact J|]. cbn. now rewrite !Nat.eqb_refl.
Qed.
Lemma rest_wakes : forall s, at_rest s -> nobody_wakes s.
Proof. intros s A t f J. apply A in J. destruct f; try reflexivity; discriminate J. Qed.
Theorem hang_unready : forall s t i p tk, reachable s -> ubs s = None -> nobody_wakes s -> hangs_in s t i p tk ->
  struck_off t i p tk (trace s) \/ ~ is_ready p (trace s).
Proof.
  intros s t i p tk R U A (St & dl & l & e & d & g0 & r & E).
  pose proof (InvCv.cvf_reachable s R t) as F. rewrite E in F. inversion F as [|? ? F1 _]; subst. cbn in F1. destruct F1 as [f J].
  apply in_split in J as (a & b & El). destruct (unw_dec p i b) as [[u H]|H]; [left; exists a, b, f, u; auto|]. right. intros Rd.
  destruct (InvSleep.sleep_woken s R t _ _ E) as [Lc _].
  assert (At : attached t (trace s) = Some i) by (rewrite <- Lc; apply (InvQueue.rv_loc _ (InvQueue.r_inv_reachable s R))).
  destruct (InvMutex.att_unique s t t i R At At) as [_ Ni].
  destruct (InvReadySeen.ready_wakes s a b t p i tk f dl l e (KState p d g0) r R El Ni H Rd E At (proj1 (proj2 St))) as [X|[X|(u & g & r' & E' & X)]].
  - destruct X as [(u & r' & E')|(u & ws & J & _)].
    + assert (J : In (FNotify (SSt p) true) (stk s u)) by (rewrite E'; now left). apply A in J. discriminate J.
    + apply A in J. discriminate J.
  - destruct (InvStall.stalled_idle s t i R U St) as [Q _]. pose proof (ThmSleep.pending_spec s i R) as P. rewrite Q, app_nil_r in P. contradiction.
  - assert (J : In g (stk s u)) by (rewrite E'; now left). apply A in J. destruct X as [->|[->| ->]]; discriminate J.
Qed.
Lemma hang_made : forall s t i p tk, reachable s -> hangs_in s t i p tk -> exists x, purpose_is (trace s) p x.
Proof.
  intros s t i p tk R (_ & dl & l & e & d & g & r & E). apply InvPack.purpose_ex; auto.
  pose proof (InvBound.b_inv_reachable s R) as (_ & _ & Fb). specialize (Fb t). rewrite E in Fb. inversion Fb as [|? ? F1 _]; subst. cbn in F1. apply F1.
Qed.
Theorem hang_cause : forall s t i p tk, reachable s -> ubs s = None -> at_rest s -> hangs_in s t i p tk ->
  struck_off t i p tk (trace s) \/
  exists r, hangs s p r /\ ~ is_ready r (trace s) /\ (of_promise s r \/ (exists pl j, of_job s r pl j) \/ exists c, in_queue s r c).
Proof.
  intros s t i p tk R U A H. destruct (hang_unready s t i p tk R U (rest_wakes s A) H) as [X|N]; [now left|right].
  destruct (hang_made s t i p tk R H) as [x P]. exact (InvRoot.root s p x R A P N).
Qed.
Theorem hang_stalled : forall s t i p tk, reachable s -> ubs s = None -> at_rest s -> all_stalled s -> hangs_in s t i p tk ->
  struck_off t i p tk (trace s) \/
  exists r, hangs s p r /\ ~ is_ready r (trace s) /\ (of_promise s r \/ exists pl j, of_job s r pl j /\
    forall g lv n c, group_of pl j (trace s) = Some g -> In (lv, (n, c)) (workers_of pl (trace s)) -> stalled s n c -> g_level g < lv).
Proof.
  intros s t i p tk R U A Sa H. destruct (hang_unready s t i p tk R U (rest_wakes s A) H) as [X|N]; [now left|right].
  destruct (hang_made s t i p tk R H) as [x P]. exact (InvRoot.root_stalled s p x R U A Sa P N).
Qed.
