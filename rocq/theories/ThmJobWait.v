(** * ThmJobWait: after wait and wait_all the functions of the jobs are over. *)
From Coq Require Import List Lia. Import ListNotations.
From Verif Require Import Types State Machine Spec SpecApi SpecPool SpecPoolApi SpecPack SpecFut SpecJobWait ReplayObj InvTerm InvJobs ApiPool OwnJob ThmJob ThmPool ThmFut InvJobWait InvJobReady.

Lemma over_app : forall p tr l full, over p tr full -> over p (tr ++ l) full.
Proof. intros p tr l full H B. apply fin_app. now apply H. Qed.
Theorem ready_job : forall s tr1 t q o tr2 t1 pl j g p, reachable s -> trace s = tr1 ++ EvReady t q o :: tr2 -> In (EvJobAdd t1 pl j g p q) tr1 -> over p tr1 (trace s).
Proof. exact ready_over. Qed.
Lemma added_before : forall s tr1 e tr2 t pl j g p q, reachable s -> trace s = tr1 ++ e :: tr2 -> In (EvJobAdd t pl j g p q) (trace s) -> added pl j tr1 -> In (EvJobAdd t pl j g p q) tr1.
Proof.
  intros s tr1 e tr2 t pl j g p q R E A (t' & g' & p' & q' & A'). pose proof (ids_unique s R) as U.
  apply in_split in A as (l1 & l2 & A). pose proof (U l1 _ l2 A) as [_ N].
  rewrite E in A. apply app_eq_app in A as [l0 [[A1 A2]|[A1 A2]]].
  - destruct l0 as [|x l0]; cbn in A2.
    + rewrite app_nil_r in A1. subst. destruct N. exists t', g', p', q'. exact A'.
    + injection A2 as -> ->. subst. apply in_or_app. right. now left.
  - destruct N. exists t', g', p', q'. rewrite A1. apply in_or_app. auto.
Qed.
Theorem erased_job : forall s tr1 t pl js tr2 t1 j g p q, reachable s -> trace s = tr1 ++ EvJobErase t pl js :: tr2 -> In j js ->
  In (EvJobAdd t1 pl j g p q) (trace s) -> over p tr1 (trace s).
Proof.
  intros s tr1 t pl js tr2 t1 j g p q R E J A B.
  assert (T : taken pl j tr1).
  { destruct B as (v & u & x & B). apply in_split in B as (l1 & l2 & B). destruct (job_run s R pl j t1 g p q A l1 v u x l2 B) as (lv & g' & T).
    assert (T' : In (EvJobTake v pl j lv g') (trace s)) by (rewrite B; apply in_or_app; auto). rewrite E in T'. apply in_app_iff in T' as [T'|[T'|T']]; [exists v, lv, g'; exact T'|discriminate T'|].
    elim (ThmPool.removed_never_taken s pl j t js _ tr1 tr2 R E (or_introl eq_refl) J). exists v, lv, g'. exact T'. }
  pose proof (erased_finished s R tr1 _ tr2 E j J T) as En. apply in_split in En as (a & b & En). subst tr1.
  assert (E2 : trace s = a ++ EvJobEnd t pl j :: (b ++ EvJobErase t pl js :: tr2)) by (rewrite E, <- app_assoc; reflexivity).
  assert (Ad : added pl j a).
  { destruct (end_finished s R a _ _ E2) as [_ (t2 & g2 & p2 & q2 & X & _)]. exists t2, g2, p2, q2. exact X. }
  apply fin_app. refine (end_over s a t pl j _ t1 g p q R E2 _ B). eapply added_before; eauto.
Qed.
Lemma out_of_table : forall pl j tr, added pl j tr -> ~ In j (jobs_of pl tr) ->
  exists a t js b, (tr = a ++ EvJobErase t pl js :: b \/ tr = a ++ EvJobClear t pl js :: b) /\ In j js.
Proof.
  intros pl j tr. induction tr as [|e l IH] using rev_ind; [intros (? & ? & ? & ? & [])|]. intros A N.
  assert (K : (exists t js, In j js /\ (e = EvJobErase t pl js \/ e = EvJobClear t pl js)) \/ (added pl j l /\ ~ In j (jobs_of pl l))).
  { rewrite jobs_of_snoc in N. apply added_snoc in A as [A|(t & g & p & q & ->)].
    - destruct (in_dec Nat.eq_dec j (jobs_of pl l)) as [I|I]; [|auto]. left.
      destruct e; cbn [jobs_step] in N; try contradiction; destruct (Nat.eqb_spec pl0 pl); try contradiction; [destruct N; apply in_or_app; auto| |]; subst.
      all: destruct (existsb (Nat.eqb j) js) eqn:Ex; [apply existsb_exists in Ex as (j' & J & Q); apply Nat.eqb_eq in Q; subst j'; eauto 6|].
      all: destruct N; apply filter_In; split; auto; now rewrite Ex.
    - destruct N. cbn [jobs_step]. rewrite Nat.eqb_refl. apply in_or_app. right. now left. }
  destruct K as [(t & js & J & [-> | ->])|[A' N']]; [exists l, t, js, []; auto|exists l, t, js, []; auto|].
  destruct (IH A' N') as (a & t & js & b & [-> | ->] & J); exists a, t, js, (b ++ [e]); (split; [|auto]); [left|right]; rewrite <- app_assoc; reflexivity.
Qed.
Lemma taken_dec : forall pl j tr, taken pl j tr \/ ~ taken pl j tr.
Proof.
  intros pl j tr. set (b := fun e => match e with EvJobTake _ pl' j' _ _ => andb (Nat.eqb pl' pl) (Nat.eqb j' j) | _ => false end).
  destruct (existsb b tr) eqn:Ex.
  - apply existsb_exists in Ex as (e & J & Q). destruct e; try discriminate Q. cbn in Q. apply andb_prop in Q as [Q1 Q2]. apply Nat.eqb_eq in Q1, Q2. subst. left. unfold taken. eauto.
  - right. intros (t & lv & g & J). enough (existsb b tr = true) by congruence. apply existsb_exists. exists (EvJobTake t pl j lv g). split; auto. cbn. now rewrite !Nat.eqb_refl.
Qed.
Lemma gone_job : forall s m x pl j t1 g p q, reachable s -> trace s = m ++ x -> In (EvJobAdd t1 pl j g p q) m -> ~ In j (jobs_of pl m) ->
  cleared_running pl j m \/ over p m (trace s).
Proof.
  intros s m x pl j t1 g p q R E A N. assert (A' : In (EvJobAdd t1 pl j g p q) (trace s)) by (rewrite E; apply in_or_app; auto).
  destruct (out_of_table pl j m) as (a & t & js & b & [-> | ->] & J); auto; [exists t1, g, p, q; exact A| |].
  - right. apply over_app. rewrite <- app_assoc in E. eapply erased_job; eauto.
  - destruct (taken_dec pl j a) as [T|T]; [left; exists a, t, js, b; auto|right]. intros B. exfalso. rewrite <- app_assoc in E.
    destruct (removed_result s pl j t js _ a _ t1 g p q R E (or_intror eq_refl) J T A') as [X _]. contradiction.
Qed.
Lemma wait_over : forall s tr x t cl pl j t0 g p q q' t' g' p', reachable s -> trace s = tr ++ x ->
  In (EvJobAdd t0 pl j g p q) tr -> In (EvJobAdd t' pl j g' p' q') tr -> waited t q' cl tr ->
  sometime cl tr (exit_seen t) \/ over p tr (trace s).
Proof.
  intros s tr x t cl pl j t0 g p q q' t' g' p' R E A A' [W|W]; [|auto]. right.
  assert (At : In (EvJobAdd t0 pl j g p q) (trace s)) by (rewrite E; apply in_or_app; auto).
  assert (At' : In (EvJobAdd t' pl j g' p' q') (trace s)) by (rewrite E; apply in_or_app; auto).
  destruct (add_unique s pl j _ _ _ _ _ _ _ _ R At At') as [<- <-].
  apply InvTerm.ready_ev in W as (u & o & W). apply in_split in W as (l1 & l2 & ->). rewrite <- app_assoc in E. cbn [app] in E.
  apply over_app. refine (ready_job s l1 u q o _ t0 pl j g p R E _).
  apply in_app_iff in A as [A|[A|A]]; [exact A|discriminate A|]. exfalso. apply in_split in A as (m1 & m2 & ->).
  assert (E2 : trace s = (l1 ++ EvReady u q o :: m1) ++ EvJobAdd t0 pl j g p q :: (m2 ++ x)) by (rewrite E; repeat (rewrite <- app_assoc; cbn [app]); reflexivity).
  apply (add_unready s R _ _ _ E2 u o). apply in_or_app. right. now left.
Qed.
Lemma moment_in : forall cl tr m e, moment cl tr m -> In e (cl_pre cl) -> In e m /\ exists y, tr = m ++ y.
Proof. intros cl tr m e (a & b & -> & ->) J. split; [apply in_or_app; auto|]. exists b. reflexivity. Qed.
Lemma cleared_app : forall pl j tr l, cleared_running pl j tr -> cleared_running pl j (tr ++ l).
Proof. intros pl j tr l (a & t & js & b & -> & J & T). exists a, t, js, (b ++ l). rewrite <- app_assoc. auto. Qed.
Lemma threw_unit : forall t cl, ~ threw t cl RUnit.
Proof. intros t cl (e & c & k & l & H & _). discriminate H. Qed.
Theorem wait_jobs : forall s, reachable s -> each_return (fun t cl tr r => after_wait t cl tr (trace s) r) (trace s).
Proof.
  intros s R tr e tr2 E. pose proof (job_waits s R tr e tr2 E) as W. destruct e; auto. destruct W as (cl & rest & O & C & W). exists cl, rest. repeat split; auto.
  intros ->. unfold after_wait. destruct (cl_api cl) eqn:Ea; auto.
  - destruct W as (pl & Pl & W). exists pl. split; [exact Pl|]. intros j0 t0 g p q <- A. destruct W as [(_ & _ & m & Mo & N)|(q' & (m & Mo & _ & t' & g' & p' & A') & _ & [(_ & _ & W)|W])].
    + destruct (moment_in _ _ _ _ Mo A) as [Am (y & ->)]. rewrite <- app_assoc in E. right.
      destruct (gone_job s m _ pl _ _ _ _ _ R E Am N); [left; now apply cleared_app|right; now apply over_app].
    + destruct (moment_in _ _ _ _ Mo A) as [Am (y & Ey)].
      destruct (wait_over s tr _ t cl pl j t0 g p q q' t' g' p' R E) as [X|X]; [rewrite Ey; apply in_or_app; auto|rewrite Ey; apply in_or_app; auto|auto..].
    + elim (threw_unit _ _ W).
  - destruct W as (pl & Pl & qs & (m & Mo & F) & W). exists pl. split; [exact Pl|]. intros j0 t0 g p q _ A. destruct (moment_in _ _ _ _ Mo A) as [Am (y & Ey)].
    destruct W as [(_ & W)|W]; [|elim (threw_unit _ _ W)]. destruct (in_dec Nat.eq_dec j0 (jobs_of pl m)) as [I|N].
    + assert (K : exists q', In q' qs /\ job_state pl j0 q' m).
      { clear - F I. induction F as [|a b l l' H F IH]; [destruct I|]. destruct I as [->|I]; [exists b; split; [now left|exact H]|]. destruct (IH I) as (q' & J & X). exists q'. split; [now right|exact X]. }
      destruct K as (q' & Jq & _ & t' & g' & p' & A').
      destruct (wait_over s tr _ t cl pl j0 t0 g p q q' t' g' p' R E) as [X|X]; [rewrite Ey; apply in_or_app; auto|rewrite Ey; apply in_or_app; auto|auto..].
    + rewrite Ey in *. rewrite <- app_assoc in E. right.
      destruct (gone_job s m _ pl _ _ _ _ _ R E Am N); [left; now apply cleared_app|right; now apply over_app].
Qed.
