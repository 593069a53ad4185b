(** * ThmPool: consequences for the jobs of pools. *)
From Verif Require Import Types State Machine Spec SpecPool InvJobs.

Lemma at_each_imp : forall (P Q : list event -> event -> Prop) tr, (forall a e, P a e -> Q a e) -> at_each P tr -> at_each Q tr.
Proof. intros P Q tr H A x e y E. apply H. eapply A; eauto. Qed.
Theorem ids_unique : forall s, reachable s -> at_each (fun tr e => match e with
  | EvJobAdd _ pl j _ _ _ => j <> 0 /\ ~ added pl j tr | _ => True end) (trace s).
Proof. intros s R. apply (at_each_imp job_rules); [|now apply job_rules_hold]. intros a []; auto. Qed.
Theorem taken_once : forall s, reachable s -> at_each (fun tr e => match e with
  | EvJobTake _ pl j _ _ => added pl j tr /\ ~ taken pl j tr | _ => True end) (trace s).
Proof.
  intros s R. apply (at_each_imp job_rules); [|now apply job_rules_hold]. intros a []; auto. intros ((A & B) & _). split; auto. now apply in_added.
Qed.
Theorem removed_never_taken : forall s pl j t js e a b, reachable s -> trace s = a ++ e :: b ->
  (e = EvJobErase t pl js \/ e = EvJobClear t pl js) -> In j js -> ~ taken pl j b.
Proof.
  intros s pl j t js e a b R E X I. eapply InvJobs.removed_never_taken; eauto. pose proof (job_rules_hold s R a e b E) as H.
  destruct X as [-> | ->]; cbn in H; [|now subst]. destruct H as (j' & -> & H). destruct I as [->|[]]. exact H.
Qed.
Theorem urgent_first : forall s, reachable s -> at_each (fun tr e => match e with
  | EvJobTake _ pl j lv g =>
      waiting_job pl j tr /\ most_urgent lv j g (entries_of pl tr) /\ exists g', group_of pl j tr = Some g' /\ lv <= g_level g'
  | EvJobSkip _ pl lv (Some (j, g)) =>
      most_urgent lv j g (entries_of pl tr) /\ (~ waiting_job pl j tr \/ exists g', group_of pl j tr = Some g' /\ g_level g' < lv)
  | EvJobSkip _ pl lv None => forall j g, In (j, g) (entries_of pl tr) -> g_level g < lv
  | _ => True end) (trace s).
Proof. intros s R. apply (at_each_imp job_rules); [|now apply job_rules_hold]. intros a []; auto. Qed.
(** A job that is waiting has a queue entry in its present group. *)
Theorem waiting_queued : forall s pl j, reachable s -> waiting_job pl j (trace s) ->
  exists g, group_of pl j (trace s) = Some g /\ In (j, g) (entries_of pl (trace s)).
Proof.
  intros s pl j R W. pose proof (jobs_inv pl s R) as J. apply (waiting_iff _ _ _ _ J) in W as (x & I & N).
  exists (Core.jb_group x). split; [apply (ji_job _ _ _ J _ _ I)|now apply (ji_ent _ _ _ J)].
Qed.
