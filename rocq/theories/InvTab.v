(** * InvTab: the closures in the job table, and the workers of a pool. *)
From Verif Require Import Types Core State Ops Code Machine Base Spec SpecPool Rules Events InvBound InvStack Replay ReplayObj InvJobs.

Definition job_closure (p q : sid) (k : task) : Prop := exists u caps, k = TPack q (BTask (TPack p (BUser u caps))).
Definition tabok (pl : nat) (tr : list event) (e : nat * job) : Prop :=
  exists t g p q, In (EvJobAdd t pl (fst e) g p q) tr /\ jb_future (snd e) = q /\ (jb_callable (snd e) = TNull \/ job_closure p q (jb_callable (snd e))).
Lemma tabok_app : forall pl tr l e, tabok pl tr e -> tabok pl (tr ++ l) e.
Proof. intros pl tr l e (t & g & p & q & H & K). exists t, g, p, q. split; auto. apply in_or_app; auto. Qed.
Lemma tab_app : forall pl tr l js, Forall (tabok pl tr) js -> Forall (tabok pl (tr ++ l)) js.
Proof. intros pl tr l js. apply Forall_impl. intros. now apply tabok_app. Qed.
Lemma find_in : forall js j x, jobs_find js j = Some x -> In (j, x) js.
Proof.
  induction js as [|[i y] js IH]; cbn; intros j x H; [discriminate|]. destruct (Nat.eqb_spec i j); [injection H as <-; subst; auto|right; auto].
Qed.
Lemma set_tab : forall (P : nat * job -> Prop) js j y, Forall P js -> (forall x, In (j, x) js -> P (j, y)) -> Forall P (jobs_set js j y).
Proof.
  intros P js j y F H. induction js as [|[i x] js IH]; cbn; [constructor|]. inversion F; subst.
  destruct (Nat.eqb_spec i j); [subst; constructor; [eapply H; now left|auto]|constructor; auto].
  apply IH; auto. intros z Hz. apply (H z). now right.
Qed.
Lemma erase_tab : forall (P : nat * job -> Prop) js j, Forall P js -> Forall P (jobs_erase js j).
Proof. intros P js j F. apply Forall_forall. intros x Hx. unfold jobs_erase in Hx. apply filter_In in Hx as [Hx _]. rewrite Forall_forall in F. auto. Qed.
Lemma take_tab : forall pl tr p lv inp p' r, pool_take p lv inp = (p', r) -> Forall (tabok pl tr) (pl_jobs p) -> Forall (tabok pl tr) (pl_jobs p').
Proof.
  intros pl tr p lv inp p' r H F. unfold pool_take in H. destruct (qs_get _ _); [injection H as <- _; exact F|].
  destruct (jobs_find _ _) as [x|] eqn:E; [|injection H as <- _; exact F]. destruct (_ <=? _); injection H as <- _; [|exact F].
  apply set_tab; auto. intros y Hy. apply find_in in E. rewrite Forall_forall in F. destruct (F _ E) as (t & g & a & q & H & B & _).
  exists t, g, a, q. cbn. auto.
Qed.
Theorem tab_inv : forall pl s, reachable s -> Forall (tabok pl (trace s)) (pl_jobs (h_pools (hp s) pl)).
Proof.
  intros pl. apply (replay_rule (fun h tr => Forall (tabok pl tr) (pl_jobs (h_pools h pl)))).
  - constructor.
  - intros h l d IH. now apply tab_app.
  - intros h l e IH Ok. now apply tab_app.
  - intros h ? ? [] ? ? ? G O IH At NN; try contradiction; atom_split At; try exact IH; try (apply tab_app; exact IH);
      unfold upd; match goal with |- context [if ?a =? ?b then _ else _] => destruct (Nat.eqb_spec a b) as [Eq|Ne]; [try subst b|] end;
      try exact IH; try (apply tab_app; exact IH).
    all: try subst; cbn [pl_jobs no_pool].
    all: try (constructor; fail).
    + injection Heqp as <- <-. cbn [pl_jobs]. apply Forall_app. split; [now apply tab_app|]. constructor; [|constructor].
      destruct O as (_ & _ & _ & _ & u & caps & ->). do 4 eexists. cbn [fst snd jb_future jb_callable]. split; [apply in_or_app; right; left; reflexivity|].
      split; auto. right. exists u, caps. reflexivity.
    + revert Heqp. unfold pool_change. destruct (jobs_find _ _) as [x|] eqn:F; [|discriminate]. destruct (task_null _ || _); [discriminate|]. intros [= <-]. cbn [pl_jobs].
      apply tab_app. apply set_tab; auto. intros y Hy. apply find_in in F. rewrite Forall_forall in IH. apply (IH _ F).
    + revert Heqp. unfold pool_clear. destruct (jobs_find _ _) as [x|] eqn:F; [|discriminate]. destruct (_ && _); [discriminate|]. intros [= <- <-]. cbn [pl_jobs].
      apply tab_app. now apply erase_tab.
    + apply take_tab with (pl := pl) (tr := tr_of h) in Heqp; auto. now apply tab_app.
    + apply take_tab with (pl := pl) (tr := tr_of h) in Heqp; auto. now apply tab_app.
    + apply take_tab with (pl := pl) (tr := tr_of h) in Heqp; auto. now apply tab_app.
Qed.
Lemma workers_snoc : forall pl tr e, workers_of pl (tr ++ [e]) = workers_step pl (workers_of pl tr) e.
Proof. intros. unfold workers_of. now rewrite fold_left_app. Qed.
Theorem replay_workers : forall pl s, reachable s -> pl_workers (h_pools (hp s) pl) = workers_of pl (trace s).
Proof.
  intros pl. apply (replay_rule (fun h tr => pl_workers (h_pools h pl) = workers_of pl tr)).
  - reflexivity.
  - intros h l d IH. now rewrite workers_snoc.
  - intros h l e IH Ok. rewrite workers_snoc. destruct e; cbn in Ok; try contradiction; exact IH.
  - assert (TK : forall p lv inp p' r, pool_take p lv inp = (p', r) -> pl_workers p' = pl_workers p).
    { intros p lv inp p' r H. unfold pool_take in H. destruct (qs_get _ _); [now injection H as <- _|].
      destruct (jobs_find _ _); [|now injection H as <- _]. destruct (_ <=? _); now injection H as <- _. }
    intros h ? ? [] ? ? ? G O IH At NN; try contradiction; atom_split At; rewrite ?workers_snoc; try exact IH; cbn [workers_step];
      unfold upd; match goal with |- context [if ?a =? ?b then _ else _] => destruct (Nat.eqb_spec a b) as [Eq|Ne]; [try subst b|] end;
      try exact IH.
    all: rewrite ?Nat.eqb_refl; try (apply Nat.eqb_neq in Ne; rewrite Nat.eqb_sym in Ne; rewrite Ne); try exact IH; try (apply TK in Heqp; congruence).
    + destruct G as (_ & V & _). rewrite <- IH, (proj1 (proj2 (proj2 V)) pl ltac:(lia)). reflexivity.
    + cbn [pl_workers]. congruence.
    + injection Heqp as <- _. exact IH.
    + revert Heqp. unfold pool_change. destruct (jobs_find _ _) as [x|]; [|discriminate]. destruct (_ || _); [discriminate|]. now intros [= <-].
    + revert Heqp. unfold pool_clear. destruct (jobs_find _ _) as [x|]; [|discriminate]. destruct (_ && _); [discriminate|]. now intros [= <- _].
    + reflexivity.
Qed.
