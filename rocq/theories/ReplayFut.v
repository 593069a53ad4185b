(** * ReplayFut: future objects and the jobs of a pool, read off the history. *)
From Verif Require Import Types Core State Ops Code Machine Base Spec SpecFut Rules Events InvCtx InvBound Replay ReplayObj ThmObj.

(** ** Future objects never change the state they refer to *)
Definition hnd_used (n : nat) (tr : list event) : Prop := exists t sh p, In (EvHnd t n sh (Some p)) tr.
Lemma hnd_inv : forall s, reachable s -> (forall n, hnd_used n (trace s) -> n < h_nhnd (hp s)) /\ (forall n, h_nhnd (hp s) <= n -> snd (h_hnds (hp s) n) = None).
Proof.
  apply (replay_rule (fun h tr => (forall n, hnd_used n tr -> n < h_nhnd h) /\ (forall n, h_nhnd h <= n -> snd (h_hnds h n) = None))).
  - split; [intros n (t & sh & p & [])|reflexivity].
  - intros h l d [IH IH2]. split; [|exact IH2]. intros n (t & sh & p & H). apply in_app_iff in H as [H|[H|[]]]; [|discriminate H]. apply IH. now exists t, sh, p.
  - intros h l e [IH IH2] Ok. split; [|exact IH2]. intros n (t & sh & p & H). apply in_app_iff in H as [H|[H|[]]]; [|subst; contradiction]. apply IH. now exists t, sh, p.
  - intros h ? ? [] ? ? ? G O [IH IH2] At NN; try contradiction; atom_split At; try (split; [exact IH|exact IH2]).
    all: split; [intros m (t1 & sh1 & p1 & H); apply in_app_iff in H as [H|[H|[]]]; try discriminate H|].
    all: try (assert (m < h_nhnd h) by (apply IH; now exists t1, sh1, p1); lia).
    all: try exact IH2.
    all: try (inversion H; subst; lia).
    all: try (intros m Lm; unfold upd; destruct (Nat.eqb_spec m (h_nhnd h)); [lia|apply IH2; lia]).
    all: try (intros m Lm; unfold upd; match goal with |- context [m =? ?x] => destruct (Nat.eqb_spec m x) end; [reflexivity|now apply IH2]).
    inversion H; subst. destruct (Nat.lt_ge_cases m (h_nhnd h)) as [L|L]; auto. apply IH2 in L. rewrite Heqp in L. discriminate L.
Qed.
Theorem hnd_events : forall s, reachable s -> at_each (fun tr e => match e with
  | EvHnd _ n _ x => x = None \/ x = snd (fut_of n tr) \/ ~ hnd_used n tr
  | _ => True end) (trace s).
Proof.
  at_ev; cbn [atom] in A; auto.
  all: try (right; right; intros H; apply (hnd_inv _ R) in H; revert H; op_unfold A; brki A; try discriminate A; inversion A; subst; lia).
  rewrite <- (replay_hnds _ _ R). destruct (h_hnds (hp s) n0) as [[] [q|]]; try discriminate A; injection A as _ <-; auto.
Qed.
Lemma fut_snoc : forall n tr e, fut_of n (tr ++ [e]) = match e with EvHnd _ m sh x => if m =? n then (sh, x) else fut_of n tr | _ => fut_of n tr end.
Proof. intros. unfold fut_of. rewrite latest_snoc. destruct e; auto. destruct (_ =? _); auto. Qed.
Lemma fut_used : forall n p tr, snd (fut_of n tr) = Some p -> hnd_used n tr.
Proof.
  intros n p tr. induction tr as [|e tr IH] using rev_ind; [discriminate|]. rewrite fut_snoc. intros H.
  assert (K : snd (fut_of n tr) = Some p -> hnd_used n (tr ++ [e])).
  { intros X. destruct (IH X) as (t & sh & q & I). exists t, sh, q. apply in_or_app. now left. }
  destruct e; auto. destruct (Nat.eqb_spec n0 n); auto. cbn in H. subst. exists t, sh, p. apply in_or_app. right. now left.
Qed.
Lemma hnd_used_app : forall n a b, hnd_used n a -> hnd_used n (a ++ b).
Proof. intros n a b (t & sh & q & I). exists t, sh, q. apply in_or_app. now left. Qed.
Theorem fut_stable : forall s n p m b, reachable s -> trace s = m ++ b -> snd (fut_of n m) = Some p ->
  snd (fut_of n (trace s)) = Some p \/ snd (fut_of n (trace s)) = None.
Proof.
  intros s n p m b R E H. pose proof (hnd_events s R) as HE. rewrite E in *. clear E R s.
  induction b as [|e b IH] using rev_ind; [rewrite app_nil_r; auto|]. rewrite app_assoc in *.
  assert (HE' : at_each (fun tr e => match e with EvHnd _ n _ x => x = None \/ x = snd (fut_of n tr) \/ ~ hnd_used n tr | _ => True end) (m ++ b)).
  { intros x e' y X. apply (HE x e' (y ++ [e])). now rewrite X, <- app_assoc. }
  specialize (IH HE'). specialize (HE (m ++ b) e [] eq_refl). rewrite fut_snoc. destruct e; auto.
  destruct (Nat.eqb_spec n0 n); [subst|auto]. cbn [snd]. destruct HE as [->|[->|N]]; auto.
  elim N. apply hnd_used_app. eapply fut_used; eauto.
Qed.

(** ** Jobs *)
Definition job_known (pl : nat) (x : nat * job) (tr : list event) : Prop := exists t g p, In (EvJobAdd t pl (fst x) g p (jb_future (snd x))) tr.
Lemma job_known_app : forall pl x a b, job_known pl x a -> job_known pl x (a ++ b).
Proof. intros pl x a b (t & g & p & I). exists t, g, p. apply in_or_app. now left. Qed.
Lemma in_jobs_set : forall js j y x, In x (jobs_set js j y) -> In x js \/ (x = (j, y) /\ In j (map fst js)).
Proof.
  induction js as [|[k z] js IH]; intros j y x H; cbn [jobs_set] in H; [contradiction|].
  destruct (Nat.eqb_spec k j); [subst|]; destruct H as [<-|H]; cbn; auto. destruct (IH _ _ _ H) as [I|[-> I]]; auto.
Qed.
Lemma in_jobs_find : forall js j y, jobs_find js j = Some y -> In (j, y) js.
Proof.
  induction js as [|[k z] js IH]; intros j y H; [discriminate H|]. cbn in H. destruct (Nat.eqb_spec k j); [injection H as ->; subst; now left|right; auto].
Qed.
Lemma pool_take_in : forall p lv inp p' x, pool_take p lv inp = (p', x) -> forall y, In y (pl_jobs p') ->
  In y (pl_jobs p) \/ exists z, In (fst y, z) (pl_jobs p) /\ snd y = mkJob (jb_group z) TNull (jb_future z).
Proof.
  intros p lv inp p' x H y. unfold pool_take in H. destruct (qs_get _ _) eqn:Q; [injection H as <- _; auto|]. rewrite <- Q in H. clear Q.
  destruct (jobs_find _ _) as [z|] eqn:Jf; [|injection H as <- _; auto]. destruct (_ <=? _); injection H as <- _; auto. cbn [pl_jobs].
  intros Iy. apply in_jobs_set in Iy as [Iy|[-> _]]; auto. right. exists z. split; auto. now apply in_jobs_find.
Qed.
Theorem replay_jobfut : forall pl s, reachable s -> forall x, In x (pl_jobs (h_pools (hp s) pl)) -> job_known pl x (trace s).
Proof.
  intros pl. apply (replay_rule (fun h tr => forall x, In x (pl_jobs (h_pools h pl)) -> job_known pl x tr)).
  - intros x [].
  - intros h l d IH x I. apply job_known_app. auto.
  - intros h l e IH Ok x I. apply job_known_app. auto.
  - intros h ? ? [] ? ? ? G O IH At NN; try contradiction; atom_split At; try exact IH; try (intros y Iy; apply job_known_app; auto; fail);
      intros y; unfold upd; match goal with |- context [?b =? ?a] => destruct (Nat.eqb_spec b a); subst end; cbn [pl_jobs]; try (intros Iy; try apply job_known_app; auto; fail).
    all: try (intros []; fail).
    + unfold pool_add in Heqp. injection Heqp as <- <-. cbn [pl_jobs]. intros Iy. apply in_app_iff in Iy as [Iy|[<-|[]]].
      * apply job_known_app. auto.
      * exists t, g, s. apply in_or_app. right. now left.
    + unfold pool_change in Heqp. destruct (jobs_find _ _) as [z|] eqn:Jf; [|discriminate Heqp].
      destruct (_ || _); [discriminate Heqp|]. injection Heqp as <-. cbn [pl_jobs]. intros Iy. apply in_jobs_set in Iy as [Iy|[-> _]].
      * apply job_known_app. auto.
      * apply job_known_app. apply in_jobs_find in Jf. exact (IH _ Jf).
    + unfold pool_clear in Heqp. destruct (jobs_find _ _) as [z|] eqn:Jf; [|discriminate Heqp].
      destruct (_ && _); [discriminate Heqp|]. injection Heqp as <- <-. cbn [pl_jobs]. unfold jobs_erase. intros Iy. apply filter_In in Iy as [Iy _].
      apply job_known_app. auto.
    + intros Iy. apply (pool_take_in _ _ _ _ _ Heqp) in Iy as [Iy|(z & Iz & Ez)]; apply job_known_app; auto. destruct y as [y1 y2]. cbn [fst snd] in *. subst. exact (IH _ Iz).
    + intros Iy. apply (pool_take_in _ _ _ _ _ Heqp) in Iy as [Iy|(z & Iz & Ez)]; apply job_known_app; auto. destruct y as [y1 y2]. cbn [fst snd] in *. subst. exact (IH _ Iz).
    + intros Iy. apply (pool_take_in _ _ _ _ _ Heqp) in Iy as [Iy|(z & Iz & Ez)]; apply job_known_app; auto. destruct y as [y1 y2]. cbn [fst snd] in *. subst. exact (IH _ Iz).
Qed.
