(** * ThmRegistry: proofs of the properties of the registry and the task queues. *)
From Verif Require Import Types Core State Ops Code Machine Base Spec Rules Events InvCtx InvQueue InvStack InvRefs InvEvents.

Theorem ids_unique : forall s, reachable s ->
  NoDup (created_ids (trace s)) /\ ~ In invalid_id (created_ids (trace s)).
Proof.
  intros s R. pose proof (r_inv_reachable s R) as H. split; [apply H|].
  intros X. change (trace s) with (tr_of (hp s)) in X. apply (rv_created _ H) in X. unfold invalid_id in X. lia.
Qed.

Definition reg_fun (l : list (tid * id)) : Prop :=
  NoDup (map snd l) /\ (forall n m i, In (n, i) l -> In (m, i) l -> n = m) /\
  (forall n i j, In (n, i) l -> In (n, j) l -> i = j).
Theorem registered_fun : forall s, reachable s -> reg_fun (registered (trace s)).
Proof.
  intros s R. pose proof (r_inv_reachable s R) as H. pose proof (reg_inv_reachable s R) as G.
  change (trace s) with (tr_of (hp s)). repeat split.
  - rewrite (rv_regd _ H). apply G.
  - intros n m i A B. apply (rv_native _ H) in A, B. congruence.
  - intros n i j A B. pose proof (in_map snd _ _ A) as A1. pose proof (in_map snd _ _ B) as B1.
    apply (rv_native _ H) in A, B. rewrite (rv_regd _ H) in A1, B1. cbn in A1, B1.
    apply (ri_back _ G) in A1, B1. congruence.
Qed.

(** Every prefix of a history is a history. *)
Theorem prefix_reachable : forall s, reachable s -> forall tr1 tr2, trace s = tr1 ++ tr2 ->
  exists s1, reachable s1 /\ trace s1 = tr1.
Proof.
  apply (reachable_ind'' (fun s => forall tr1 tr2, trace s = tr1 ++ tr2 -> exists s1, reachable s1 /\ trace s1 = tr1)).
  - intros tr1 tr2 E. destruct tr1; [|discriminate]. exists st0. split; auto. exists []. reflexivity.
  - intros s s' R R' IH U Tr tr1 tr2 E.
    assert (X : trace s' = trace s \/ exists e, trace s' = trace s ++ [e]).
    { destruct Tr as [d|t pre rest u E' L|t pre rest h n E' L]; unfold trace; cbn [hp]; auto.
      - right. eexists. hs. reflexivity.
      - destruct (lstep_tr _ _ _ _ _ L) as [->|[e ->]]; auto. right. eexists. reflexivity. }
    destruct X as [X|[e X]]; rewrite X in E; [eauto|].
    destruct tr2 as [|y tr2 _] using rev_ind.
    + exists s'. split; auto. rewrite app_nil_r in E. congruence.
    + rewrite app_assoc in E. apply app_inj_tail in E as [E _]. eauto.
Qed.

(** A registration of a registered native thread gives its id and creates nothing. *)
Theorem reg_idempotent : forall s, reachable s ->
  at_each (fun tr e => match e with
    | EvReg _ n i fresh => forall j, In (n, j) (registered tr) -> i = j /\ fresh = false
    | _ => True end) (trace s).
Proof.
  intros s R tr1 e tr2 E. pose proof (ctx_ev_reachable s R _ _ _ E) as X. destruct e; auto.
  intros j J. destruct (prefix_reachable s R tr1 _ E) as (s1 & R1 & E1).
  pose proof (registered_fun s1 R1) as (_ & _ & F). rewrite E1 in F.
  destruct fresh; cbn in X.
  - destruct X as (_ & _ & X). now apply X in J.
  - split; auto. eapply F; eauto.
Qed.

Theorem registered_spec : forall s, reachable s -> forall i,
  In i (reg_ids (trace s)) <->
  In i (created_ids (trace s)) /\ ~ exists t, In (EvUnreg t i) (trace s).
Proof.
  intros s0 R0 i. revert s0 R0.
  assert (H : forall s, reachable s -> forall tr1 tr2, trace s = tr1 ++ tr2 ->
    (In i (reg_ids tr1) <-> In i (created_ids tr1) /\ ~ exists t, In (EvUnreg t i) tr1)).
  2:{ intros s R. apply (H s R (trace s) []). now rewrite app_nil_r. }
  intros s R. induction tr1 as [|e tr1 IH] using rev_ind; intros tr2 E.
  - cbn. tauto.
  - rewrite <- app_assoc in E. cbn [app] in E. specialize (IH _ E).
    pose proof (ctx_ev_reachable s R _ _ _ E) as X. unfold reg_ids in *.
    rewrite registered_snoc, created_snoc, in_app_iff.
    assert (U : (exists t, In (EvUnreg t i) (tr1 ++ [e])) <-> (exists t, In (EvUnreg t i) tr1) \/ exists t, e = EvUnreg t i).
    { setoid_rewrite in_app_iff. cbn. firstorder. }
    rewrite U. clear U.
    assert (D : (exists t n, e = EvReg t n i true) \/ (exists t, e = EvUnreg t i) \/
                (~ (exists t n, e = EvReg t n i true) /\ ~ exists t, e = EvUnreg t i)).
    { destruct e; try solve [right; right; split; [intros (? & ? & Y)|intros (? & Y)]; discriminate Y].
      - destruct fresh; [|right; right; split; [intros (? & ? & Y)|intros (? & Y)]; discriminate Y].
        destruct (Nat.eq_dec i0 i); [subst; left; eauto|].
        right; right; split; [intros (? & ? & Y); injection Y; congruence|intros (? & Y); discriminate Y].
      - destruct (Nat.eq_dec i0 i); [subst; right; left; eauto|].
        right; right; split; [intros (? & ? & Y); discriminate Y|intros (? & Y); injection Y; congruence]. }
    destruct D as [(t & n & ->)|[(t & ->)|[D1 D2]]].
    + cbn [reg_step map In snd created_ids flat_map app] in *. cbn in X. destruct X as (_ & X & _).
      split; [|auto]. intros _. split; auto. intros [Y|[t' Y]]; [|discriminate Y].
      (* an id that was not created before was not unregistered before *)
      destruct Y as [t' Y]. apply in_split in Y as (a & b & ->).
      rewrite <- app_assoc in E. cbn [app] in E.
      pose proof (ctx_ev_reachable s R _ _ _ E) as Z. cbn in Z.
      destruct (prefix_reachable s R a _ E) as (s1 & R1 & E1).
      pose proof (r_inv_reachable s1 R1) as H1. change (tr_of (hp s1)) with (trace s1) in H1.
      rewrite <- E1 in Z. change (trace s1) with (tr_of (hp s1)) in *. rewrite (rv_regd _ H1) in Z.
      apply (ri_range _ (reg_inv_reachable s1 R1)) in Z. apply (rv_created _ H1) in Z. rewrite E1 in Z.
      apply X. unfold created_ids in *. rewrite flat_map_app. apply in_or_app. auto.
    + cbn [reg_step] in *. rewrite in_map_iff. split.
      * intros ([n j] & <- & Y). apply filter_In in Y as [_ Y]. cbn in Y. rewrite Nat.eqb_refl in Y. discriminate.
      * intros [_ Y]. exfalso. apply Y. right. eauto.
    + assert (A : In i (map snd (reg_step (registered tr1) e)) <-> In i (map snd (registered tr1))).
      { destruct e; cbn [reg_step]; try tauto.
        - destruct fresh; [|tauto]. cbn. split; [|auto]. intros [<-|Y]; auto. exfalso. eauto.
        - rewrite !in_map_iff. split; intros ([n j] & <- & Y); exists (n, j); (split; [reflexivity|]).
          + now apply filter_In in Y as [Y _].
          + apply filter_In. split; auto. cbn. destruct (Nat.eqb_spec j i0); auto. subst. exfalso. apply D2. eauto. }
      rewrite A, IH.
      assert (B : ~ In i (created_ids [e])).
      { destruct e; cbn; auto. destruct fresh; cbn; auto. intros [<-|[]]. eauto. }
      tauto.
Qed.

Theorem tasks_conserved : forall s, reachable s -> forall i,
  accepted i (trace s) = started i (trace s) ++ ctx_pending (h_ctxs (hp s) i).
Proof. intros s R i. apply (q_inv_reachable s R). Qed.

Theorem fifo : forall s, reachable s -> forall i, exists r, accepted i (trace s) = started i (trace s) ++ r.
Proof. intros s R i. eexists. now apply tasks_conserved. Qed.

Theorem dropped_exact : forall s, reachable s ->
  at_each (fun tr e => match e with
    | EvCtxGone i ts => accepted i tr = started i tr ++ ts /\ ~ In i (reg_ids tr)
    | _ => True end) (trace s).
Proof.
  intros s R tr1 e tr2 E. pose proof (ctx_ev_reachable s R _ _ _ E) as X. destruct e; auto. cbn in X. tauto.
Qed.

Theorem start_next : forall s, reachable s ->
  at_each (fun tr e => match e with
    | EvStart t i k => attached t tr = Some i /\ exists r, accepted i tr = started i tr ++ k :: r
    | _ => True end) (trace s).
Proof.
  intros s R tr1 e tr2 E. pose proof (ctx_ev_reachable s R _ _ _ E) as X. destruct e; auto. cbn in X. tauto.
Qed.

Theorem sleep_idle : forall s, reachable s ->
  at_each (fun tr e => match e with
    | EvSleep t i => attached t tr = Some i /\ accepted i tr = started i tr /\ ~ exit_requested i tr
    | _ => True end) (trace s).
Proof.
  intros s R tr1 e tr2 E. pose proof (ctx_ev_reachable s R _ _ _ E) as X. destruct e; auto. cbn in X. tauto.
Qed.
