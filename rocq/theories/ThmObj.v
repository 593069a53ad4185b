(** * ThmObj: what single events say about condition variables, locks and shared states. *)
From Verif Require Import Types Core State Ops Code Machine Base Spec Rules Events Replay ReplayObj.

(** Every event is recorded by an operation on a reachable state. *)
Lemma at_event : forall (P : list event -> event -> Prop),
  (forall tr e, match e with EvTick _ => True | _ => log_ok e end -> P tr e) ->
  (forall s t T (o : op T) inp h x e, reachable s -> atom (hp s) t o inp = AOk h x ->
     match o with OLog _ => False | _ => True end -> op_event (hp s) t o x = Some e -> P (trace s) e) ->
  forall s, reachable s -> at_each P (trace s).
Proof.
  intros P HL HS. apply (event_rule reachable P); auto.
  intros s t pre rest h n e R U E L X. apply lstep_hstep in L. destruct L as [e' Ok|T o inp h1 x Ok A].
  - apply emit_event in X. subst. apply HL. destruct e; auto.
  - destruct o; try solve [eapply HS; [exact R|exact A|exact I|eapply atom_event_is; eauto]].
    cbn in A. inversion A; subst. apply emit_event in X. subst. apply HL. cbn in Ok. specialize (Ok t). destruct (e0 t); auto.
Qed.
Ltac at_ev :=
  apply at_event;
  [ intros ? [] Ok; cbn in Ok; try contradiction; exact I
  | let s := fresh "s" in let R := fresh "R" in let A := fresh "A" in let N := fresh "N" in let X := fresh "X" in
    intros s ? ? [] ? ? ? ? R A N X; cbn [op_event] in X; try contradiction; try discriminate X;
    try (injection X as <-); try exact I;
    repeat match type of X with context [match ?y with _ => _ end] => destruct y eqn:?; try discriminate X; try (injection X as <-) end; try exact I ].

Theorem notify_takes : forall s, reachable s -> at_each (fun tr e => match e with
  | EvNotify _ sm all ws => ws = if all then waiters sm tr else firstn 1 (waiters sm tr)
  | _ => True end) (trace s).
Proof.
  at_ev. cbn [atom] in A. rewrite (replay_sems _ s R) in A. now inversion A.
Qed.

(** Tokens are never given out twice. *)
Definition token_used (tk : nat) (tr : list event) : Prop := exists t sm i f, In (EvWaiter t sm i tk f) tr.
Lemma tokens_bound : forall s, reachable s ->
  (forall tk, token_used tk (trace s) -> tk < h_ntok (hp s)) /\
  (forall sm w, In w (h_sems (hp s) sm) -> token_used (snd w) (trace s)).
Proof.
  assert (Z : forall tk tr e, token_used tk (tr ++ [e]) <-> token_used tk tr \/ exists t sm i f, e = EvWaiter t sm i tk f).
  { intros. unfold token_used. setoid_rewrite in_snoc. split; [intros (a & b & c & d & [H|H]); eauto 9|intros [(a & b & c & d & H)|(a & b & c & d & H)]; eauto 9]. }
  apply (replay_rule (fun h tr => (forall tk, token_used tk tr -> tk < h_ntok h) /\ (forall sm w, In w (h_sems h sm) -> token_used (snd w) tr))).
  - split; [intros tk (? & ? & ? & ? & [])|intros sm w []].
  - intros h l d [A B]. hs. split; [|intros sm w H; apply Z; left; eauto].
    intros tk H. apply Z in H as [H|(? & ? & ? & ? & H)]; [auto|discriminate].
  - intros h l e [A B] Ok. hs. split; [|intros sm w H; apply Z; left; eauto].
    intros tk H. apply Z in H as [H|(? & ? & ? & ? & ->)]; [auto|contradiction].
  - assert (K : forall h l e, (forall tk, token_used tk l -> tk < h_ntok h) -> (forall sm w, In w (h_sems h sm) -> token_used (snd w) l) ->
      (forall t sm i tk f, e <> EvWaiter t sm i tk f) ->
      (forall tk, token_used tk (l ++ [e]) -> tk < h_ntok h) /\ (forall sm w, In w (h_sems h sm) -> token_used (snd w) (l ++ [e]))).
    { intros h l e A B N. split; [|intros sm w H; apply Z; left; eauto].
      intros tk H. apply Z in H as [H|(? & ? & ? & ? & ->)]; [auto|now destruct (N x x0 x1 tk x2)]. }
    intros h t T o inp h' x G O [IA IB] At NN.
    destruct o; try contradiction; atom_split At; try (now split); try (apply K; auto; discriminate).
    + assert (U : token_used x (tr_of h)).
      { unfold find_waiter in Heqo. destruct (find _ _) as [w|] eqn:F; [|discriminate]. injection Heqo as <-. apply find_some in F as [F _]. eauto. }
      split; [|intros sm w H; apply Z; left; eauto].
      intros tk H. apply Z in H as [H|(? & ? & ? & ? & H)]; [auto|]. injection H as <- <- <- <- <-. auto.
    + split.
      * intros tk H. apply Z in H as [H|(? & ? & ? & ? & H)]; [apply IA in H; lia|]. injection H as <- <- <- <- <-. lia.
      * intros sm w H. apply Z. unfold upds in H. destruct (sem_eqb sm s); [|left; eauto].
        apply in_app_iff in H as [H|[<-|[]]]; [left; eauto|right; cbn; eauto 8].
    + split; [intros tk H; apply Z in H as [H|(? & ? & ? & ? & H)]; [auto|discriminate]|].
      intros sm w H. apply Z. left. unfold upds in H. destruct (sem_eqb sm s); [|eauto].
      unfold del_waiter in H. apply filter_In in H as [H _]. eauto.
    + split; [intros tk H; apply Z in H as [H|(? & ? & ? & ? & H)]; [auto|discriminate]|].
      intros sm w H. apply Z. left. unfold upds in H. destruct (sem_eqb sm s); [|eauto].
      contradiction.
    + split; [intros tk H; apply Z in H as [H|(? & ? & ? & ? & H)]; [auto|discriminate]|].
      intros sm w H. apply Z. left. unfold upds in H. destruct (sem_eqb sm s); [|eauto].
      eapply IB. rewrite <- (firstn_skipn 1). apply in_or_app. eauto.
Qed.
Theorem waiter_added : forall s, reachable s -> at_each (fun tr e => match e with
  | EvWaiter _ sm i tk true => ~ In i (map fst (waiters sm tr)) /\ ~ token_used tk tr
  | EvWaiter _ sm i tk false => In (i, tk) (waiters sm tr)
  | _ => True end) (trace s).
Proof.
  at_ev; cbn [atom] in A; destruct (find_waiter _ _) eqn:Heqo; unfold find_waiter in Heqo; rewrite (replay_sems _ s R) in Heqo.
  - destruct (find _ _) as [w|] eqn:F; [|discriminate]. cbn in Heqo. inversion A; inversion Heqo; subst. apply find_some in F as [F E].
    apply Nat.eqb_eq in E. subst. now destruct w.
  - destruct (find _ _) as [w|] eqn:F; [discriminate|]. inversion A; subst. split.
    + intros H. apply in_map_iff in H as (w & <- & H). eapply find_none in F; eauto. rewrite Nat.eqb_refl in F. discriminate.
    + intros H. apply (tokens_bound s R) in H. lia.
Qed.

Theorem lock_events : forall s, reachable s -> at_each (fun tr e => match e with
  | EvLock t l => lock_holder l tr = None
  | EvUnlock t l => lock_holder l tr = Some t
  | EvMxAcq t m => mx_holder m tr = None
  | _ => True end) (trace s).
Proof.
  at_ev; cbn [atom] in A.
  - rewrite (replay_locks _ s R) in A. destruct (lock_holder l (trace s)); [|auto]. destruct (_ =? _); discriminate.
  - rewrite (replay_locks _ s R) in A. destruct (lock_holder l (trace s)); [|discriminate]. destruct (Nat.eqb_spec t0 t); [congruence|discriminate].
  - match type of A with context [h_mxs _ ?m] => pose proof (replay_mxs m s R) as M; destruct (h_mxs (hp s) m) as [[] o]; [inversion A|]; cbn in M; now destruct (mx_holder m (trace s)) end.
Qed.

Theorem ready_once : forall s, reachable s -> at_each (fun tr e => match e with
  | EvReady _ p _ => outcome_of p tr = None
  | EvGot _ p r => r = delivers (void_state p tr) (outcome_of p tr)
  | EvRetr _ p again => again = true <-> retrieved p tr \/ made p tr
  | _ => True end) (trace s).
Proof.
  at_ev; cbn [atom] in A.
  - pose proof (replay_ready s0 s R) as M. destruct (fs_ready _); [inversion A|]. now destruct (outcome_of s0 (trace s)).
  - unfold leaf in A. rewrite <- (replay_get _ s R). brki A; try discriminate A; now inversion A.
  - inversion A; subst. destruct (replay_fs s0 s R) as [_ _ _ E]. exact E.
Qed.

(** ** In the words of the properties *)
Theorem notify_takes' : forall s, reachable s ->
  at_each (fun tr e => match e with
    | EvNotify _ sm false ws => ws = firstn 1 (waiters sm tr)
    | EvNotify _ sm true ws => ws = waiters sm tr
    | _ => True end) (trace s).
Proof. intros s R a e b E. pose proof (notify_takes s R a e b E) as X. destruct e; auto. destruct all; exact X. Qed.
Theorem ready_once' : forall s, reachable s ->
  at_each (fun tr e => match e with EvReady _ p _ => outcome_of p tr = None | _ => True end) (trace s).
Proof. intros s R a e b E. pose proof (ready_once s R a e b E) as X. destruct e; auto. Qed.

Theorem visit_at_spec : forall (A : Type) (tup : list A) (i : nat) (d : A),
  visit_at tup i d = match nth_error tup i with Some x => inl x | None => inr XBadIndex end.
Proof.
  intros A tup i d. unfold visit_at.
  assert (H : forall n, n <= length tup -> visit_impl n tup i d = if i <? n then inl (nth i tup d) else inr XBadIndex).
  { induction n as [|n IH]; intros L; [reflexivity|]. cbn [visit_impl].
    destruct (Nat.eqb_spec i n) as [->|N].
    - replace (n <? S n) with true by (symmetry; apply Nat.ltb_lt; lia). reflexivity.
    - rewrite IH by lia. destruct (Nat.ltb_spec i n), (Nat.ltb_spec i (S n)); auto; lia. }
  rewrite H by lia. destruct (Nat.ltb_spec i (length tup)).
  - destruct (nth_error tup i) eqn:E.
    + erewrite nth_error_nth; eauto.
    + apply nth_error_None in E. lia.
  - apply nth_error_None in H0. now rewrite H0.
Qed.
