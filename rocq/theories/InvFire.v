(** * InvFire: continuations are launched after readiness, all of them, in order. *)
From Verif Require Import Types Core State Ops Code Machine Base Spec SpecFire Rules Events Calls InvCtx InvBound InvStack InvRefs Contract Count Replay ReplayObj ThmObj InvCv OwnProm.

Lemma subseq_app : forall A (a b c : list A), subseq a b -> subseq a (b ++ c).
Proof. intros A a b c H. induction H; constructor; auto. Qed.
Lemma subseq_snoc : forall A (a b : list A) x, subseq a b -> subseq (a ++ [x]) (b ++ [x]).
Proof.
  intros A a b x H. induction H; cbn; try (constructor; auto; fail).
  induction b; cbn; constructor; auto. constructor.
Qed.
Lemma fires_app : forall p a b, fires p (a ++ b) = fires p a ++ fires p b.
Proof. intros. unfold fires. apply flat_map_app. Qed.
Lemma early_snd : forall p tr, snd (fold_left (early_step p) tr ([], false)) = true <-> is_ready p tr.
Proof.
  intros p tr. unfold is_ready, outcome_of. induction tr as [|e tr IH] using rev_ind; [split; [discriminate|now intros H; elim H]|].
  rewrite latest_snoc, fold_left_app. cbn [fold_left early_step snd].
  destruct e; cbn [ready_step]; auto. destruct (Nat.eqb_spec p0 p); auto; split; intros; auto; discriminate.
Qed.
Lemma early_ready : forall p tr l, is_ready p tr -> early_cbs p (tr ++ l) = early_cbs p tr.
Proof.
  intros p tr l H. apply early_snd in H. unfold early_cbs. rewrite fold_left_app.
  generalize dependent (fold_left (early_step p) tr ([], false)). induction l as [|e l IH]; intros [cbs b] E; cbn in E; auto. subst b. cbn [fold_left].
  assert (X : early_step p (cbs, true) e = (cbs, true)).
  { unfold early_step. cbn. destruct e; cbn; auto; try (destruct (_ =? _)%nat; auto). }
  rewrite X. now apply IH.
Qed.
Lemma early_attached : forall p tr cb, In cb (early_cbs p tr) -> exists t, In (EvAttach t p cb) tr.
Proof.
  intros p tr cb. unfold early_cbs. induction tr as [|e tr IH] using rev_ind; [intros []|]. rewrite fold_left_app. cbn [fold_left].
  destruct (fold_left (early_step p) tr ([], false)) as [cbs b] eqn:Ef. cbn [fst] in IH.
  assert (M : In cb cbs -> exists t, In (EvAttach t p cb) (tr ++ [e])) by (intros J; destruct (IH J) as [t X]; exists t; apply in_or_app; auto).
  unfold early_step. cbn [fst snd]. destruct e; cbn [cbs_step]; auto.
  destruct (Nat.eqb_spec p0 p); cbn [andb]; auto. destruct b; cbn [negb]; auto.
  intros J. apply in_app_or in J as [J|[J|[]]]; auto. subst. eexists. apply in_or_app. right. now left.
Qed.

Definition pend (p : sid) (r : list callback) (tr : list event) : Prop :=
  is_ready p tr /\ exists dn, early_cbs p tr = dn ++ r /\ subseq dn (fires p tr).
Lemma pend_app : forall p r tr l, pend p r tr -> pend p r (tr ++ l).
Proof.
  intros p r tr l (H & dn & E & S). split; [now apply ready_app|]. exists dn. split; [now rewrite early_ready|]. rewrite fires_app. now apply subseq_app.
Qed.
Definition lok (tr : list event) (c : lk) : Prop := match c with LkFire p r _ => pend p r tr | _ => True end.
Definition fok (tr : list event) (t : tid) (f : frame) : Prop :=
  match f with
  | FSet2 p cbs => is_ready p tr /\ early_cbs p tr = cbs
  | FFire p cbs _ => pend p cbs tr
  | FFire1 p cb c => match c with LkFire q r _ => q = p /\ pend p (cb :: r) tr | _ => is_ready p tr /\ In (EvAttach t p cb) tr end
  | FLaunch _ _ _ c | FLaunch1 _ _ _ c | FInvoke _ _ c | FPush _ _ c | FDisp _ _ c => lok tr c
  | _ => True
  end.
Lemma lok_app : forall tr l c, lok tr c -> lok (tr ++ l) c.
Proof. intros tr l []; cbn; auto using pend_app. Qed.
Lemma fok_app : forall tr l t f, fok tr t f -> fok (tr ++ l) t f.
Proof.
  intros tr l t f. destruct f; cbn [fok]; auto using lok_app, pend_app.
  - intros [H E]. split; [now apply ready_app|now rewrite early_ready].
  - destruct c; try (intros [H E]; split; [now apply ready_app|apply in_or_app; auto]). intros [H E]. split; auto using pend_app.
Qed.
Lemma pend_fire : forall p cb r tr t, pend p (cb :: r) tr -> pend p r (tr ++ [EvFire t p cb]).
Proof.
  intros p cb r tr t (H & dn & E & S). split; [now apply ready_app|]. exists (dn ++ [cb]). split; [rewrite early_ready by auto; now rewrite E, <- app_assoc|].
  rewrite fires_app. cbn. rewrite Nat.eqb_refl. now apply subseq_snoc.
Qed.
Lemma try_set_ev : forall h t p o inp h' cbs, atom h t (OTrySet p o) inp = AOk h' (Some cbs) ->
  tr_of h' = tr_of h ++ [EvReady t p o] /\ fs_ready (h_fsts h p) = false /\ cbs = fs_cbs (h_fsts h p).
Proof.
  intros h t p o inp h' cbs A. pose proof (atom_event _ _ _ _ _ _ _ A) as X. cbn [op_event] in X. unfold tr_of. rewrite X. cbn [rev].
  split; auto. op_unfold A. cbn in A. destruct (fs_ready (h_fsts h p)); [inversion A|]. split; auto. now inversion A.
Qed.
Lemma attach_ev : forall h t p cb inp h' b, atom h t (OAttach p cb) inp = AOk h' b ->
  tr_of h' = tr_of h ++ [EvAttach t p cb] /\ b = negb (fs_ready (h_fsts h p)).
Proof.
  intros h t p cb inp h' b A. pose proof (atom_event _ _ _ _ _ _ _ A) as X. cbn [op_event] in X. unfold tr_of. rewrite X. cbn [rev].
  split; auto. cbn [atom] in A. unfold leaf in A. destruct (h_locks h (LState p)) as [v|]; [destruct (v =? t)%nat; inversion A|]. destruct (fs_ready (h_fsts h p)); now inversion A.
Qed.
Theorem fok_reachable : forall s, reachable s -> forall t, Forall (fok (trace s) t) (stk s t).
Proof.
  apply (frame_rule reachable (fun h => fok (tr_of h))); try exact Logic.I; auto.
  - intros s d u f R _ H. unfold tr_of in *. hs. cbn [rev]. now apply fok_app.
  - intros s t pre rest h n u f R _ E L _ _ H. destruct (lstep_tr' _ _ _ _ _ L) as [l ->]. now apply fok_app.
  - intros s t pre rest h n R E L Fp _. destruct (lstep_tr' _ _ _ _ _ L) as [l Et]. rewrite Et.
    assert (Fp' : Forall (fok (trace s ++ l) t) pre) by (eapply Forall_impl; [|exact Fp]; intros; now apply fok_app).
    lstep_cases L; (split; [|try exact Logic.I; cbn [spawned]; try (fl_; exact Logic.I)]); cbn [next_frames];
      inversion Fp' as [|? ? Fp1 Fp2]; subst; fl_; try exact Logic.I; cbn [fok lok] in *; auto.
    + apply try_set_ev in A as (X & N & ->). rewrite <- Et, X. pose proof (replay_fs p s R) as F. destruct F as [_ F _ _].
      assert (O : outcome_of p (trace s) = None).
      { unfold fs_ready in N. destruct (outcome_of p (trace s)) as [[v|e]|]; auto; destruct F as (Y & _); rewrite Y in N; discriminate. }
      rewrite O in F. destruct F as (_ & _ & _ & ->). split.
      * unfold is_ready, outcome_of. rewrite latest_snoc. rewrite Nat.eqb_refl. discriminate.
      * unfold early_cbs. rewrite fold_left_app. reflexivity.
    + destruct Fp1 as [H Ec]. split; auto. exists []. split; auto. constructor.
    + apply atom_event in A. cbn [op_event] in A.
      assert (X : tr_of h' = trace s ++ [EvFire t p cb]) by (unfold trace, tr_of; rewrite A; reflexivity).
      rewrite <- Et, X. inversion Fp as [|? ? Fq _]; subst. cbn [fok] in Fq. destruct c; cbn [lok]; auto. destruct Fq as [-> Fq]. now apply pend_fire.
    + apply attach_ev in A as (X & Y). rewrite <- Et, X. split; [apply ready_app, ready_iff; auto; now destruct (fs_ready _)|].
      apply in_or_app. right. now left.
    + apply attach_ev in A as (X & Y). rewrite <- Et, X. split; [apply ready_app, ready_iff; auto; now destruct (fs_ready _)|].
      apply in_or_app. right. now left.

Qed.

Lemma all_fired_app : forall p tr l, is_ready p tr -> all_fired p tr -> all_fired p (tr ++ l).
Proof. intros p tr l H A. unfold all_fired in *. rewrite early_ready by auto. rewrite fires_app. now apply subseq_app. Qed.
Lemma fires_resume : forall p c b o, lk_of p c -> exists g, In g (lresume c b o) /\ fires_for p g.
Proof. intros p c b o H. destruct c; try contradiction. cbn in H |- *. eexists. split; [left; reflexivity|exact H]. Qed.
Lemma fires_step : forall s t pre rest h n p g0, reachable s -> stk s t = pre ++ rest -> lstep (hp s) t pre h n -> In g0 pre -> fires_for p g0 ->
  all_fired p (trace s) \/ exists g, In g (next_frames n) /\ fires_for p g.
Proof.
  intros s t pre rest h n p g0 R E L J F. pose proof (fok_reachable s R t) as H. rewrite E in H. apply Forall_app in H as [H _].
  rewrite Forall_forall in H. specialize (H g0 J).
  lstep_cases L; repeat (destruct J as [J|J]; try discriminate J); try contradiction; try (subst g0; cbn [fires_for lk_of] in F; try contradiction).
  all: try (right; eexists; split; [left; reflexivity|exact F]).
  all: try (right; eexists; split; [right; left; reflexivity|exact F]).
  all: try (right; destruct (fires_resume p c b o F); fail).
  - right. now apply fires_resume.
  - right. destruct x; [eexists; split; [left; reflexivity|exact F]|now apply fires_resume].
  - right. destruct (fires_resume p c true None F) as (g & J & K). exists g. split; auto. now right.
  - right. destruct (x =? i)%nat; [|eexists; split; [left; reflexivity|exact F]].
    destruct (fires_resume p c true None F) as (g & J & K). exists g. split; auto. now (right; right).
  - right. destruct (x =? i)%nat; [|eexists; split; [left; reflexivity|exact F]].
    destruct (fires_resume p c true (Some k) F) as (g & J & K). exists g. split; auto. now right.
  - left. cbn [fok] in H. subst. destruct H as (Rd & dn & Ec & S). unfold all_fired. now rewrite Ec, app_nil_r.

Qed.

Lemma ready_in : forall t p o tr, In (EvReady t p o) tr -> is_ready p tr.
Proof.
  intros t p o tr J. apply in_split in J as (a & b & ->). replace (a ++ EvReady t p o :: b) with ((a ++ [EvReady t p o]) ++ b) by now rewrite <- app_assoc.
  apply ready_app. unfold is_ready, outcome_of. rewrite latest_snoc, Nat.eqb_refl. discriminate.
Qed.
(** Once a state is ready its earlier continuations have all been launched, or the
    thread that made it ready is still at it. *)
Theorem fired_reachable : forall s, reachable s -> forall t p o, In (EvReady t p o) (trace s) -> firing t p s \/ all_fired p (trace s).
Proof.
  apply (reachable_ind'' (fun s => forall t p o, In (EvReady t p o) (trace s) -> firing t p s \/ all_fired p (trace s))).
  - intros t p o [].
  - intros s s' R R' IH U Tr v p o J. destruct Tr as [d|t pre rest u E L|t pre rest h n E L].
    + assert (X : In (EvReady v p o) (trace s)).
      { unfold trace, tr_of in J. cbn [hp] in J. hs. cbn [rev] in J. apply in_app_or in J as [J|[J|[]]]; auto. discriminate J. }
      destruct (IH v p o X) as [F|F]; [left; exact F|right]. unfold trace, tr_of. cbn [hp]. hs. cbn [rev]. apply all_fired_app; auto. eapply ready_in; eauto.
    + exact (IH v p o J).
    + set (s' := mkSt h (set_next (stk s) t n rest) None) in *.
      assert (Own : stk s' t = next_frames n ++ rest) by apply next_own.
      assert (Cs : In (EvReady v p o) (trace s) \/ h_tr h = EvReady v p o :: h_tr (hp s)).
      { destruct (lstep_tr _ _ _ _ _ L) as [X|[e X]]; change (trace s') with (rev (h_tr h)) in J; rewrite X in J; [left; exact J|].
        cbn [rev] in J. apply in_app_or in J as [J|[->|[]]]; auto. }
      destruct Cs as [X|X].
      * pose proof (ready_in _ _ _ _ X) as Rd. destruct (lstep_tr' _ _ _ _ _ L) as [l Et].
        assert (AF : all_fired p (trace s) -> all_fired p (trace s')) by (intros A; change (trace s') with (tr_of h); rewrite Et; now apply all_fired_app).
        destruct (IH v p o X) as [(g & Jg & F)|F]; [|right; auto].
        destruct (Nat.eq_dec v t) as [->|Nv].
        -- rewrite E in Jg. apply in_app_or in Jg as [Jg|Jg].
           ++ destruct (fires_step s t pre rest h n p g R E L Jg F) as [A|(g' & J' & F')]; [right; auto|].
              left. exists g'. split; auto. rewrite Own. apply in_or_app. now left.
           ++ left. exists g. split; auto. rewrite Own. apply in_or_app. now right.
        -- left. exists g. split; auto. cbn [stk]. eapply next_other; eauto.
      * left. clear IH J. pose proof L as L0. rename v into w. ev_cases L X.
        destruct x as [cbs|]; [|discriminate X]. injection X as -> -> ->. exists (FSet2 p cbs). split; [|reflexivity]. rewrite Own. right. now left.
Qed.

(** Continuations are launched only after readiness and only if they were attached. *)
Theorem fire_after : forall s, reachable s ->
  at_each (fun tr e => match e with EvFire _ p cb => is_ready p tr /\ exists t, In (EvAttach t p cb) tr | _ => True end) (trace s).
Proof.
  apply (event_rule reachable); auto.
  intros s t pre rest h n e R U E L X. destruct e; auto.
  pose proof (fok_reachable s R t) as H. rewrite E in H. apply Forall_app in H as [H _]. rename c into cb0. ev_cases L X.
  injection X as -> -> ->. inversion H as [|? ? F _]; subst. cbn [fok] in F.
  destruct c; try (destruct F as [F1 F2]; split; eauto; fail).
  destruct F as [-> (Rd & dn & Ec & S)]. split; auto. apply early_attached. rewrite Ec. apply in_or_app. right. now left.
Qed.
