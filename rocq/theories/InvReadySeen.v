(** * InvReadySeen: a thread that waits for a future does not miss that it becomes ready. *)
From Verif Require Import Types Core State Ops Code Machine Base Spec SpecApi SpecUb SpecSync SpecMutex SpecLost SpecReadySeen Rules Events InvCtx InvStack InvRefs
  Calls Contract ContractLib Adj Replay ReplayObj InvAff InvTop InvSleep SemWait InvCv InvMutex InvUb InvFill InvLock InvGuard ThmRegistry ThmObj InvLost.

(** ** Completing a state *)
Lemma ready_by : forall h0 t pre h n u p o, lstep h0 t pre h n -> h_tr h = EvReady u p o :: h_tr h0 ->
  u = t /\ pre = [FSet1 p o] /\ exists cbs, n = Go [FNotify (SSt p) true; FSet2 p cbs].
Proof.
  intros h0 t pre h n u9 p9 o9 L X. lstep_cases L; try discriminate X; cbn [atom] in A; op_unfold A; brki A; try discriminate A; inversion A; subst; cbn in X;
    try (exfalso; now apply cons_neq in X); try discriminate X; try (symmetry in X; exfalso; now apply cons_neq in X).
  all: injection X as -> -> ->; eauto.
Qed.
Theorem ready_notifies : forall s, reachable s -> forall x u p o y, trace s = x ++ EvReady u p o :: y ->
  (exists r, stk s u = FNotify (SSt p) true :: r) \/ exists ws, In (EvNotify u (SSt p) true ws) y.
Proof.
  apply (reachable_ind'' (fun s => forall x u p o y, trace s = x ++ EvReady u p o :: y ->
    (exists r, stk s u = FNotify (SSt p) true :: r) \/ exists ws, In (EvNotify u (SSt p) true ws) y)).
  - intros x u p o y E. destruct x; discriminate E.
  - intros s s' R R' IH U Tr. destruct Tr as [d|t pre rest u E L|t pre rest h n E L].
    + intros x u p o y E. unfold trace in E. cbn [hp] in E. unfold emit in E. hs. cbn [rev] in E. fold (trace s) in E.
      destruct y as [|e y _] using rev_ind; [apply app_inj_tail in E as [_ E]; discriminate E|].
      rewrite app_comm_cons, app_assoc in E. apply app_inj_tail in E as [E _]. destruct (IH _ _ _ _ _ E) as [H|(ws & H)]; auto.
      right. exists ws. apply in_or_app. auto.
    + exact IH.
    + destruct (lstep_trl _ _ _ _ _ L) as [l Et]. intros x u p o y Ex. change (tr_of h = x ++ EvReady u p o :: y) in Ex. cbn [stk].
      rewrite Et in Ex. destruct (lstep_tr _ _ _ _ _ L) as [X|[e X]].
      * assert (l = []) as ->. { unfold tr_of in Et. rewrite X in Et. change (trace s = trace s ++ l) in Et. rewrite <- (app_nil_r (trace s)) in Et at 1. now apply app_inv_head in Et. }
        rewrite app_nil_r in Ex. destruct (IH _ _ _ _ _ Ex) as [(r & H)|H]; auto. left. exists r.
        apply (stack_other s t pre rest h n u); auto. intros ->. rewrite E in H.
        destruct (lstep_pre _ _ _ _ _ L) as (P1 & _).
        destruct pre as [|f pre]; [now destruct P1|]. cbn in H. injection H as -> _.
        inversion L as [| | |inp f' h' n' Ru|inp e g h' n' Ru|]; subst. code_cases Ru. cbn [atom] in A. inversion A; subst. symmetry in X. cbn in X. now apply cons_neq in X.
      * assert (l = [e]) as ->. { unfold tr_of in Et. rewrite X in Et. cbn [rev] in Et. now apply app_inv_head in Et. }
        destruct y as [|e' y _] using rev_ind.
        -- apply app_inj_tail in Ex as [_ ->]. left. destruct (ready_by _ _ _ _ _ _ _ _ L X) as (-> & _ & cbs & ->).
           exists (FSet2 p cbs :: rest). cbn [set_next]. now rewrite upd_same.
        -- rewrite app_comm_cons, app_assoc in Ex. apply app_inj_tail in Ex as [Ex <-].
           destruct (IH _ _ _ _ _ Ex) as [(r & H)|(ws & H)]; [|right; exists ws; apply in_or_app; auto].
           destruct (Nat.eq_dec u t) as [->|N]; [right|left; exists r; now apply (stack_other s t pre rest h n u)].
           rewrite E in H. destruct (lstep_pre _ _ _ _ _ L) as (P1 & _). destruct pre as [|f pre]; [now destruct P1|]. cbn in H. injection H as -> _.
           inversion L as [| | |inp f' h' n' Ru|inp e' g h' n' Ru|]; subst. code_cases Ru. cbn [atom] in A. inversion A; subst. cbn in X. injection X as <-.
           eexists. apply in_or_app. right. now left.
Qed.

(** ** A thread registers while the state is not ready *)
Definition open_st (h : heap) (p : sid) : Prop := outcome_of p (tr_of h) = None.
Definition semo (h : heap) (s : semid) (k : semk) : Prop :=
  match k with KState p _ _ => s = SSt p /\ open_st h p | _ => forall p, s <> SSt p end.
Definition top_open (h : heap) (t : tid) (f : frame) : Prop :=
  match f with
  | FStW2 p _ _ => open_st h p
  | FSem s _ _ k | FSemId s _ _ k | FSemAdd s _ _ _ k => semo h s k
  | _ => True
  end.
Lemma open_kept : forall s t pre rest h n u f r p, reachable s -> stk s t = pre ++ rest -> lstep (hp s) t pre h n -> u <> t -> stk s u = f :: r -> hold f = Some (LState p) ->
  open_st (hp s) p -> open_st h p.
Proof.
  intros s t pre rest h n u f r p R E L N Eu Hf O. unfold open_st in *. destruct (lstep_tr _ _ _ _ _ L) as [X|[e X]]; unfold tr_of in *; rewrite X; [exact O|].
  cbn [rev]. rewrite outcome_snoc, O. destruct e; auto. destruct (Nat.eqb_spec p0 p) as [->|]; auto. exfalso.
  destruct (ready_by _ _ _ _ _ _ _ _ L X) as (_ & -> & _).
  pose proof (hold_in (LState p) s t (FSet1 p o) eq_refl R ltac:(rewrite E; now left) ltac:(unfold holds; cbn; apply Nat.eqb_refl)) as H1.
  pose proof (hold_in (LState p) s u f eq_refl R ltac:(rewrite Eu; now left) ltac:(unfold holds; rewrite Hf; cbn; apply Nat.eqb_refl)) as H2.
  congruence.
Qed.
Theorem open_top : forall s, reachable s -> forall t f r, stk s t = f :: r -> top_open (hp s) t f.
Proof.
  apply (top_rule reachable); auto.
  - intros h t [] U; try exact I; discriminate.
  - intros s d u f R H. assert (X : forall p, open_st (hp s) p -> open_st (emit (put_now (hp s) (h_now (hp s) + Zpos d)) (EvTick (Zpos d))) p).
    { intros p Y. unfold open_st in *. change (tr_of (emit (put_now (hp s) (h_now (hp s) + Zpos d)) (EvTick (Zpos d)))) with (tr_of (hp s) ++ [EvTick (Zpos d)]). now rewrite outcome_snoc. }
    destruct f; auto; cbn [top_open] in *; auto; destruct k; cbn [semo] in *; intuition.
  - intros h t []; exact I.
  - intros s t pre rest h n u f r R U E L N Eu H.
    pose proof (lkf_reachable s R u) as Lk. rewrite Eu in Lk. inversion Lk as [|? ? Lk1 _]; subst. clear Lk.
    destruct f; auto; cbn [top_open] in *.
    all: try (eapply open_kept; eauto; fail).
    all: destruct k; cbn [semo lkf sem_lk] in *; auto; destruct Lk1 as [-> _]; destruct H as [-> H]; split; auto; eapply open_kept; eauto.
  - intros s t pre rest h n fr R U E L Top Hd.
    assert (Top' : match pre with g :: _ => top_open (hp s) t g | [] => True end) by (destruct pre as [|g pre]; auto; apply (Top g (pre ++ rest)); auto).
    clear Top. pose proof (replay_ready) as RM.
    lstep_cases L; cbn [next_frames] in Hd; try match type of Hd with context [match ?b with _ => _ end] => destruct b eqn:? end; hdk Hd; try (injection Hd as <-; exact I); try (injection Hd as ->).
    all: injection Hd as <-; try (cbn; discriminate); cbn [atom] in A.
    + injection A as <- _. exact Top'.
    + injection A as <- _. exact Top'.
    + destruct (h_loc (hp s) t) as [j|]; [destruct (alive _ _); [|discriminate A]|]; injection A as <- _; exact Top'.
    + injection A as <- A. cbn [top_open]. unfold open_st. change (tr_of (hp s)) with (trace s). specialize (RM p s R). rewrite A in RM.
      destruct (outcome_of p (trace s)); [discriminate RM|reflexivity].
    + op_unfold A. brki A; try discriminate A; injection A as <-; (split; [reflexivity|exact Top']).
Qed.
Theorem registers_open : forall s, reachable s ->
  at_each (fun a e => match e with EvWaiter t (SSt p) i tk f => ~ is_ready p a /\ lock_holder (LState p) a = Some t | _ => True end) (trace s).
Proof.
  apply (event_rule reachable); auto.
  intros s t pre rest h n ev R U E L X. destruct ev; auto. destruct s0 as [| |p]; auto.
  assert (K : exists l tm k, pre = [FSemAdd (SSt p) l i tm k] /\ t0 = t).
  { clear - L X. lstep_cases L; try discriminate X; cbn [atom] in A; op_unfold A; brki A; try discriminate A; inversion A; subst; cbn in X;
      try (exfalso; now apply cons_neq in X); try discriminate X; try (symmetry in X; exfalso; now apply cons_neq in X).
    all: injection X as -> -> -> _ _; eauto. }
  destruct K as (l & tm & k & -> & ->). pose proof (open_top s R t _ rest E) as O. cbn [top_open] in O.
  destruct k as [| |q d g|]; cbn [semo] in O; try (now destruct (O p)). destruct O as [Eq O]. injection Eq as <-.
  split; [intros H; apply H; exact O|]. pose proof (lkf_reachable s R t) as Lk. rewrite E in Lk. inversion Lk as [|? ? Lk1 _]; subst. destruct Lk1 as [-> _].
  apply (hold_in (LState p) s t (FSemAdd (SSt p) (Some (LState p)) i tm (KState p d g)) eq_refl R); [rewrite E; now left|unfold holds; cbn; apply Nat.eqb_refl].
Qed.

Lemma becomes_ready : forall p l tr, ~ is_ready p tr -> is_ready p (tr ++ l) -> exists u o, In (EvReady u p o) l.
Proof.
  intros p l tr N. induction l as [|e l IH] using rev_ind; intros H; [rewrite app_nil_r in H; contradiction|].
  unfold is_ready in H. rewrite app_assoc, outcome_snoc in H.
  assert (X : (exists u o, e = EvReady u p o) \/ is_ready p (tr ++ l)).
  { destruct e; auto. destruct (Nat.eqb_spec p0 p) as [->|]; auto. left. eauto. }
  destruct X as [(u & o & ->)|X]; [exists u, o; apply in_or_app; right; now left|]. destruct (IH X) as (u & o & I). exists u, o. apply in_or_app. auto.
Qed.
(** ** Becoming ready is seen *)
Theorem ready_seen : forall s a b t p i tk f, reachable s -> trace s = a ++ EvWaiter t (SSt p) i tk f :: b ->
  still_waiting (SSt p) (i, tk) (trace s) b -> is_ready p (trace s) -> alerting p (i, tk) s.
Proof.
  intros s a b t p i tk f R E (N & W & T) Rd. cbn [fst snd] in *.
  destruct (registers_open s R _ _ _ E) as [Nr _]. rewrite E in Rd. destruct (becomes_ready p _ a Nr Rd) as (u & o & [I|I]); [discriminate I|].
  apply in_split in I as (b1 & b2 & ->).
  assert (E' : trace s = (a ++ EvWaiter t (SSt p) i tk f :: b1) ++ EvReady u p o :: b2) by (rewrite E, <- app_assoc; reflexivity).
  destruct (ready_notifies s R _ _ _ _ _ E') as [(r & H)|(ws & H)]; [left; exists u, r; exact H|].
  apply in_split in H as (c1 & c2 & ->).
  assert (E2 : trace s = (a ++ EvWaiter t (SSt p) i tk f :: (b1 ++ EvReady u p o :: c1)) ++ EvNotify u (SSt p) true ws :: c2).
  { rewrite E, <- app_assoc. cbn. rewrite <- app_assoc. reflexivity. }
  assert (Seen : forall v all ws', In (EvNotify v (SSt p) all ws') (trace s) -> In (i, tk) ws' -> alerting p (i, tk) s).
  { intros v all ws' I1 I2. destruct (notified_reachable s R v (SSt p) all ws' (i, tk) I1 I2 N) as [H|(ws'' & H1 & H2)]; [contradiction|]. right. exists v, ws''. auto. }
  destruct (prefix_reachable s R _ _ E2) as (s1 & R1 & E1).
  destruct (waiter_stays s1 R1 a (b1 ++ EvReady u p o :: c1) t (SSt p) i tk f E1) as [H|(v & all & ws' & I1 & I2)].
  - intros v I. apply (W v). apply in_app_iff in I. apply in_or_app. destruct I as [I|[I|I]]; [auto|discriminate I|]. right. right. apply in_or_app. auto.
  - apply (Seen u true ws); [rewrite E2; apply in_elt|]. pose proof (notify_takes s R _ _ _ E2) as X. cbn in X. rewrite X, <- E1. exact H.
  - apply (Seen v all ws'); auto. rewrite E2. apply in_or_app. left. apply in_or_app. right. now right.
Qed.

(** A sleeping waiter is woken. *)
Theorem ready_wakes : forall s a b t p i tk f dl l e k r, reachable s -> trace s = a ++ EvWaiter t (SSt p) i tk f :: b ->
  i <> invalid_id -> (forall u, ~ In (EvUnwaiter u (SSt p) i) b) -> is_ready p (trace s) ->
  stk s t = FSleep i dl (WSem (SSt p) l i tk e k) :: r -> attached t (trace s) = Some i -> In i (reg_ids (trace s)) ->
  alerting p (i, tk) s \/ accepted i (trace s) <> started i (trace s) \/
  exists u f r', stk s u = f :: r' /\ (f = FDisp i TNop LkDisc \/ f = FInvoke i TNop LkDisc \/ f = FPush i TNop LkDisc).
Proof.
  intros s a b t p i tk f dl l e k r R E N W Rd St At Rg.
  destruct (h_toks (hp s) tk) eqn:T.
  - right. apply (interrupted_wakes s R t i dl (SSt p) l tk e k r St At Rg). now apply replay_toks.
  - left. apply (ready_seen s a b t p i tk f R E); auto. split; [exact N|]. split; [exact W|]. intros X. apply (replay_toks tk s R) in X. cbn in X. congruence.
Qed.
