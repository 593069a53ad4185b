(** * InvLost: how an unlock of a tpp::mutex can miss a waiter. *)
From Verif Require Import Types Core State Ops Code Machine Base Spec SpecApi SpecUb SpecSync SpecMutex SpecLost Rules Events InvCtx InvStack InvRefs
  Calls Contract ContractLib Adj Replay ReplayObj InvAff InvTop InvSleep SemWait InvCv InvMutex InvUb InvFill ThmRegistry ThmObj.

(** ** A release is followed by a notification *)
Lemma stack_other : forall s t pre rest h n u f r, reachable s -> lstep (hp s) t pre h n -> stk s u = f :: r -> u <> t ->
  set_next (stk s) t n rest u = f :: r.
Proof.
  intros s t pre rest h n u f r R L E N. unfold set_next. destruct n as [fs|c cfs fs]; rewrite !upd_eq.
  - now destruct (Nat.eqb_spec u t).
  - destruct (Nat.eqb_spec u t); [contradiction|]. destruct (Nat.eqb_spec u c); auto. subst.
    apply lstep_tst in L as [(b & k & inp & _ & F & _ & _ & Y)|[(_ & Y & _)|((fs' & Y) & _)]]; try discriminate Y.
    injection Y as -> _ _. apply fresh_empty in F; auto. congruence.
Qed.
Theorem rel_notifies : forall s, reachable s -> forall x u m y, trace s = x ++ EvMxRel u m :: y ->
  (exists r, stk s u = FNotify (SMx m) true :: r) \/ exists ws, In (EvNotify u (SMx m) true ws) y.
Proof.
  apply (reachable_ind'' (fun s => forall x u m y, trace s = x ++ EvMxRel u m :: y ->
    (exists r, stk s u = FNotify (SMx m) true :: r) \/ exists ws, In (EvNotify u (SMx m) true ws) y)).
  - intros x u m y E. destruct x; discriminate E.
  - intros s s' R R' IH U Tr. destruct Tr as [d|t pre rest u E L|t pre rest h n E L].
    + intros x u m y E. unfold trace in E. cbn [hp] in E. unfold emit in E. hs. cbn [rev] in E. fold (trace s) in E.
      destruct y as [|e y _] using rev_ind; [apply app_inj_tail in E as [_ E]; discriminate E|].
      rewrite app_comm_cons, app_assoc in E. apply app_inj_tail in E as [E _]. destruct (IH _ _ _ _ E) as [H|(ws & H)]; auto.
      right. exists ws. apply in_or_app. auto.
    + exact IH.
    + destruct (lstep_trl _ _ _ _ _ L) as [l Et]. intros x u m y Ex. change (tr_of h = x ++ EvMxRel u m :: y) in Ex. cbn [stk].
      rewrite Et in Ex. destruct (lstep_tr _ _ _ _ _ L) as [X|[e X]].
      * assert (l = []) as ->. { unfold tr_of in Et. rewrite X in Et. change (trace s = trace s ++ l) in Et. rewrite <- (app_nil_r (trace s)) in Et at 1. now apply app_inv_head in Et. }
        rewrite app_nil_r in Ex. destruct (IH _ _ _ _ Ex) as [(r & H)|H]; auto. left. exists r.
        apply (stack_other s t pre rest h n u); auto. intros ->. rewrite E in H.
        destruct (lstep_pre _ _ _ _ _ L) as (P1 & _).
        destruct pre as [|f pre]; [now destruct P1|]. cbn in H. injection H as -> _.
        inversion L as [| | |inp f' h' n' Ru|inp e g h' n' Ru|]; subst. code_cases Ru. cbn [atom] in A. inversion A; subst. symmetry in X. cbn in X. now apply cons_neq in X.
      * assert (l = [e]) as ->. { unfold tr_of in Et. rewrite X in Et. cbn [rev] in Et. now apply app_inv_head in Et. }
        destruct y as [|e' y _] using rev_ind.
        -- apply app_inj_tail in Ex as [_ ->]. left. assert (Kk : u = t /\ n = Go [FNotify (SMx m) true]).
           { rename u into who. clear - X L. lstep_cases L; try discriminate X; cbn [atom] in A; op_unfold A; brki A; try discriminate A; inversion A; subst; cbn in X;
              try (exfalso; now apply cons_neq in X); try discriminate X; try (symmetry in X; exfalso; now apply cons_neq in X);
              injection X as -> ->; auto. }
           destruct Kk as [-> ->]. exists rest. cbn [set_next]. now rewrite upd_same.
        -- rewrite app_comm_cons, app_assoc in Ex. apply app_inj_tail in Ex as [Ex <-].
           destruct (IH _ _ _ _ Ex) as [(r & H)|(ws & H)]; [|right; exists ws; apply in_or_app; auto].
           destruct (Nat.eq_dec u t) as [->|N]; [right|left; exists r; now apply (stack_other s t pre rest h n u)].
           rewrite E in H. destruct (lstep_pre _ _ _ _ _ L) as (P1 & _). destruct pre as [|f pre]; [now destruct P1|]. cbn in H. injection H as -> _.
           inversion L as [| | |inp f' h' n' Ru|inp e' g h' n' Ru|]; subst. code_cases Ru. cbn [atom] in A. inversion A; subst. cbn in X. injection X as <-.
           eexists. apply in_or_app. right. now left.
Qed.

(** ** Who registers with the semaphore of a mutex *)
Definition semx (cl : call) (s : semid) (k : semk) : Prop :=
  match k with KMx m _ => s = SMx m /\ cl_api cl = AMLock m | _ => forall m, s <> SMx m end.
Definition mok (cl : call) (f : frame) : Prop :=
  match f with
  | FMLock m | FMTas m _ | FMOwnQ m _ => cl_api cl = AMLock m
  | FSem s _ _ k | FSemId s _ _ k | FSemAdd s _ _ _ k | FSemTok s _ _ _ _ _ k | FSemExit s _ _ _ _ _ k | FSemGo s _ _ _ _ k
  | FSemRe s _ _ _ _ _ k | FSemNow s _ _ _ _ _ k | FSemRem s _ _ _ k => semx cl s k
  | FWaitFor _ (WSem s _ _ _ _ k) | FWait _ (WSem s _ _ _ _ k) | FWait1 _ _ (WSem s _ _ _ _ k) | FSleep _ _ (WSem s _ _ _ _ k) => semx cl s k
  | _ => True
  end.
Lemma mok_start : forall c pre, Forall (mok (mkCall c pre [])) (api_frames c).
Proof. intros c pre. destruct c; cbn; repeat constructor; cbn; congruence. Qed.
Lemma mok_destroy : forall cl l, Forall (mok cl) (destroy l).
Proof. intros cl [|k l]; cbn; repeat constructor. Qed.
Lemma mok_lresume : forall cl k b o, Forall (mok cl) (lresume k b o).
Proof. intros cl k b o. destruct k; cbn [lresume]; try (apply Forall_app; split; [apply mok_destroy|]); fu; auto using mok_destroy. Qed.
Lemma mok_sp : forall cl n i k, Forall (mok cl) (spresume n i k).
Proof. intros cl n i k. destruct k; cbn [spresume]; repeat constructor. Qed.
Lemma mok_pact : forall cl o pl a, Forall (mok cl) (pact_frames o pl a).
Proof. intros cl o pl a. destruct a; cbn [pact_frames]; repeat constructor. Qed.
Lemma mok_wresume : forall cl k b, match k with WSem s _ _ _ _ k => semx cl s k | _ => True end -> Forall (mok cl) (wresume k b).
Proof. intros cl k b H. destruct k; cbn [wresume]; fu. Qed.
Lemma mok_gresume : forall cl g f, Forall (mok cl) (gresume g f).
Proof. intros cl g f. destruct g; cbn [gresume]; fu. Qed.
Lemma mok_semresume : forall cl s k b, semx cl s k -> Forall (mok cl) (semresume k b).
Proof. intros cl s k b H. destruct k; cbn [semresume semx] in *; try (destruct dur; [destruct b|]); fu; intuition. Qed.
Lemma mok_step : forall h0 t cl pre r h n, lstep h0 t pre h n -> (forall c, h <> emit h0 (EvCall t c)) ->
  Forall (mok cl) (pre ++ r) -> Forall (mok cl) (next_frames n ++ r).
Proof.
  intros h0 t cl pre r h n L NC F. apply Forall_app in F as [Fp Fr]. apply Forall_app. split; auto.
  lstep_cases L; cbn [next_frames].
  all: try (now destruct (NC c)).
  all: inversion Fp as [|? ? F1 _]; subst; clear Fp; cbn [mok] in F1.
  all: repeat match goal with |- context [match ?x with _ => _ end] => destruct x eqn:? end.
  all: unfold run_one; repeat first [apply Forall_nil|apply Forall_app; split|apply Forall_cons|apply mok_destroy|apply mok_sp|apply mok_pact|apply mok_wresume; assumption|apply mok_gresume|eapply mok_semresume; eassumption|apply mok_lresume].
  all: try exact I.
  all: cbn [mok semx]; auto; try discriminate.
  all: try (destruct fin; cbn; repeat constructor; fail).
  destruct a; fu.
Qed.
Theorem mok_reachable : forall s, reachable s -> forall t,
  lnk (fun cl seg => incall t cl (trace s) /\ Forall (mok cl) seg) (stk s t) (open_calls t (trace s)).
Proof.
  apply (bot_rule (fun t cl tr seg => Forall (mok cl) seg)); auto.
  - intros s t c pre _ _. apply mok_start.
  - intros s s' t cl pre r rest h n R _ _ _ E L _ NC C _ H. apply (mok_step (hp s) t cl pre r h n) in H; auto.
Qed.
Lemma mok_call : forall s t f rest, reachable s -> stk s t = f :: rest -> needs f = true ->
  exists cl, inside t cl (trace s) /\ mok cl f.
Proof.
  intros s t f rest R E N. pose proof (calls_reachable s R t) as C. rewrite E in C. destruct C as [C _]. specialize (C N).
  pose proof (mok_reachable s R t) as L. rewrite E in L. remember (f :: rest) as fs eqn:Ef. remember (open_calls t (trace s)) as cs0 eqn:Ecs. destruct L as [fs0 N0|seg cl u fin below cs N0 [I F] _].
  - exfalso. subst. unfold no_api in *. cbn in N0. destruct f; try discriminate N; cbn in N0; congruence.
  - exists cl. split; [exists cs; symmetry; exact Ecs|]. destruct seg as [|g seg]; cbn in Ef; injection Ef as Eg Er.
    + subst f. discriminate N.
    + subst g. now inversion F.
Qed.

(** ** The mutex was taken *)
Definition refused (h : heap) (t : tid) (m : nat) : Prop := exists a1 a2, found_taken t m (tr_of h) a1 a2.
Definition top_taken (h : heap) (t : tid) (f : frame) : Prop :=
  match f with
  | FMOwnQ m _ | FSem (SMx m) _ _ _ | FSemId (SMx m) _ _ _ | FSemAdd (SMx m) _ _ _ _ => refused h t m
  | _ => True
  end.
Lemma refused_app : forall h h' t m l, refused h t m -> tr_of h' = tr_of h ++ l -> (forall e, In e l -> by_thread t e = false) -> refused h' t m.
Proof.
  intros h h' t m l (a1 & a2 & E & T & N) E' N'. exists a1, (a2 ++ l). split; [now rewrite E', E, app_assoc|]. split; auto.
  intros e I. apply in_app_iff in I as [I|I]; auto.
Qed.
Theorem taken_top : forall s, reachable s -> forall t f r, stk s t = f :: r -> top_taken (hp s) t f.
Proof.
  apply (top_rule reachable); auto.
  - intros h t [] U; try exact I; discriminate.
  - intros s d u f R H. assert (X : forall m, refused (hp s) u m -> refused (emit (put_now (hp s) (h_now (hp s) + Zpos d)) (EvTick (Zpos d))) u m).
    { intros m Y. apply (refused_app _ _ _ _ [EvTick (Zpos d)] Y); [reflexivity|]. intros e [<-|[]]. reflexivity. }
    destruct f; auto; try match goal with x : semid |- _ => destruct x end; cbn [top_taken] in *; auto.
  - intros h t []; exact I.
  - intros s t pre rest h n u f r R U E L N Eu H.
    assert (X : forall m, refused (hp s) u m -> refused h u m).
    { intros m Y. destruct (lstep_trl _ _ _ _ _ L) as [l El]. apply (refused_app _ _ _ _ l Y El). intros e I.
      destruct (lstep_tr _ _ _ _ _ L) as [X|[e' X]].
      - unfold tr_of in El. rewrite X in El. change (trace s = trace s ++ l) in El. rewrite <- (app_nil_r (trace s)) in El at 1. apply app_inv_head in El. subst l. destruct I.
      - unfold tr_of in El. rewrite X in El. cbn [rev] in El. apply app_inv_head in El. subst l. destruct I as [<-|[]].
        unfold by_thread. destruct (lstep_actor _ _ _ _ _ _ L X) as [->| ->]; auto. now apply Nat.eqb_neq; auto. }
    destruct f; auto; try match goal with x : semid |- _ => destruct x end; cbn [top_taken] in *; auto.
  - intros s t pre rest h n fr R U E L Top Hd.
    assert (Top' : match pre with g :: _ => top_taken (hp s) t g | [] => True end) by (destruct pre as [|g pre]; auto; apply (Top g (pre ++ rest)); auto).
    clear Top. pose proof (replay_mxs) as RM.
    lstep_cases L; cbn [next_frames] in Hd; try match type of Hd with context [match ?b with _ => _ end] => destruct b eqn:? end; hdk Hd; try (injection Hd as <-; exact I); try (injection Hd as ->).
    all: injection Hd as <-; cbn [atom] in A.
    all: try (injection A as <- _; cbn [top_taken] in *; exact Top').
    1: { destruct (h_loc (hp s) t) as [j|]; [destruct (alive _ _); [|discriminate A]|]; injection A as <- _; exact Top'. }
    destruct (h_mxs (hp s) m) as [[] o] eqn:Em; [|discriminate A]. injection A as <-. cbn [top_taken]. specialize (RM m s R). rewrite Em in RM. cbn [fst] in RM.
    exists (trace s), []. split; [now rewrite app_nil_r|]. split; [|intros e []]. intros X. rewrite X in RM. discriminate RM.
Qed.
(** A thread registers with the semaphore of a mutex because it found it taken. *)
Theorem registers_refused : forall s, reachable s ->
  at_each (fun a e => match e with EvWaiter t (SMx m) i tk f => gave_up t m a | _ => True end) (trace s).
Proof.
  apply (event_rule reachable); auto.
  intros s t pre rest h n ev R U E L X. destruct ev; auto. destruct s0 as [|m|]; auto.
  assert (K : exists l tm k, pre = [FSemAdd (SMx m) l i tm k] /\ t0 = t).
  { clear - L X. lstep_cases L; try discriminate X; cbn [atom] in A; op_unfold A; brki A; try discriminate A; inversion A; subst; cbn in X;
      try (exfalso; now apply cons_neq in X); try discriminate X; try (symmetry in X; exfalso; now apply cons_neq in X).
    all: injection X as -> -> -> _ _; eauto. }
  destruct K as (l & tm & k & -> & ->). split; [|exact (taken_top s R t _ rest E)].
  destruct (mok_call s t _ rest R E eq_refl) as (cl & Ins & Ok). exists cl. split; auto. cbn [mok] in Ok. destruct k; cbn [semx] in Ok; try (now destruct (Ok m)).
  destruct Ok as [Eq Ok]. now injection Eq as <-.
Qed.

(** ** A release that follows the registration is seen *)
Theorem unlock_seen : forall s a b t m i tk f u, reachable s -> trace s = a ++ EvWaiter t (SMx m) i tk f :: b ->
  still_waiting (SMx m) (i, tk) (trace s) b -> In (EvMxRel u m) b -> rousing m (i, tk) s.
Proof.
  intros s a b t m i tk f u R E (N & W & T) I. cbn [fst snd] in *. apply in_split in I as (b1 & b2 & ->).
  assert (E' : trace s = (a ++ EvWaiter t (SMx m) i tk f :: b1) ++ EvMxRel u m :: b2) by (rewrite E, <- app_assoc; reflexivity).
  destruct (rel_notifies s R _ _ _ _ E') as [(r & H)|(ws & H)]; [left; exists u, r; exact H|].
  apply in_split in H as (c1 & c2 & ->).
  assert (E2 : trace s = (a ++ EvWaiter t (SMx m) i tk f :: (b1 ++ EvMxRel u m :: c1)) ++ EvNotify u (SMx m) true ws :: c2).
  { rewrite E, <- app_assoc. cbn. rewrite <- app_assoc. reflexivity. }
  assert (Seen : forall v all ws', In (EvNotify v (SMx m) all ws') (trace s) -> In (i, tk) ws' -> rousing m (i, tk) s).
  { intros v all ws' I1 I2. destruct (notified_reachable s R v (SMx m) all ws' (i, tk) I1 I2 N) as [H|(ws'' & H1 & H2)]; [contradiction|]. right. exists v, ws''. auto. }
  destruct (prefix_reachable s R _ _ E2) as (s1 & R1 & E1).
  destruct (waiter_stays s1 R1 a (b1 ++ EvMxRel u m :: c1) t (SMx m) i tk f E1) as [H|(v & all & ws' & I1 & I2)].
  - intros v I. apply (W v). apply in_app_iff in I. apply in_or_app. destruct I as [I|[I|I]]; [auto|discriminate I|]. right. right. apply in_or_app. auto.
  - apply (Seen u true ws); [rewrite E2; apply in_elt|]. pose proof (notify_takes s R _ _ _ E2) as X. cbn in X. rewrite X, <- E1. exact H.
  - apply (Seen v all ws'); auto. rewrite E2. apply in_or_app. left. apply in_or_app. right. now right.
Qed.
Lemma mxh_kept : forall m l tr, (forall e, In e l -> on_mx m e = false) -> mx_holder m (tr ++ l) = mx_holder m tr.
Proof.
  intros m l tr. induction l as [|e l IH] using rev_ind; intros N; [now rewrite app_nil_r|]. rewrite app_assoc, mxh_snoc.
  assert (Ne : on_mx m e = false) by (apply N, in_or_app; right; now left).
  rewrite <- IH by (intros e' I; apply N, in_or_app; auto). destruct e; auto; cbn in Ne; now rewrite Ne.
Qed.
Lemma mxh_freed : forall m l tr, mx_holder m tr <> None -> mx_holder m (tr ++ l) = None -> exists u, In (EvMxRel u m) l.
Proof.
  intros m l tr A. induction l as [|e l IH] using rev_ind; intros B; [rewrite app_nil_r in B; congruence|]. rewrite app_assoc, mxh_snoc in B.
  assert (X : (exists u, e = EvMxRel u m) \/ mx_holder m (tr ++ l) = None).
  { destruct e; auto; destruct (Nat.eqb_spec m0 m) as [->|]; auto; [discriminate B|]. left. eauto. }
  destruct X as [[u ->]|X]; [exists u; apply in_or_app; right; now left|]. destruct (IH X) as [u I]. exists u. apply in_or_app. auto.
Qed.
Lemma mxh_none : forall m l tr, (forall u, ~ In (EvMxRel u m) l) -> mx_holder m (tr ++ l) = None -> mx_holder m tr = None /\ forall e, In e l -> on_mx m e = false.
Proof.
  intros m l tr. induction l as [|e l IH] using rev_ind; intros N H; [rewrite app_nil_r in H; split; auto; intros e []|]. rewrite app_assoc, mxh_snoc in H.
  assert (Ne : forall u, e <> EvMxRel u m) by (intros u ->; apply (N u), in_or_app; right; now left).
  assert (X : on_mx m e = false /\ mx_holder m (tr ++ l) = None).
  { destruct e; auto; cbn; destruct (Nat.eqb_spec m0 m) as [->|]; auto; [discriminate H|]. now destruct (Ne t). }
  destruct X as [X1 X2]. destruct (IH (fun u I => N u (in_or_app _ _ _ (or_introl I))) X2) as [A B]. split; auto.
  intros e' I. apply in_app_iff in I as [I|[<-|[]]]; auto.
Qed.
Theorem unlock_lost : forall s a b t m i tk f, reachable s -> trace s = a ++ EvWaiter t (SMx m) i tk f :: b ->
  still_waiting (SMx m) (i, tk) (trace s) b -> ~ rousing m (i, tk) s -> mx_holder m (trace s) = None ->
  (forall e, In e b -> on_mx m e = false) /\ exists a1 a2 u, found_taken t m a a1 a2 /\ In (EvMxRel u m) a2.
Proof.
  intros s a b t m i tk f R E W Nw H.
  assert (Nr : forall u, ~ In (EvMxRel u m) (EvWaiter t (SMx m) i tk f :: b)).
  { intros u [X|I]; [discriminate X|]. apply Nw. now apply (unlock_seen s a b t m i tk f u). }
  rewrite E in H. destruct (mxh_none m _ a Nr H) as [Ha Hb]. split; [intros e I; apply Hb; now right|].
  destruct (registers_refused s R _ _ _ E) as [_ (a1 & a2 & F)]. pose proof F as (Ea & T & _). rewrite Ea in Ha.
  destruct (mxh_freed m a2 a1 T Ha) as [u I]. exists a1, a2, u. auto.
Qed.

