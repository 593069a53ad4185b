(** * ApiFut: waiting for futures and for the jobs of a pool keeps its contract. *)
From Verif Require Import Types Core State Ops Code Machine Base Spec SpecApi SpecWait SpecFut Rules Events InvCtx InvQueue InvStack InvAff InvTop InvSleep
  Calls Contract ContractLib Replay ReplayObj ThmObj Calm ApiWait SemWait ReplayFut.

Definition fwait_sel (c : api) : bool := match c with AFWait _ | AFWaitFor _ _ | AFGet _ | APWait _ _ | APWaitAll _ => true | _ => false end.

Lemma outcome_app : forall p a b, is_ready p a -> is_ready p (a ++ b).
Proof.
  intros p a b H. induction b as [|e b IH] using rev_ind; [now rewrite app_nil_r|]. unfold is_ready in *. rewrite app_assoc, outcome_snoc.
  destruct e; auto. destruct (_ =? _); auto. discriminate.
Qed.
Lemma waited_mono : forall t p cl tr a x, waited t p cl tr -> waited t p (add_acts a cl) (tr ++ x).
Proof. intros t p cl tr a x [H|H]; [left; now apply outcome_app|right; auto with mono]. Qed.
#[local] Hint Resolve outcome_app waited_mono : mono.

(** What the call is waiting for. *)
Definition fctx (t : tid) (cl : call) (tr : list event) (p : sid) (dur : option Z) (g : gk) : Prop :=
  match cl_api cl, g with
  | AFWait h, GApi => dur = None /\ refers h p cl tr
  | AFWaitFor h d, GFor => dur = Some d /\ refers h p cl tr
  | AFGet h, GGet h' => h' = h /\ dur = None /\ refers h p cl tr
  | APWait o j, GApi => dur = None /\ exists pl, sometime cl tr (fun m => pool_of o m = Some pl) /\ sometime cl tr (job_state pl j p)
  | APWaitAll o, GList rest => dur = None /\ exists pl qs dn, sometime cl tr (fun m => pool_of o m = Some pl) /\
      sometime cl tr (fun m => Forall2 (fun j q => job_state pl j q m) (jobs_of pl m) qs) /\ qs = dn ++ p :: rest /\ forall q, In q dn -> waited t q cl tr
  | _, _ => False
  end.
Definition solo (g : gk) : Prop := match g with GList _ => False | _ => True end.
Lemma fctx_mono : forall t cl tr p dur g a x, fctx t cl tr p dur g -> fctx t (add_acts a cl) (tr ++ x) p dur g.
Proof.
  intros t cl tr p dur g a x. unfold fctx, refers. cbn [add_acts cl_api]. fold (add_acts a cl). destruct (cl_api cl), g; auto.
  - intros [A B]; auto with mono.
  - intros [A B]; auto with mono.
  - intros (A & B & C); auto with mono.
  - intros (A & pl & B & C). split; auto. exists pl. auto with mono.
  - intros (A & pl & qs & dn & B & C & D & E). split; auto. exists pl, qs, dn. repeat split; auto with mono.
Qed.
Lemma fctx_tr : forall t cl tr p dur g x, fctx t cl tr p dur g -> fctx t cl (tr ++ x) p dur g.
Proof. intros. rewrite <- (add_acts_nil cl). now apply fctx_mono. Qed.
Lemma waited_tr : forall t p cl tr x, waited t p cl tr -> waited t p cl (tr ++ x).
Proof. intros. rewrite <- (add_acts_nil cl). now apply waited_mono. Qed.
#[local] Hint Resolve fctx_mono fctx_tr waited_tr : mono.

Definition fR (t : tid) (cl : call) (tr : list event) (s : semid) (l : option lockid) (dur : option Z) (k : semk) (a0 m0 : list event) : Prop :=
  exists p g, s = SSt p /\ l = Some (LState p) /\ k = KState p dur g /\ fctx t cl tr p dur g /\ (clock (cl_pre cl) <= clock m0)%Z /\
    (solo g -> exists r, a0 = EvLock t (LState p) :: r).
Lemma fR_mono : forall t cl tr a x s l dur k a0 m0, fR t cl tr s l dur k a0 m0 -> fR t (add_acts a cl) (tr ++ x) s l dur k a0 m0.
Proof. intros t cl tr a x s l dur k a0 m0 (p & g & A & B & C & D & F & G). exists p, g. repeat (split; auto with mono). Qed.

Definition sok (t : tid) (p : sid) (dur : option Z) (cl : call) (tr : list event) (f : fstatus) : Prop :=
  match f with
  | FsReady => is_ready p tr
  | FsDeferred => sometime cl tr (exit_seen t)
  | FsTimeout => exists d, dur = Some d /\ sometime cl tr (fun x => clock (cl_pre cl) + d < clock x + 1000)%Z
  end.
Lemma sok_mono : forall t p dur cl tr f a x, sok t p dur cl tr f -> sok t p dur (add_acts a cl) (tr ++ x) f.
Proof. intros t p dur cl tr [] a x; cbn [sok]; [auto with mono| |auto with mono]. intros (d & A & B). exists d. split; auto. apply (st_mono _ _ x a) in B. exact B. Qed.
Lemma sok_tr : forall t p dur cl tr f x, sok t p dur cl tr f -> sok t p dur cl (tr ++ x) f.
Proof. intros. rewrite <- (add_acts_nil cl). now apply sok_mono. Qed.
#[local] Hint Resolve sok_mono sok_tr : mono.
Definition getting (t : tid) (h : nat) (p : sid) (cl : call) (tr : list event) : Prop :=
  cl_api cl = AFGet h /\ refers h p cl tr /\ begins cl [EvLock t (LState p)] /\ waited t p cl tr.
Lemma getting_mono : forall t h p cl tr a x, getting t h p cl tr -> getting t h p (add_acts a cl) (tr ++ x).
Proof. intros t h p cl tr a x (A & B & C & D). unfold getting, refers in *. repeat split; auto with mono. Qed.
Lemma getting_tr : forall t h p cl tr x, getting t h p cl tr -> getting t h p cl (tr ++ x).
Proof. intros. rewrite <- (add_acts_nil cl). now apply getting_mono. Qed.
Lemma used_mono : forall t h p cl tr a x, used_up t h p cl tr -> used_up t h p (add_acts a cl) (tr ++ x).
Proof. intros t h p cl tr a x [A|[sh A]]; [left; auto with mono|right; exists sh; auto with mono]. Qed.
Lemma used_tr : forall t h p cl tr x, used_up t h p cl tr -> used_up t h p cl (tr ++ x).
Proof. intros. rewrite <- (add_acts_nil cl). now apply used_mono. Qed.
#[local] Hint Resolve getting_mono getting_tr used_mono used_tr : mono.

Inductive fmid (t : tid) (cl : call) (tr : list event) : frame -> list frame -> Prop :=
| w_sem : forall f g, smid fR t cl tr f g -> fmid t cl tr f g
| w_ub : forall u, fmid t cl tr (FUb u) []
| w_hwait : forall h dur, cl_api cl = match dur with None => AFWait h | Some d => AFWaitFor h d end -> cl_acts cl = [] -> fmid t cl tr (FHWait h dur) []
| w_get : forall h, cl_api cl = AFGet h -> cl_acts cl = [] -> fmid t cl tr (FGet h) []
| w_papi : forall o a, cl_api cl = match a with Some j => APWait o j | None => APWaitAll o end -> cl_acts cl = [] ->
    fmid t cl tr (FPApi o (match a with Some j => PaWait j | None => PaWaitAll end)) []
| w_pwait : forall o pl j, cl_api cl = APWait o j -> cl_acts cl = [] -> sometime cl tr (fun m => pool_of o m = Some pl) -> fmid t cl tr (FPWait pl j) []
| w_pall : forall o pl, cl_api cl = APWaitAll o -> sometime cl tr (fun m => pool_of o m = Some pl) -> fmid t cl tr (FPWaitAll pl) []
| w_list : forall o pl qs dn rest, cl_api cl = APWaitAll o -> sometime cl tr (fun m => pool_of o m = Some pl) ->
    sometime cl tr (fun m => Forall2 (fun j q => job_state pl j q m) (jobs_of pl m) qs) -> qs = dn ++ rest -> (forall q, In q dn -> waited t q cl tr) ->
    fmid t cl tr (FWaitList rest) []
| w_st : forall p dur g, fctx t cl tr p dur g -> (solo g -> cl_acts cl = []) -> fmid t cl tr (FSt p dur g) []
| w_w : forall p dur g f, fctx t cl tr p dur g -> (solo g -> begins cl [EvLock t (LState p)]) -> f = FStW1 p dur g \/ f = FStW2 p dur g -> fmid t cl tr f []
| w_end : forall p dur g f, fctx t cl tr p dur g -> (solo g -> begins cl [EvLock t (LState p)]) -> sok t p dur cl tr f -> fmid t cl tr (FStEnd p f g) []
| w_get2 : forall h p, getting t h p cl tr -> fmid t cl tr (FGet2 h) []
| w_get3 : forall h p b x, getting t h p cl tr -> (x = [] /\ used_up t h p cl tr) \/ x = [FHMove h] -> fmid t cl tr (FGet3 p b) x.

Lemma fmid_tr : forall t cl tr x f g, fmid t cl tr f g -> (forall f g, smid fR t cl tr f g -> smid fR t cl (tr ++ x) f g) -> fmid t cl (tr ++ x) f g.
Proof.
  intros t cl tr x f g M Q. destruct M.
  - apply w_sem. auto.
  - apply w_ub.
  - now apply w_hwait.
  - now apply w_get.
  - now apply w_papi.
  - eapply w_pwait; eauto with mono.
  - eapply w_pall; eauto with mono.
  - eapply w_list; eauto with mono.
  - eapply w_st; eauto with mono.
  - eapply w_w; eauto with mono.
  - eapply w_end; eauto with mono.
  - eapply w_get2; eauto with mono.
  - eapply w_get3; [eauto with mono|]. destruct H0 as [[-> H0]| ->]; [left|now right]. auto with mono.
Qed.
Lemma fwait_tr : forall t cl tr x r, fwait_contract t cl tr r -> fwait_contract t cl (tr ++ x) r.
Proof.
  intros t cl tr x r. unfold fwait_contract. destruct (cl_api cl); auto.
  - intros [(A & B & C)|(p & A & B & C)]; [left; repeat split; auto with mono|right]. exists p. unfold refers in *. repeat split; auto with mono.
    destruct C as [(C & D & E)|C]; [left; auto with mono|now right].
  - intros [(A & B & C)|(p & A & B & C)]; [left; repeat split; auto with mono|right]. exists p. unfold refers in *. repeat split; auto with mono.
    destruct C as [(f & C & D & E)|C]; auto. left. exists f. repeat split; auto. destruct f; cbn [status_spec] in *; auto with mono.
  - intros [(A & B & C)|(p & A & B & C)]; [left; repeat split; auto with mono|right]. exists p. unfold refers in *. repeat split; auto with mono.
    destruct C as [(C & U & D)|C]; [left; auto with mono|now right].
  - intros (pl & A & [(B & C & D)|(q & B & C & D)]); exists pl; (split; [auto with mono|]); [left; auto with mono|right]. exists q. repeat split; auto with mono.
    destruct D as [(D & E & F)|D]; [left; auto with mono|now right].
  - intros (pl & A & qs & B & C). exists pl. split; auto with mono. exists qs. split; auto with mono. destruct C as [[C D]|C]; auto. left. auto with mono.
Qed.

Lemma fut_done : forall s t cl sm l dur k a0 m0 i tk f b st, reachable s -> fwait_sel (cl_api cl) = true -> incall t cl (trace s) ->
  fR t cl (trace s) sm l dur k a0 m0 -> ext m0 (trace s) ->
  cl_acts cl = a0 ++ EvWaiter t sm i tk f :: b ++ [EvUnwaiter t sm i] -> (forall e, In e b -> busy e = false) ->
  sometime cl (trace s) (fun x => my_id t x = i) -> path_ok t l b true -> hold t l m0 (trace s) ->
  reason t cl (trace s) dur m0 tk st -> newbot fwait_contract fmid t cl (trace s) (semresume k st).
Proof.
  intros s t cl sm l dur k a0 m0 i tk f b st R S C (p & g & -> & -> & -> & Ct & Ck & Sg) X Ea N I P Ho Re.
  assert (Bg : solo g -> begins cl [EvLock t (LState p)]).
  { intros Hs. destruct (Sg Hs) as [r ->]. unfold begins. rewrite Ea. now eexists. }
  unfold newbot. cbn [semresume]. destruct dur as [d|]; [destruct st|]; cbn [rev app]; left.
  - eapply w_end; eauto. destruct Re as (d' & E & H). exists d'. split; auto. eapply st_imp; [|exact H]. cbn. lia.
  - eapply w_w; eauto.
  - eapply w_w; eauto.
Qed.
Lemma fut_exn : forall t cl tr sm l dur k a0 m0 i tk f b c kt l' e, fwait_sel (cl_api cl) = true ->
  fR t cl tr sm l dur k a0 m0 -> cl_acts cl = a0 ++ EvWaiter t sm i tk f :: b -> (forall e, In e b -> busy e = false) ->
  sometime cl tr (fun x => my_id t x = i) -> path_ok t l b false -> scheds cl = l' ++ [EvStart t c kt; EvAbort t c] -> fwait_contract t cl tr (RExn e).
Proof.
  intros t cl tr sm l dur k a0 m0 i tk f b c kt l' e S (p & g & -> & -> & -> & Ct & Ck & Sg) Ea N I P Sc.
  assert (Bg : solo g -> begins cl [EvLock t (LState p)]).
  { intros Hs. destruct (Sg Hs) as [r ->]. unfold begins. rewrite Ea. now eexists. }
  assert (Th : threw t cl (RExn e)) by (now exists e, c, kt, l').
  unfold fwait_contract, fctx in *. destruct (cl_api cl); auto; destruct g; try contradiction.
  - right. exists p. split; [apply Ct|]. split; [now apply Bg|]. now right.
  - right. exists p. split; [apply Ct|]. split; [now apply Bg|]. now right.
  - right. exists p. split; [apply Ct|]. split; [now apply Bg|]. now right.
  - destruct Ct as (_ & pl & A & B). exists pl. split; auto. right. exists p. split; [auto|]. split; [now apply Bg|]. now right.
  - destruct Ct as (_ & pl & qs & dn & A & B & D & _). exists pl. split; auto. exists qs. split; auto.
Qed.
Lemma jobs_states : forall s pl, reachable s ->
  Forall2 (fun j q => job_state pl j q (trace s)) (jobs_of pl (trace s)) (map (fun x => jb_future (snd x)) (pl_jobs (h_pools (hp s) pl))).
Proof.
  intros s pl R. rewrite <- (replay_jobs pl s R). pose proof (replay_jobfut pl s R) as J. pose proof (replay_jobs pl s R) as RJ.
  assert (K : forall x, In x (pl_jobs (h_pools (hp s) pl)) -> job_state pl (fst x) (jb_future (snd x)) (trace s)).
  { intros x I. split; [rewrite <- RJ; now apply in_map|]. destruct (J x I) as (g & p & H). now exists g, p. }
  clear RJ J R. induction (pl_jobs (h_pools (hp s) pl)) as [|x l IH]; cbn [map]; constructor.
  - apply K. now left.
  - apply IH. intros y I. apply K. now right.
Qed.
Lemma jobs_find_none : forall js j, jobs_find js j = None -> ~ In j (map fst js).
Proof.
  induction js as [|[k z] js IH]; intros j H I; [contradiction|]. cbn in *. destruct (Nat.eqb_spec k j); [discriminate H|].
  destruct I as [I|I]; [congruence|]. eapply IH; eauto.
Qed.
Lemma refers_now : forall s t cl h p, reachable s -> incall t cl (trace s) -> refers h p cl (trace s) -> forall q, snd (fut_of h (trace s)) = Some q -> q = p.
Proof.
  intros s t cl h p R C (m & (a & b & E1 & E2) & H) q Hq. destruct (fut_stable s h p m b R E2 H); congruence.
Qed.

Lemma fmid_code : forall s s' t cl f inp h n, reachable s -> reachable s' -> hp s' = h -> fwait_sel (cl_api cl) = true -> incall t cl (trace s) ->
  (exists cs, open_calls t (trace s) = cl :: cs) -> (exists rest, stk s t = f :: FApi (cl_api cl) :: rest) ->
  runs (code f) (hp s) t inp h n -> fmid t cl (trace s) f [] ->
  newbot fwait_contract fmid t (add_acts (new_acts t (hp s) h) cl) (tr_of h) (next_frames n).
Proof.
  intros s s' t cl f inp h n R R' Eh S C Op ST Ru M. remember (@nil frame) as ab eqn:Eab.
  destruct M as [f g M|u|hh dur Ap Ea|hh Ap Ea|o a Ap Ea|o pl j Ap Ea Pl|o pl Ap Pl|o pl qs dn rest Ap Pl Qs Eq Dn|p dur g Ct Ea|p dur g f Ct Bg Ef
    |p dur g f Ct Bg So|hh p G|hh p b x G Ex]; try discriminate Eab.
  - subst g. eapply (smid_code fwait_sel fwait_contract fmid fR); eauto using fR_mono, fut_done, w_sem.
  - code_cases Ru. discriminate A.
  - clear Eh. assert (Mo : moment cl (trace s) (trace s)) by (eapply moment_now; eauto).
    destruct dur as [d|]; code_cases Ru; opinfo A; (assert (X : x = fut_of hh (trace s)) by (rewrite <- (replay_hnds _ _ R); cbn [atom] in A; now injection A as _ <-));
      quiet_; unfold newbot; destruct x as [sh [p|]]; cbn [snd rev app].
    1, 3: left; apply w_st; auto; unfold fctx, refers; rewrite Ap; (split; [auto|]); exists (trace s); rewrite <- X; auto.
    all: right; left; split; auto; assert (Iv : invalid hh cl (trace s) (RExn XNoState)) by (split; auto; split; auto; exists (trace s); rewrite <- X; auto);
      unfold fwait_contract; rewrite Ap; now left.
  - clear Eh. code_cases Ru. opinfo A. assert (X : x = fut_of hh (trace s)) by (rewrite <- (replay_hnds _ _ R); cbn [atom] in A; now injection A as _ <-).
    quiet_. assert (Mo : moment cl (trace s) (trace s)) by (eapply moment_now; eauto). unfold newbot. destruct x as [sh [p|]]; cbn [snd rev app].
    + left. apply w_st; auto. unfold fctx, refers. rewrite Ap. (split; [auto|]). split; auto. exists (trace s); rewrite <- X; auto.
    + right. left. split; auto. assert (Iv : invalid hh cl (trace s) (RExn XNoState)) by (split; auto; split; auto; exists (trace s); rewrite <- X; auto).
      unfold fwait_contract. rewrite Ap; now left.
  - clear Eh. assert (Mo : moment cl (trace s) (trace s)) by (eapply moment_now; eauto). destruct a as [j|]; code_cases Ru; opinfo A;
      (assert (X : fst x = pool_of o (trace s)) by (rewrite <- (replay_pobj _ R); cbn [atom] in A; now injection A as _ <-));
      quiet_; unfold newbot; destruct x as [[pl|] y]; cbn [fst] in X; cbn [fst pact_frames rev app]; left; try apply w_ub.
    + eapply w_pwait; eauto. now exists (trace s).
    + eapply w_pall; eauto. now exists (trace s).
  - clear Eh. assert (Mo : moment cl (trace s) (trace s)) by (eapply moment_now; eauto). code_cases Ru. opinfo A.
    assert (X : x = option_map jb_future (jobs_find (pl_jobs (h_pools (hp s) pl)) j)) by (cbn [atom] in A; op_unfold A; brki A; try discriminate A; now injection A as _ <-).
    quiet_. unfold newbot. destruct (jobs_find _ j) as [y|] eqn:Jf; cbn [option_map] in X; subst x; cbn [rev app].
    + left. apply w_st; auto. unfold fctx. rewrite Ap. split; auto. exists pl. split; auto. exists (trace s). split; auto. split.
      * rewrite <- (replay_jobs pl s R). apply in_jobs_find in Jf. now apply (in_map fst) in Jf.
      * destruct (replay_jobfut pl s R _ (in_jobs_find _ _ _ Jf)) as (g & p & H). now exists g, p.
    + unfold fwait_contract. rewrite Ap. exists pl. split; auto. left. split; auto. split; auto. exists (trace s). split; auto. rewrite <- (replay_jobs pl s R).
      now apply jobs_find_none.
  - clear Eh. assert (Mo : moment cl (trace s) (trace s)) by (eapply moment_now; eauto). code_cases Ru. opinfo A.
    assert (X : x = map (fun x => jb_future (snd x)) (pl_jobs (h_pools (hp s) pl))) by (cbn [atom] in A; op_unfold A; brki A; try discriminate A; now injection A as _ <-).
    quiet_. unfold newbot. cbn [rev app]. left. eapply (w_list _ _ _ o pl x [] x); eauto; [|intros q []]. exists (trace s). split; auto. rewrite X. now apply jobs_states.
  - clear Eh. code_cases Ru; opinfo A; quiet_; unfold newbot; cbn [rev app].
    + unfold fwait_contract. rewrite Ap. rewrite app_nil_r in *. exists pl. split; auto. exists dn. split; auto.
    + left. apply w_st; [|intros []]. unfold fctx. rewrite Ap. split; auto. eexists pl, _, dn. eauto.
  - clear Eh. code_cases Ru. opinfo A. noisy. unfold newbot. cbn [rev app]. left. eapply w_w; eauto with mono. intros Hs. apply bg_all. cbn. now rewrite (Ea Hs).
  - clear Eh. destruct Ef as [->| ->]; code_cases Ru; opinfo A.
    + assert (X : x = fs_ready (h_fsts (hp s) p)) by (cbn [atom] in A; now injection A as _ <-). rewrite (replay_ready p s R) in X.
      quiet_. unfold newbot. destruct x; cbn [rev app]; left.
      * eapply w_end; eauto. unfold sok, is_ready. destruct (outcome_of p (trace s)); [discriminate|discriminate X].
      * eapply w_w; eauto.
    + assert (X : x = true -> exit_seen t (trace s)).
      { intros ->. unfold exit_seen. rewrite <- (rd_loc s R). cbn [atom] in A. destruct (h_loc (hp s) t) as [i|] eqn:El; auto.
        op_unfold A. brki A; try discriminate A. injection A as _ A. now apply (rd_exit s R). }
      quiet_. unfold newbot. destruct x; cbn [rev app]; left.
      * eapply w_end; eauto. exists (trace s). split; [eapply moment_now; eauto|auto].
      * apply w_sem. eapply sm_alone with (a0 := cl_acts cl) (m0 := trace s) (dur := dur).
        -- exists p, g. do 3 (split; [auto|]). split; [exact Ct|]. split; [eapply clock_call; eauto|]. intros Hs. destruct (Bg Hs) as [r Er]. now exists r.
        -- exists []. now rewrite app_nil_r.
        -- apply p_sem; [reflexivity|intros y Y; auto].
  - clear Eh. code_cases Ru. opinfo A. noisy. unfold newbot.
    assert (W : dur = None -> waited t p (add_acts [EvUnlock t (LState p)] cl) (trace s ++ [EvUnlock t (LState p)])).
    { intros ->. destruct f; cbn [sok] in So; [left; auto with mono| |right; auto with mono]. destruct So as (d & Ed & _). discriminate Ed. }
    assert (Lk : solo g -> locked t p (add_acts [EvUnlock t (LState p)] cl)).
    { intros Hs. destruct (Bg Hs) as [r Er]. exists r. cbn [add_acts cl_acts]. now rewrite Er. }
    apply (fctx_mono _ _ _ _ _ _ [EvUnlock t (LState p)] [EvUnlock t (LState p)]) in Ct. pose proof Ct as Ct0. unfold fctx in Ct. cbn [add_acts cl_api] in Ct. fold (add_acts [EvUnlock t (LState p)] cl) in Ct.
    destruct (cl_api cl) eqn:Ap; try contradiction; destruct g; try contradiction; cbn [gresume rev app].
    + unfold fwait_contract. cbn [add_acts cl_api]. rewrite Ap. destruct Ct as [-> Rf]. right. exists p. split; auto. split; [apply bg_mono; now apply Bg|]. left. split; auto. split; [now apply Lk|now apply W].
    + right. left. split; auto. unfold fwait_contract. cbn [add_acts cl_api]. rewrite Ap. destruct Ct as [-> Rf]. right. exists p. split; auto. split; [apply bg_mono; now apply Bg|]. left. exists f.
      split; auto. split; [now apply Lk|]. apply (sok_mono _ _ _ _ _ _ [EvUnlock t (LState p)] [EvUnlock t (LState p)]) in So. destruct f; cbn [sok status_spec] in *; auto.
      destruct So as (d' & Ed & H). now injection Ed as ->.
    + left. destruct Ct as (-> & -> & Rf). eapply w_get2. split; [cbn; exact Ap|]. split; [exact Rf|]. split; [apply bg_mono; now apply Bg|auto].
    + unfold fwait_contract. cbn [add_acts cl_api]. rewrite Ap. destruct Ct as (-> & pl & Pl & Js). exists pl. split; auto. right. exists p. split; auto. split; [apply bg_mono; now apply Bg|]. left. split; auto.
      split; [now apply Lk|now apply W].
    + left. destruct Ct as (-> & pl & qs & dn & Pl & Qs & -> & Dn). eapply (w_list _ _ _ _ pl _ (dn ++ [p])); eauto.
      * now rewrite <- app_assoc.
      * intros q I. apply in_app_iff in I as [I|[<-|[]]]; auto.
  - clear Eh. pose proof G as (Ap & Rf & _). pose proof (refers_now s t cl hh p R C Rf) as Rn.
    assert (X : forall h' x, atom (hp s) t (OHndGet hh) inp = AOk h' x -> x = fut_of hh (trace s)) by (intros h' x A; rewrite <- (replay_hnds _ _ R); cbn [atom] in A; now injection A as _ <-).
    code_cases Ru; opinfo A; apply X in A; rewrite <- A in Rn; quiet_; unfold newbot; destruct x as [[] [q|]]; cbn [snd rev app] in *; left; try apply w_ub;
      pose proof (Rn _ eq_refl) as Qe; rewrite Qe; (eapply w_get3; [eauto|]); [left|right]; auto; split; auto; left; exists (trace s); (split; [eapply moment_now; eauto|congruence]).
  - clear Eh. assert (X : forall h' x, atom (hp s) t (OGetVal p b) inp = AOk h' x -> x = delivers (void_state p (trace s)) (outcome_of p (trace s))).
    { intros h' y A. rewrite <- (replay_get p s R). cbn [atom] in A. op_unfold A. brki A; try discriminate A; now injection A as _ <-. }
    destruct Ex as [[-> U]|Ex]; [|congruence]. destruct G as (Ap & Rf & Bg & W).
    assert (Po : forall x, x = delivers (void_state p (trace s)) (outcome_of p (trace s)) -> fwait_contract t (add_acts [EvGot t p x] cl) (trace s ++ [EvGot t p x]) x).
    { intros x Ex. unfold fwait_contract. cbn [add_acts cl_api]. rewrite Ap. right. exists p. fold (add_acts [EvGot t p x] cl). split; [unfold refers in *; auto with mono|].
      split; auto with mono. left. split; [exists (cl_acts cl); reflexivity|]. split; [auto with mono|]. eapply do_now; eauto. }
    code_cases Ru; opinfo A; apply X in A; noisy; unfold newbot; match goal with |- context [match ?r with RExn _ => _ | _ => _ end] => destruct r | _ => idtac end; cbn [rev app]; right; left; (split; [reflexivity|]); now apply Po.
Qed.
Lemma fmid_catch : forall s s' t cl f e inp h n, reachable s -> reachable s' -> hp s' = h -> fwait_sel (cl_api cl) = true -> incall t cl (trace s) ->
  (exists cs, open_calls t (trace s) = cl :: cs) ->
  runs (catch f e) (hp s) t inp h n -> fmid t cl (trace s) f [FThrow e] ->
  newbot fwait_contract fmid t (add_acts (new_acts t (hp s) h) cl) (tr_of h) (next_frames n).
Proof.
  intros s s' t cl f e inp h n R R' Eh S C Op Ru M. remember [FThrow e] as ab eqn:Eab.
  destruct M as [f g M| | | | | | | | | | | |hh p b x G Ex]; try discriminate Eab.
  - subst g. eapply (smid_catch fwait_sel fwait_contract fmid fR); eauto using fR_mono, fut_exn.
  - destruct Ex as [[Ex _]|Ex]; congruence.
Qed.
Lemma fmid_above : forall s s' t cl f above r h n, reachable s -> reachable s' -> hp s' = h -> fwait_sel (cl_api cl) = true -> incall t cl (trace s) ->
  (exists cs, open_calls t (trace s) = cl :: cs) -> (exists rest, stk s t = above ++ f :: FApi (cl_api cl) :: rest) ->
  (exists es, tr_of h = trace s ++ es) ->
  top_step (hp s) t h n above r -> fmid t cl (trace s) f above ->
  fmid t (add_acts (new_acts t (hp s) h) cl) (tr_of h) f (next_frames n ++ r).
Proof.
  intros s s' t cl f above r h n R R' Eh S C Op ST ES T M.
  destruct M as [f g M| | | | | | | | | | | |hh p b x G Ex]; try solve [inversion T].
  - apply w_sem. eapply smid_above; eauto using fR_mono.
  - destruct Ex as [[-> _]| ->]; [inversion T|]. inversion T as [| |inp f r1 Ru Y|]; subst. code_cases Ru. opinfo A. noisy. (eapply w_get3; [eauto with mono|]). left. split; [reflexivity|]. right. eexists. apply in_new. now left.
Qed.

Theorem fwait_calls : forall s, reachable s ->
  each_return (fun t cl tr r => fwait_sel (cl_api cl) = true -> fwait_contract t cl tr r) (trace s).
Proof.
  apply (res_rule_quiet fwait_sel fwait_contract fmid).
  - intros s t c pre R E S. destruct c; try discriminate S; unfold newbot; cbn [api_frames rev app]; left.
    + now apply w_hwait.
    + now apply w_hwait.
    + now apply w_get.
    + now apply (w_papi _ _ _ o (Some j)).
    + now apply (w_papi _ _ _ o None).
  - intros t cl tr tr' r H (s & x & _ & _ & -> & _). now apply fwait_tr.
  - intros t cl tr tr' f g _ M Q. pose proof Q as (s & x & _ & _ & E & _). subst tr'. apply fmid_tr; auto. intros. eapply smid_quiet; eauto using fR_mono.
  - intros t cl tr l f g C M In. destruct M; try solve [destruct In as (u' & fin & r & E); discriminate E].
    + apply w_sem. eapply smid_inner; eauto using fR_mono.
    + destruct In as (u' & fin & r & E). destruct H1; subst; discriminate E.
    + destruct In as (u' & fin & r & E). destruct H0 as [[-> _]| ->]; discriminate E.
  - apply no_throw. intros t cl tr f above []; try exact I; [eapply smid_user; eauto|destruct H1; subst; exact I].
  - apply fmid_code.
  - apply fmid_catch.
  - apply fmid_above.
  - intros t cl tr r M. remember (FRes r) as f eqn:Ef. remember [] as g eqn:Eg. destruct M; try discriminate.
    + subst. exfalso. eapply smid_res; eauto.
    + destruct H1; subst; discriminate.
Qed.
