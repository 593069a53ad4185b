(** * ApiMutex: mutexes keep their contracts. *)
From Verif Require Import Types Core State Ops Code Machine Base Spec SpecApi SpecWait SpecSync SpecMutex Rules Events InvCtx InvQueue InvStack InvAff InvTop InvSleep
  Calls Contract ContractLib Replay ReplayObj ThmObj Calm ApiWait SemWait ApiSync InvCv InvMutex.

Definition mutex_sel (c : api) : bool := match c with AMLock _ | AMTry _ | AMUnlock _ => true | _ => false end.

Lemma mxh_quiet : forall m t tr tr', quiet t tr tr' -> steady m tr' -> (mx_holder m tr' = Some t <-> mx_holder m tr = Some t).
Proof.
  intros m t tr tr' (s & x & R & E & -> & N) S. rewrite <- E in S.
  pose proof (rel_holder m s R S) as RH. pose proof (lock_events s R) as LE. rewrite E in RH, LE. clear E R S s.
  induction x as [|e x IH] using rev_ind; [now rewrite app_nil_r|].
  rewrite app_assoc in *. pose proof (at_each_end _ _ _ _ RH) as Rh. pose proof (at_each_end _ _ _ _ LE) as Le.
  rewrite <- IH; [|intros e' I; apply N, in_or_app; now left|now apply at_each_app in RH|now apply at_each_app in LE].
  rewrite mxh_snoc. assert (Ne : by_thread t e = false) by (apply N, in_or_app; right; now left).
  destruct e; try reflexivity; (destruct (Nat.eqb_spec m0 m) as [->|]; [|reflexivity]).
  - rewrite Le. unfold by_thread in Ne. cbn in Ne. apply Nat.eqb_neq in Ne. split; congruence.
  - rewrite Rh by auto. unfold by_thread in Ne. cbn in Ne. apply Nat.eqb_neq in Ne. split; congruence.
Qed.

Definition nomx (m : nat) (l : list event) : Prop := forall e, In e l -> on_mx m e = false.
Lemma nomx_app : forall m a b, nomx m a -> nomx m b -> nomx m (a ++ b).
Proof. intros m a b A B e I. apply in_app_iff in I as [I|I]; auto. Qed.
Lemma busy_nomx : forall m e, busy e = false -> on_mx m e = false.
Proof. intros m [] H; try reflexivity; discriminate H. Qed.

(** The thread waits for a mutex that it did not hold before. *)
Definition mxR (t : tid) (cl : call) (tr : list event) (s : semid) (l : option lockid) (dur : option Z) (k : semk) (a0 m0 : list event) : Prop :=
  exists m i, cl_api cl = AMLock m /\ s = SMx m /\ l = None /\ dur = None /\ k = KMx m i /\ nomx m a0 /\
    (steady m tr -> mx_holder m (cl_pre cl) <> Some t).
Lemma mxR_mono : forall t cl tr a x s l dur k a0 m0, mxR t cl tr s l dur k a0 m0 -> mxR t (add_acts a cl) (tr ++ x) s l dur k a0 m0.
Proof.
  intros t cl tr a x s l dur k a0 m0 (m & i & A & B & C & D & F & G & H). exists m, i. repeat (split; auto).
  intros S. apply H. now apply steady_app in S.
Qed.

Definition start_ok (m : nat) (t : tid) (cl : call) (tr : list event) : Prop :=
  nomx m (cl_acts cl) /\ (steady m tr -> mx_holder m (cl_pre cl) = Some t -> cl_acts cl = [] /\ mx_holder m tr = Some t).
Definition un_ok (m : nat) (t : tid) (cl : call) (tr : list event) : Prop :=
  cl_acts cl = [] /\ (steady m tr -> (mx_holder m tr = Some t <-> mx_holder m (cl_pre cl) = Some t)).

Inductive xmid (t : tid) (cl : call) (tr : list event) : frame -> list frame -> Prop :=
| x_sem : forall f g, smid mxR t cl tr f g -> xmid t cl tr f g
| x_lock : forall m, cl_api cl = AMLock m -> start_ok m t cl tr -> xmid t cl tr (FMLock m) []
| x_tas : forall m i, cl_api cl = AMLock m -> start_ok m t cl tr -> xmid t cl tr (FMTas m i) []
| x_ownq : forall m i, cl_api cl = AMLock m -> start_ok m t cl tr -> xmid t cl tr (FMOwnQ m i) []
| x_ownl : forall m i l, cl_api cl = AMLock m -> cl_acts cl = l ++ [EvMxAcq t m] -> nomx m l ->
    (steady m tr -> mx_holder m (cl_pre cl) <> Some t /\ mx_holder m tr = Some t) -> xmid t cl tr (FMOwn m i) []
| x_try : forall m, cl_api cl = AMTry m -> cl_acts cl = [] -> xmid t cl tr (FMTry m) []
| x_try1 : forall m, cl_api cl = AMTry m -> cl_acts cl = [EvMxAcq t m] -> (steady m tr -> mx_holder m tr = Some t) -> xmid t cl tr (FMTry1 m) []
| x_try2 : forall m i, cl_api cl = AMTry m -> cl_acts cl = [EvMxAcq t m] -> (steady m tr -> mx_holder m tr = Some t) -> xmid t cl tr (FRes (RBool true)) [FMOwn m i]
| x_try3 : forall m, cl_api cl = AMTry m -> cl_acts cl = [EvMxAcq t m] -> (steady m tr -> mx_holder m tr = Some t) -> xmid t cl tr (FRes (RBool true)) []
| x_unlock : forall m, cl_api cl = AMUnlock m -> un_ok m t cl tr -> xmid t cl tr (FMUnlock m) []
| x_un1 : forall m i, cl_api cl = AMUnlock m -> un_ok m t cl tr -> xmid t cl tr (FMUn1 m i) []
| x_un23 : forall m f, cl_api cl = AMUnlock m -> cl_acts cl = [] -> (steady m tr -> mx_holder m (cl_pre cl) = Some t) -> f = FMUn2 m \/ f = FMUn3 m -> xmid t cl tr f []
| x_notify : forall m, cl_api cl = AMUnlock m -> cl_acts cl = [EvMxRel t m] -> (steady m tr -> mx_holder m (cl_pre cl) = Some t) -> xmid t cl tr (FNotify (SMx m) true) []
| x_cur : forall m w0 i tk w1 g, cl_api cl = AMUnlock m -> (steady m tr -> mx_holder m (cl_pre cl) = Some t) ->
    begins cl [EvMxRel t m; EvNotify t (SMx m) true (w0 ++ (i, tk) :: w1)] ->
    does cl tr (EvNotify t (SMx m) true (w0 ++ (i, tk) :: w1)) (fun x => (w0 ++ (i, tk) :: w1) = waiters (SMx m) x) ->
    (forall w, In w w0 -> roused t cl tr w) -> In (EvInterrupt t tk) (cl_acts cl) -> i <> invalid_id ->
    g = FDisp i TNop LkDisc \/ g = FInvoke i TNop LkDisc \/ g = FPush i TNop LkDisc ->
    xmid t cl tr (FNotifyL w1) [g]
| x_list : forall m w0 w1 x, cl_api cl = AMUnlock m -> (steady m tr -> mx_holder m (cl_pre cl) = Some t) ->
    begins cl [EvMxRel t m; EvNotify t (SMx m) true (w0 ++ w1)] ->
    does cl tr (EvNotify t (SMx m) true (w0 ++ w1)) (fun x => (w0 ++ w1) = waiters (SMx m) x) ->
    (forall w, In w w0 -> roused t cl tr w) -> calms x = true ->
    xmid t cl tr (FNotifyL w1) x.
#[local] Hint Resolve roused_mono roused_tr : mono.

Lemma st_imp_app : forall m tr l (P : Prop), (steady m tr -> P) -> steady m (tr ++ l) -> P.
Proof. intros m tr l P H S. apply H. now apply steady_app in S. Qed.
Lemma hold_imp_quiet : forall m t tr tr', quiet t tr tr' -> (steady m tr -> mx_holder m tr = Some t) -> steady m tr' -> mx_holder m tr' = Some t.
Proof.
  intros m t tr tr' Q H S. apply (mxh_quiet m t tr tr' Q S). apply H. destruct Q as (s & x & _ & _ & -> & _). now apply steady_app in S.
Qed.
Lemma start_quiet : forall m t cl tr tr', quiet t tr tr' -> start_ok m t cl tr -> start_ok m t cl tr'.
Proof.
  intros m t cl tr tr' Q [A B]. split; auto. intros S H. assert (S0 : steady m tr) by (destruct Q as (s & x & _ & _ & -> & _); now apply steady_app in S).
  destruct (B S0 H). split; auto. now apply (mxh_quiet m t tr tr' Q S).
Qed.
Lemma un_quiet : forall m t cl tr tr', quiet t tr tr' -> un_ok m t cl tr -> un_ok m t cl tr'.
Proof.
  intros m t cl tr tr' Q [A B]. split; auto. intros S. rewrite (mxh_quiet m t tr tr' Q S). apply B. destruct Q as (s & x & _ & _ & -> & _). now apply steady_app in S.
Qed.

Lemma xmid_quiet : forall t cl tr tr' f g, xmid t cl tr f g -> quiet t tr tr' -> xmid t cl tr' f g.
Proof.
  intros t cl tr tr' f g M Q. pose proof Q as (s & x & _ & _ & E & _).
  assert (ST : forall m (P : Prop), (steady m tr -> P) -> steady m tr' -> P) by (intros m P H S; apply H; subst; now apply steady_app in S).
  assert (HH : forall m, (steady m tr -> mx_holder m tr = Some t) -> steady m tr' -> mx_holder m tr' = Some t) by (intros m; now apply hold_imp_quiet).
  destruct M.
  - apply x_sem. eapply smid_quiet; eauto using mxR_mono.
  - apply x_lock; eauto using start_quiet.
  - apply x_tas; eauto using start_quiet.
  - apply x_ownq; eauto using start_quiet.
  - eapply x_ownl; eauto. intros S. split; [apply (ST m); auto; intros S0; now apply H2|]. apply HH; auto. intros S0. now apply H2.
  - now apply x_try.
  - apply x_try1; auto.
  - eapply x_try2; eauto.
  - eapply x_try3; eauto.
  - apply x_unlock; eauto using un_quiet.
  - apply x_un1; eauto using un_quiet.
  - eapply x_un23; eauto; now apply ST.
  - apply x_notify; eauto; now apply ST.
  - assert (SS := ST m _ H0). subst tr'. eapply x_cur; eauto with mono.
  - assert (SS := ST m _ H0). subst tr'. eapply x_list; eauto with mono.
Qed.
Lemma mutex_quiet : forall t cl tr tr' r, mutex_contract t cl tr r -> quiet t tr tr' -> mutex_contract t cl tr' r.
Proof.
  intros t cl tr tr' r H Q. pose proof Q as (s & x & _ & _ & E & _). unfold mutex_contract in *.
  destruct (cl_api cl); auto.
  - intros S. assert (S0 : steady m tr) by (subst; now apply steady_app in S). specialize (H S0).
    destruct H as [(A & B & C & D)|[(A & B & C & D)|H]]; [left|right; left|now right; right]; repeat (split; auto); now apply (mxh_quiet m t tr tr' Q S).
  - destruct H as [(A & B & C)|(A & B & C)]; [left; repeat (split; auto); now apply (hold_imp_quiet m t tr tr')|right; subst; auto with mono].
  - intros S. assert (S0 : steady m tr) by (subst; now apply steady_app in S). specialize (H S0). subst.
    destruct H as [(A & B & ws & C & D & F)|H]; [left|now right]. split; auto. split; auto. exists ws. split; auto. split; auto with mono.
Qed.

Lemma mx_done : forall s t cl sm l dur k a0 m0 i tk f b st, reachable s -> mutex_sel (cl_api cl) = true -> incall t cl (trace s) ->
  mxR t cl (trace s) sm l dur k a0 m0 -> ext m0 (trace s) ->
  cl_acts cl = a0 ++ EvWaiter t sm i tk f :: b ++ [EvUnwaiter t sm i] -> (forall e, In e b -> busy e = false) ->
  sometime cl (trace s) (fun x => my_id t x = i) -> path_ok t l b true -> hold t l m0 (trace s) ->
  reason t cl (trace s) dur m0 tk st -> newbot mutex_contract xmid t cl (trace s) (semresume k st).
Proof.
  intros s t cl sm l dur k a0 m0 i tk f b st R S C (m & i' & Ap & -> & -> & -> & -> & N0 & Np) X Ea N I P Ho Re.
  unfold newbot. destruct st; cbn [semresume rev app]; left; apply x_tas; auto; (split; [|intros Sd H; elim (Np Sd H)]);
    (rewrite Ea; apply nomx_app; auto; intros e [<-|Ie]; [reflexivity|]; apply in_app_iff in Ie as [Ie|[<-|[]]]; [now apply busy_nomx, N|reflexivity]).
Qed.
Lemma mx_exn : forall t cl tr sm l dur k a0 m0 i tk f b c kt l' e, mutex_sel (cl_api cl) = true ->
  mxR t cl tr sm l dur k a0 m0 -> cl_acts cl = a0 ++ EvWaiter t sm i tk f :: b -> (forall e, In e b -> busy e = false) ->
  sometime cl tr (fun x => my_id t x = i) -> path_ok t l b false -> scheds cl = l' ++ [EvStart t c kt; EvAbort t c] -> mutex_contract t cl tr (RExn e).
Proof.
  intros t cl tr sm l dur k a0 m0 i tk f b c kt l' e S (m & i' & Ap & -> & -> & -> & -> & N0 & Np) Ea N I P Sc. unfold mutex_contract. rewrite Ap.
  intros Sd. right. right. exists e, c, kt, l'. repeat (split; auto). rewrite Ea. apply nomx_app; auto. intros e' [<-|Ie]; [reflexivity|]. now apply busy_nomx, N.
Qed.

Lemma xmid_start : forall s t c pre, reachable s -> trace s = pre -> mutex_sel c = true -> newbot mutex_contract xmid t (mkCall c pre []) (pre ++ [EvCall t c]) (api_frames c).
Proof.
  intros s t c pre R E S. destruct c; try discriminate S; unfold newbot; cbn [api_frames rev app]; left.
  - apply x_lock; auto. split; [intros e []|]. intros _ H. split; auto. now rewrite mxh_snoc.
  - now apply x_try.
  - apply x_unlock; auto. split; auto. intros _. now rewrite mxh_snoc.
Qed.
Lemma xmid_user : forall t cl tr f above, xmid t cl tr f above -> match f with FUser _ _ | FThrow _ => False | _ => True end.
Proof. intros t cl tr f above []; try exact I; [eapply smid_user; eauto|destruct H2; subst; exact I]. Qed.

Lemma holder_own : forall m s t f r i, reachable s -> steady m (trace s) -> stk s t = f :: r -> mxf f = Some (m, Some i) -> claims m f = false ->
  (snd (h_mxs (hp s) m) = i <-> mx_holder m (trace s) = Some t).
Proof.
  intros m s t f r i R S E M Cl. destruct (mxinv_reachable m s R S) as (I1 & _ & _).
  assert (At : attached t (trace s) = Some i) by (eapply frame_att; eauto; rewrite E; now left).
  destruct (att_unique s t t i R At At) as [_ Ni]. split.
  - intros <-. destruct (mx_holder m (trace s)) as [u|]; [|congruence]. destruct I1 as [I1|[I1 _]]; [|congruence].
    destruct (att_unique s t u _ R At I1) as [-> _]. reflexivity.
  - intros H. rewrite H in I1. destruct I1 as [I1|[_ I1]]; [congruence|]. rewrite E in I1. cbn in I1. congruence.
Qed.

Lemma xmid_code : forall s s' t cl f inp h n, reachable s -> reachable s' -> hp s' = h -> mutex_sel (cl_api cl) = true -> incall t cl (trace s) ->
  (exists cs, open_calls t (trace s) = cl :: cs) -> (exists rest, stk s t = f :: FApi (cl_api cl) :: rest) ->
  runs (code f) (hp s) t inp h n -> xmid t cl (trace s) f [] ->
  newbot mutex_contract xmid t (add_acts (new_acts t (hp s) h) cl) (tr_of h) (next_frames n).
Proof.
  intros s s' t cl f inp h n R R' Eh S C Op ST Ru M. remember (@nil frame) as ab eqn:Eab.
  destruct M as [f g M|m Ap So|m i Ap So|m i Ap So|m i l Ap Ea Nl Hh|m Ap Ea|m Ap Ea Hh|m i Ap Ea Hh|m Ap Ea Hh|m Ap Uo|m i Ap Uo|m f Ap Ea Hh Ef|m Ap Ea Hh
    |m w0 i tk w1 g Ap Hh Bg Do Wk It Ni Eg|m w0 w1 x Ap Hh Bg Do Wk Cx]; try discriminate Eab.
  - subst g. eapply (smid_code mutex_sel mutex_contract xmid mxR); eauto using mxR_mono, mx_done, x_sem.
  - clear Eh. code_cases Ru. opinfo A. quiet_. unfold newbot. cbn [rev app]. left. now apply x_tas.
  - clear Eh. code_cases Ru. opinfo A. pose proof (replay_mxs m s R) as RP. cbn [atom] in A. destruct (h_mxs (hp s) m) as [fl o] eqn:Em. destruct fl; inversion A; subst; cbn [fst] in RP.
    + quiet_. unfold newbot. cbn [rev app]. left. now apply x_ownq.
    + destruct (mx_holder m (trace s)) eqn:Hm; [discriminate RP|]. noisy. unfold newbot. cbn [rev app]. left. destruct So as [Nl So].
      apply (x_ownl _ _ _ m i (cl_acts cl)); auto. cbn [add_acts cl_pre]. intros Sd. split; [|now rewrite mxh_snoc, Nat.eqb_refl].
      intros Hp. apply steady_app in Sd. destruct (So Sd Hp). congruence.
  - clear Eh. destruct ST as [rest ST]. code_cases Ru. opinfo A. cbn [atom] in A. inversion A; subst. quiet_. destruct (snd (h_mxs (hp s) m) =? i) eqn:Eo.
    + unfold newbot. cbn [rev app]. right. left. split; auto. unfold mutex_contract. rewrite Ap. intros Sd. right. left. split; auto.
      destruct So as [Nx So]. split; [|split; [exact Nx|intros Hp; now apply So]].
      apply (holder_own m s t _ _ i R Sd ST eq_refl eq_refl). now apply Nat.eqb_eq.
    + unfold newbot. cbn [rev app]. left. apply x_sem. eapply sm_alone with (a0 := cl_acts cl) (m0 := trace s).
      * exists m, i. do 5 (split; auto). split; [apply So|]. intros Sd Hp. destruct So as [_ So]. destruct (So Sd Hp) as [_ Hm].
        apply (holder_own m s t _ _ i R Sd ST eq_refl eq_refl) in Hm. apply Nat.eqb_neq in Eo. congruence.
      * exists []. now rewrite app_nil_r.
      * apply p_sem; [reflexivity|intros y Y; discriminate Y].
  - clear Eh. code_cases Ru. opinfo A. quiet_. unfold newbot. cbn [rev app]. unfold mutex_contract. rewrite Ap. intros Sd. left. split; auto.
    destruct (Hh Sd). split; auto. split; auto. now exists l.
  - clear Eh. code_cases Ru. opinfo A. pose proof (replay_mxs m s R) as RP. cbn [atom] in A. destruct (h_mxs (hp s) m) as [fl o] eqn:Em. destruct fl; inversion A; subst; cbn [fst] in RP.
    + quiet_. unfold newbot. cbn [rev app]. right. left. split; auto. unfold mutex_contract. rewrite Ap. right. split; auto. split; auto.
      exists (trace s). split; [eapply moment_now; eauto|]. destruct (mx_holder m (trace s)); [discriminate|discriminate RP].
    + noisy. unfold newbot. cbn [rev app]. left. apply x_try1; auto; [now cbn; rewrite Ea|]. intros _. now rewrite mxh_snoc, Nat.eqb_refl.
  - clear Eh. code_cases Ru. opinfo A. quiet_. unfold newbot. cbn [rev app]. left. eapply x_try2; eauto.
  - contradiction.
  - clear Eh. code_cases Ru. opinfo A. quiet_. unfold newbot. cbn [rev app]. left. now apply x_un1.
  - clear Eh. destruct ST as [rest ST]. code_cases Ru. opinfo A. cbn [atom] in A. inversion A; subst. quiet_. destruct (snd (h_mxs (hp s) m) =? i) eqn:Eo.
    + unfold newbot. cbn [rev app]. left. destruct Uo as [Ea1 Uo]. eapply x_un23; eauto. intros Sd. apply (Uo Sd).
      apply (holder_own m s t _ _ i R Sd ST eq_refl eq_refl). now apply Nat.eqb_eq.
    + unfold newbot. cbn [rev app]. right. left. split; auto. unfold mutex_contract. rewrite Ap. intros Sd. right. split; auto. destruct Uo as [Ea1 Uo]. split; auto.
      intros Hp. apply (Uo Sd) in Hp. apply (holder_own m s t _ _ i R Sd ST eq_refl eq_refl) in Hp. apply Nat.eqb_neq in Eo. congruence.
  - clear Eh. destruct Ef as [->| ->]; code_cases Ru; opinfo A.
    + quiet_. unfold newbot. cbn [rev app]. left. eapply x_un23; eauto.
    + noisy. unfold newbot. cbn [rev app]. left. apply x_notify; auto; [now cbn; rewrite Ea|]. intros S9; eapply st_imp_app; eauto.
  - clear Eh. code_cases Ru. opinfo A. assert (H : x = waiters (SMx m) (trace s)).
    { rewrite <- (replay_sems _ s R). cbn [atom] in A. now injection A as _ <-. }
    noisy. unfold newbot. cbn [rev app]. left. eapply (x_list _ _ _ m [] x []); auto.
    + intros S9; eapply st_imp_app; eauto.
    + apply bg_all. cbn. now rewrite Ea.
    + eapply do_now; eauto.
    + intros w [].
  - subst x. clear Eh. code_cases Ru; opinfo A.
    + quiet_. unfold newbot. cbn [rev app]. unfold mutex_contract. rewrite app_nil_r in *. rewrite Ap. intros Sd. left. split; auto. split; auto. now exists w0.
    + quiet_. unfold newbot. cbn [rev app]. left. eapply (x_list _ _ _ m (w0 ++ [(i, n0)]) l []); auto.
      * now rewrite <- app_assoc.
      * now rewrite <- app_assoc.
      * intros w I. apply in_app_iff in I as [I|[<-|[]]]; auto. intros N. elim N. cbn. now apply Nat.eqb_eq.
    + noisy. unfold newbot. cbn [rev app]. left. eapply (x_cur _ _ _ m w0 i n0 l); eauto with mono; try (intros S9; eapply st_imp_app; eauto; fail).
      * apply in_new. now left.
      * now apply Nat.eqb_neq.
Qed.
Lemma xmid_catch : forall s s' t cl f e inp h n, reachable s -> reachable s' -> hp s' = h -> mutex_sel (cl_api cl) = true -> incall t cl (trace s) ->
  (exists cs, open_calls t (trace s) = cl :: cs) ->
  runs (catch f e) (hp s) t inp h n -> xmid t cl (trace s) f [FThrow e] ->
  newbot mutex_contract xmid t (add_acts (new_acts t (hp s) h) cl) (tr_of h) (next_frames n).
Proof.
  intros s s' t cl f e inp h n R R' Eh S C Op Ru M. remember [FThrow e] as ab eqn:Eab.
  destruct M as [f g M|m Ap So|m i Ap So|m i Ap So|m i l Ap Ea Nl Hh|m Ap Ea|m Ap Ea Hh|m i Ap Ea Hh|m Ap Ea Hh|m Ap Uo|m i Ap Uo|m f Ap Ea Hh Ef|m Ap Ea Hh
    |m w0 i tk w1 g Ap Hh Bg Do Wk It Ni Eg|m w0 w1 x Ap Hh Bg Do Wk Cx]; try discriminate Eab.
  - subst g. eapply (smid_catch mutex_sel mutex_contract xmid mxR); eauto using mxR_mono, mx_exn.
  - code_cases Ru. discriminate A.
  - code_cases Ru. discriminate A.
Qed.
Lemma xmid_above : forall s s' t cl f above r h n, reachable s -> reachable s' -> hp s' = h -> mutex_sel (cl_api cl) = true -> incall t cl (trace s) ->
  (exists cs, open_calls t (trace s) = cl :: cs) -> (exists rest, stk s t = above ++ f :: FApi (cl_api cl) :: rest) ->
  (exists es, tr_of h = trace s ++ es) ->
  top_step (hp s) t h n above r -> xmid t cl (trace s) f above ->
  xmid t (add_acts (new_acts t (hp s) h) cl) (tr_of h) f (next_frames n ++ r).
Proof.
  intros s s' t cl f above r h n R R' Eh S C Op ST ES T M.
  destruct M as [f g M|m Ap So|m i Ap So|m i Ap So|m i l Ap Ea Nl Hh|m Ap Ea|m Ap Ea Hh|m i Ap Ea Hh|m Ap Ea Hh|m Ap Uo|m i Ap Uo|m f Ap Ea Hh Ef|m Ap Ea Hh
    |m w0 i tk w1 g Ap Hh Bg Do Wk It Ni Eg|m w0 w1 x Ap Hh Bg Do Wk Cx]; try solve [inversion T].
  - apply x_sem. eapply smid_above; eauto using mxR_mono.
  - clear Eh. inversion T as [| |inp f r1 Ru Y|]; subst. code_cases Ru. opinfo A. quiet_. cbn [app]. eapply x_try3; eauto.
  - clear Eh.
    assert (FIN : forall a l x, calms x = true -> (In (EvAccept t i TNop) a \/ sometime (add_acts a cl) (trace s ++ l) (unknown i) \/ sometime (add_acts a cl) (trace s ++ l) (fun m => my_id t m = i)) ->
       xmid t (add_acts a cl) (trace s ++ l) (FNotifyL w1) x).
    { intros a l x Cx H. eapply (x_list _ _ _ m (w0 ++ [(i, tk)]) w1 x); auto; try (rewrite <- app_assoc; cbn [app]; eauto with mono; fail).
      - intros S9; eapply st_imp_app; eauto.
      - intros w I. apply in_app_iff in I as [I|[<-|[]]]; auto with mono. intros _. cbn [fst snd]. split; auto with mono.
        destruct H as [H|H]; auto. left. now apply in_new. }
    destruct Eg as [->|[->| ->]]; inversion T as [| |inp f r1 Ru Y|]; subst; rewrite app_nil_r; code_cases Ru; opinfo A.
    + quiet_. assert (X : my_id t (trace s) = x) by (rewrite <- (rd_myid s R); cbn [atom] in A; brki A; try discriminate A; now injection A as _ <-).
      destruct (Nat.eqb_spec x i) as [Xi|Xi].
      * specialize (FIN [] [] [FRun TNop; FDrop TNop]). rewrite add_acts_nil, app_nil_r in FIN. apply FIN; [reflexivity|].
        right. right. exists (trace s). split; [eapply moment_now; eauto|congruence].
      * eapply x_cur; eauto.
    + cbn [task_null orb] in Heqb. elim Ni. now apply Nat.eqb_eq.
    + assert (X : x = mem i (h_regd (hp s))) by (cbn [atom] in A; destruct (mem i (h_regd (hp s))); now injection A as _ <-).
      quiet_. destruct x.
      * eapply x_cur; eauto.
      * specialize (FIN [] [] (lresume LkDisc false (Some TNop))). rewrite add_acts_nil, app_nil_r in FIN. apply FIN; [reflexivity|].
        right. left. exists (trace s). split; [eapply moment_now; eauto|]. now apply (rd_unknown s R).
    + noisy. apply FIN; [reflexivity|]. left. now left.
  - pose proof ES as (es & Et). rewrite Et. destruct x as [|g x]; [inversion T|].
    destruct (calm_top _ _ _ _ _ _ T Cx) as [C1 C2]. eapply x_list; eauto with mono; try (intros S9; eapply st_imp_app; eauto; fail).
Qed.

Theorem mutex_calls : forall s, reachable s ->
  each_return (fun t cl tr r => mutex_sel (cl_api cl) = true -> mutex_contract t cl tr r) (trace s).
Proof.
  apply (res_rule_quiet mutex_sel mutex_contract xmid).
  - apply xmid_start.
  - apply mutex_quiet.
  - intros t cl tr tr' f g _ M Q. eapply xmid_quiet; eauto.
  - intros t cl tr l f g C M In. destruct M; try solve [destruct In as (u & fin & r & E); discriminate E].
    + apply x_sem. eapply smid_inner; eauto using mxR_mono.
    + destruct In as (u & fin & r & E). destruct H2; subst; discriminate E.
    + destruct In as (u & fin & r & E). destruct H6 as [->|[->| ->]]; discriminate E.
    + eapply x_list; eauto with mono; try (intros S9; eapply st_imp_app; eauto; fail).
  - apply no_throw. apply xmid_user.
  - apply xmid_code.
  - apply xmid_catch.
  - apply xmid_above.
  - intros t cl tr r M. remember (FRes r) as f eqn:Ef. remember [] as g eqn:Eg. destruct M; try discriminate.
    + subst. exfalso. eapply smid_res; eauto.
    + injection Ef as <-. unfold mutex_contract. rewrite H. left. auto.
    + destruct H2; subst; discriminate.
Qed.
