(** * ApiSync: condition variables and user locks keep their contracts. *)
From Verif Require Import Types Core State Ops Code Machine Base Spec SpecApi SpecWait SpecSync Rules Events InvCtx InvQueue InvStack InvAff InvTop InvSleep
  Calls Contract ContractLib Replay ReplayObj ThmObj Calm ApiWait SemWait.

Definition sync_sel (c : api) : bool :=
  match c with
  | ACvWait _ _ | ACvWaitFor _ _ _ | ACvNotifyOne _ | ACvNotifyAll _ | AULock _ | AUUnlock _ => true
  | _ => false
  end.
Definition cvR (t : tid) (cl : call) (tr : list event) (s : semid) (l : option lockid) (dur : option Z) (k : semk) (a0 m0 : list event) : Prop :=
  a0 = [] /\ m0 = cl_pre cl ++ [EvCall t (cl_api cl)] /\
  match cl_api cl with
  | ACvWait c m => s = SCv c /\ l = Some (LUser m) /\ dur = None /\ k = KCv
  | ACvWaitFor c m d => s = SCv c /\ l = Some (LUser m) /\ dur = Some d /\ k = KCvFor
  | _ => False
  end.
Definition ncall (cl : call) (c : nat) (all : bool) : Prop := cl_api cl = if all then ACvNotifyAll c else ACvNotifyOne c.

Inductive ymid (t : tid) (cl : call) (tr : list event) : frame -> list frame -> Prop :=
| y_sem : forall f g, smid cvR t cl tr f g -> ymid t cl tr f g
| y_lock : forall m, cl_api cl = AULock m -> cl_acts cl = [] -> ymid t cl tr (FULock m) []
| y_unlock : forall m, cl_api cl = AUUnlock m -> cl_acts cl = [] -> ymid t cl tr (FUUnlock m) []
| y_notify : forall c all, ncall cl c all -> cl_acts cl = [] -> ymid t cl tr (FNotify (SCv c) all) []
| y_cur : forall c all w0 i tk w1 g, ncall cl c all ->
    begins cl [EvNotify t (SCv c) all (w0 ++ (i, tk) :: w1)] ->
    does cl tr (EvNotify t (SCv c) all (w0 ++ (i, tk) :: w1)) (fun m => (w0 ++ (i, tk) :: w1) = if all then waiters (SCv c) m else firstn 1 (waiters (SCv c) m)) ->
    (forall w, In w w0 -> roused t cl tr w) -> In (EvInterrupt t tk) (cl_acts cl) -> i <> invalid_id ->
    g = FDisp i TNop LkDisc \/ g = FInvoke i TNop LkDisc \/ g = FPush i TNop LkDisc ->
    ymid t cl tr (FNotifyL w1) [g]
| y_list : forall c all w0 w1 x, ncall cl c all ->
    begins cl [EvNotify t (SCv c) all (w0 ++ w1)] ->
    does cl tr (EvNotify t (SCv c) all (w0 ++ w1)) (fun m => (w0 ++ w1) = if all then waiters (SCv c) m else firstn 1 (waiters (SCv c) m)) ->
    (forall w, In w w0 -> roused t cl tr w) -> calms x = true ->
    ymid t cl tr (FNotifyL w1) x.

Lemma roused_mono : forall t cl tr a l w, roused t cl tr w -> roused t (add_acts a cl) (tr ++ l) w.
Proof.
  intros t cl tr a l w H N. destruct (H N) as [A B]. split; auto with mono. destruct B as [B|[B|B]]; auto with mono.
Qed.
Lemma roused_tr : forall t cl tr l w, roused t cl tr w -> roused t cl (tr ++ l) w.
Proof. intros t cl tr l w H. apply (roused_mono t cl tr []) with (l := l) in H. now rewrite add_acts_nil in H. Qed.
#[local] Hint Resolve roused_mono roused_tr : mono.
Lemma cvR_mono : forall t cl tr a x s l dur k a0 m0, cvR t cl tr s l dur k a0 m0 -> cvR t (add_acts a cl) (tr ++ x) s l dur k a0 m0.
Proof. intros. exact H. Qed.

Lemma ymid_tr : forall t cl tr l f g, (forall f g, smid cvR t cl tr f g -> smid cvR t cl (tr ++ l) f g) -> ymid t cl tr f g -> ymid t cl (tr ++ l) f g.
Proof.
  intros t cl tr l f g S H. destruct H.
  - apply y_sem. auto.
  - now apply y_lock.
  - now apply y_unlock.
  - now apply y_notify.
  - eapply y_cur; eauto with mono.
  - eapply y_list; eauto with mono.
Qed.
Lemma cv_tr : forall t c m lim cl tr tr' r, quiet t tr tr' -> cv_spec t c m lim cl tr r -> cv_spec t c m lim cl tr' r.
Proof.
  intros t c m lim cl tr tr' r Q (i & tk & f & l & I & N & H). pose proof Q as (s & x & _ & _ & E & _). exists i, tk, f, l.
  split; [subst; auto with mono|]. split; auto. destruct H as [(lt & A & B & C & D & F)|H]; [left|now right].
  exists lt. repeat (split; auto).
  - intros X. eapply holder_quiet; eauto.
  - subst. destruct lt; [destruct F as (d & F & G); exists d; auto with mono|destruct F; auto with mono].
Qed.
Lemma notify_tr : forall t c all cl tr l r, notify_spec t c all cl tr r -> notify_spec t c all cl (tr ++ l) r.
Proof. intros t c all cl tr l r (A & ws & B & C & D). split; auto. exists ws. split; auto. split; auto with mono. Qed.
Lemma sync_tr : forall t cl tr tr' r, sync_contract t cl tr r -> quiet t tr tr' -> sync_contract t cl tr' r.
Proof.
  intros t cl tr tr' r H Q. pose proof Q as (s & x & _ & _ & E & _). unfold sync_contract in *.
  destruct (cl_api cl); auto; try solve [eapply cv_tr; eauto]; try solve [subst; now apply notify_tr].
  - destruct H as (A & B & C). repeat (split; auto). eapply holder_quiet; eauto.
  - destruct H as (A & B & C). subst. auto with mono.
Qed.

Lemma m0_clock : forall t cl, clock (cl_pre cl ++ [EvCall t (cl_api cl)]) = clock (cl_pre cl).
Proof. intros. rewrite clock_snoc'. lia. Qed.
Lemma m0_holder : forall t cl l, lock_holder l (cl_pre cl ++ [EvCall t (cl_api cl)]) = lock_holder l (cl_pre cl).
Proof. intros. now rewrite holder_snoc. Qed.

Lemma cv_done : forall s t cl sm l dur k a0 m0 i tk f b st, reachable s -> sync_sel (cl_api cl) = true -> incall t cl (trace s) ->
  cvR t cl (trace s) sm l dur k a0 m0 -> ext m0 (trace s) ->
  cl_acts cl = a0 ++ EvWaiter t sm i tk f :: b ++ [EvUnwaiter t sm i] -> (forall e, In e b -> busy e = false) ->
  sometime cl (trace s) (fun x => my_id t x = i) -> path_ok t l b true -> hold t l m0 (trace s) ->
  reason t cl (trace s) dur m0 tk st -> newbot sync_contract ymid t cl (trace s) (semresume k st).
Proof.
  intros s t cl sm l dur k a0 m0 i tk f b st R S C HR X Ea N I P Ho Re.
  assert (K : forall c m, sm = SCv c -> l = Some (LUser m) -> a0 = [] -> m0 = cl_pre cl ++ [EvCall t (cl_api cl)] ->
    cv_spec t c m dur cl (trace s) (wait_res dur st)).
  { intros c m -> -> -> ->. exists i, tk, f, b. split; auto. split; [auto using busy_waiting|]. left. exists st. split; auto. split; auto. split; [exact P|]. split.
    - intros Y. apply (Ho _ eq_refl). now rewrite m0_holder.
    - unfold reason, late in Re. now rewrite m0_clock in Re. }
  destruct HR as (-> & -> & HR). unfold sync_contract, newbot.
  destruct (cl_api cl) eqn:Ap; try contradiction; destruct HR as (-> & -> & -> & ->); specialize (K _ _ eq_refl eq_refl eq_refl eq_refl); cbn [semresume rev app].
  - unfold reason in Re. destruct st; [destruct Re as (d & X' & _); discriminate X'|]. exact K.
  - right. left. split; auto. rewrite Ap. exact K.
Qed.
Lemma cv_exn : forall t cl tr sm l dur k a0 m0 i tk f b c kt l' e, sync_sel (cl_api cl) = true ->
  cvR t cl tr sm l dur k a0 m0 -> cl_acts cl = a0 ++ EvWaiter t sm i tk f :: b -> (forall e, In e b -> busy e = false) ->
  sometime cl tr (fun x => my_id t x = i) -> path_ok t l b false -> scheds cl = l' ++ [EvStart t c kt; EvAbort t c] -> sync_contract t cl tr (RExn e).
Proof.
  intros t cl tr sm l dur k a0 m0 i tk f b c kt l' e S HR Ea N I P Sc. destruct HR as (-> & -> & HR). unfold sync_contract.
  destruct (cl_api cl) eqn:Ap; try contradiction; destruct HR as (-> & -> & -> & ->); exists i, tk, f, b; (split; auto; split; [auto using busy_waiting|]; right; eauto 10).
Qed.

Lemma ymid_start : forall s t c pre, reachable s -> trace s = pre -> sync_sel c = true -> newbot sync_contract ymid t (mkCall c pre []) (pre ++ [EvCall t c]) (api_frames c).
Proof.
  intros s t c pre R E S. destruct c; try discriminate S; unfold newbot; cbn [api_frames rev app]; left.
  - now apply y_lock.
  - now apply y_unlock.
  - apply y_sem. eapply sm_alone with (a0 := []) (m0 := pre ++ [EvCall t (ACvWait c m)]).
    + split; auto. split; auto. cbn. auto.
    + exists []. now rewrite app_nil_r.
    + apply p_sem; [reflexivity|]. intros x _ H. exact H.
  - apply y_sem. eapply sm_alone with (a0 := []) (m0 := pre ++ [EvCall t (ACvWaitFor c m d)]).
    + split; auto. split; auto. cbn. auto.
    + exists []. now rewrite app_nil_r.
    + apply p_sem; [reflexivity|]. intros x _ H. exact H.
  - now apply y_notify.
  - now apply y_notify.
Qed.
Lemma ymid_user : forall t cl tr f above, ymid t cl tr f above -> match f with FUser _ _ | FThrow _ => False | _ => True end.
Proof. intros t cl tr f above []; try exact I. eapply smid_user; eauto. Qed.

Lemma ymid_code : forall s s' t cl f inp h n, reachable s -> reachable s' -> hp s' = h -> sync_sel (cl_api cl) = true -> incall t cl (trace s) ->
  (exists cs, open_calls t (trace s) = cl :: cs) -> (exists rest, stk s t = f :: FApi (cl_api cl) :: rest) ->
  runs (code f) (hp s) t inp h n -> ymid t cl (trace s) f [] ->
  newbot sync_contract ymid t (add_acts (new_acts t (hp s) h) cl) (tr_of h) (next_frames n).
Proof.
  intros s s' t cl f inp h n R R' Eh S C Op ST Ru M. remember (@nil frame) as ab eqn:Eab.
  destruct M as [f g M|m Ap Ea|m Ap Ea|c all Ap Ea|c all w0 i tk w1 g Ap Bg Do Wk It Ni Eg|c all w0 w1 x Ap Bg Do Wk Cx]; try discriminate Eab.
  - subst g. eapply (smid_code sync_sel sync_contract ymid cvR); eauto using cvR_mono, cv_done, y_sem.
  - clear Eh. code_cases Ru. opinfo A. noisy. unfold newbot, sync_contract. cbn [rev app add_acts cl_api cl_acts]. rewrite Ap. split; auto. split; [now rewrite Ea|].
    now rewrite holder_snoc, lock_eqb_refl.
  - clear Eh. code_cases Ru. opinfo A. assert (H : lock_holder (LUser m) (trace s) = Some t).
    { rewrite <- (replay_locks _ s R). cbn [atom] in A. destruct (h_locks (hp s) (LUser m)); [|discriminate A].
      destruct (Nat.eqb_spec t0 t); [congruence|discriminate A]. }
    noisy. unfold newbot, sync_contract. cbn [rev app add_acts cl_api cl_acts]. rewrite Ap. split; auto. split; [now rewrite Ea|].
    eapply st_now; eauto.
  - clear Eh. code_cases Ru. opinfo A. assert (H : x = if all then waiters (SCv c) (trace s) else firstn 1 (waiters (SCv c) (trace s))).
    { rewrite <- (replay_sems _ s R). cbn [atom] in A. now injection A as _ <-. }
    noisy. unfold newbot. cbn [rev app]. left. eapply (y_list _ _ _ c all [] x []); auto.
    + apply bg_all. cbn. now rewrite Ea.
    + eapply do_now; eauto.
    + intros w [].
  - subst x. clear Eh. code_cases Ru; opinfo A.
    + quiet_. unfold newbot. cbn [rev app]. unfold sync_contract. rewrite app_nil_r in *. unfold ncall in Ap. rewrite Ap.
      destruct all; (split; auto; exists w0; auto).
    + quiet_. unfold newbot. cbn [rev app]. left. eapply (y_list _ _ _ c all (w0 ++ [(i, n0)]) l []); auto.
      * now rewrite <- app_assoc.
      * now rewrite <- app_assoc.
      * intros w I. apply in_app_iff in I as [I|[<-|[]]]; auto. intros N. elim N. cbn. now apply Nat.eqb_eq.
    + noisy. unfold newbot. cbn [rev app]. left. eapply (y_cur _ _ _ c all w0 i n0 l); eauto with mono.
      * apply in_new. now left.
      * now apply Nat.eqb_neq.
Qed.
Lemma ymid_catch : forall s s' t cl f e inp h n, reachable s -> reachable s' -> hp s' = h -> sync_sel (cl_api cl) = true -> incall t cl (trace s) ->
  (exists cs, open_calls t (trace s) = cl :: cs) ->
  runs (catch f e) (hp s) t inp h n -> ymid t cl (trace s) f [FThrow e] ->
  newbot sync_contract ymid t (add_acts (new_acts t (hp s) h) cl) (tr_of h) (next_frames n).
Proof.
  intros s s' t cl f e inp h n R R' Eh S C Op Ru M. remember [FThrow e] as ab eqn:Eab.
  destruct M as [f g M|m Ap Ea|m Ap Ea|c all Ap Ea|c all w0 i tk w1 g Ap Bg Do Wk It Ni Eg|c all w0 w1 x Ap Bg Do Wk Cx]; try discriminate Eab.
  - subst g. eapply (smid_catch sync_sel sync_contract ymid cvR); eauto using cvR_mono, cv_exn.
  - code_cases Ru. discriminate A.
  - code_cases Ru. discriminate A.
Qed.
Lemma ymid_above : forall s s' t cl f above r h n, reachable s -> reachable s' -> hp s' = h -> sync_sel (cl_api cl) = true -> incall t cl (trace s) ->
  (exists cs, open_calls t (trace s) = cl :: cs) -> (exists rest, stk s t = above ++ f :: FApi (cl_api cl) :: rest) ->
  (exists es, tr_of h = trace s ++ es) ->
  top_step (hp s) t h n above r -> ymid t cl (trace s) f above ->
  ymid t (add_acts (new_acts t (hp s) h) cl) (tr_of h) f (next_frames n ++ r).
Proof.
  intros s s' t cl f above r h n R R' Eh S C Op ST ES T M.
  destruct M as [f g M|m Ap Ea|m Ap Ea|c all Ap Ea|c all w0 i tk w1 g Ap Bg Do Wk It Ni Eg|c all w0 w1 x Ap Bg Do Wk Cx]; try solve [inversion T].
  - apply y_sem. eapply smid_above; eauto using cvR_mono.
  - clear Eh.
    assert (FIN : forall a l x, calms x = true -> (In (EvAccept t i TNop) a \/ sometime (add_acts a cl) (trace s ++ l) (unknown i) \/ sometime (add_acts a cl) (trace s ++ l) (fun m => my_id t m = i)) ->
       ymid t (add_acts a cl) (trace s ++ l) (FNotifyL w1) x).
    { intros a l x Cx H. eapply (y_list _ _ _ c all (w0 ++ [(i, tk)]) w1 x); auto; try (rewrite <- app_assoc; cbn [app]; eauto with mono; fail).
      intros w I. apply in_app_iff in I as [I|[<-|[]]]; auto with mono. intros _. cbn [fst snd]. split; auto with mono.
      destruct H as [H|H]; auto. left. now apply in_new. }
    destruct Eg as [->|[->| ->]]; inversion T as [| |inp f r1 Ru Y|]; subst; rewrite app_nil_r; code_cases Ru; opinfo A.
    + quiet_. assert (X : my_id t (trace s) = x) by (rewrite <- (rd_myid s R); cbn [atom] in A; brki A; try discriminate A; now injection A as _ <-).
      destruct (Nat.eqb_spec x i) as [Xi|Xi].
      * specialize (FIN [] [] [FRun TNop; FDrop TNop]). rewrite add_acts_nil, app_nil_r in FIN. apply FIN; [reflexivity|].
        right. right. exists (trace s). split; [eapply moment_now; eauto|congruence].
      * eapply y_cur; eauto.
    + cbn [task_null orb] in Heqb. elim Ni. now apply Nat.eqb_eq.
    + assert (X : x = mem i (h_regd (hp s))) by (cbn [atom] in A; destruct (mem i (h_regd (hp s))); now injection A as _ <-).
      quiet_. destruct x.
      * eapply y_cur; eauto.
      * specialize (FIN [] [] (lresume LkDisc false (Some TNop))). rewrite add_acts_nil, app_nil_r in FIN. apply FIN; [reflexivity|].
        right. left. exists (trace s). split; [eapply moment_now; eauto|]. now apply (rd_unknown s R).
    + noisy. apply FIN; [reflexivity|]. left. now left.
  - pose proof ES as (es & Et). rewrite Et. destruct x as [|g x]; [inversion T|]. 
    destruct (calm_top _ _ _ _ _ _ T Cx) as [C1 C2]. eapply y_list; eauto with mono.
Qed.

Theorem sync_calls : forall s, reachable s ->
  each_return (fun t cl tr r => sync_sel (cl_api cl) = true -> sync_contract t cl tr r) (trace s).
Proof.
  apply (res_rule_quiet sync_sel sync_contract ymid).
  - apply ymid_start.
  - apply sync_tr.
  - intros t cl tr tr' f g _ M Q. pose proof Q as (s & l & _ & _ & E & _). rewrite E. apply ymid_tr; [|exact M].
    intros. rewrite <- E. eapply smid_quiet; eauto using cvR_mono.
  - intros t cl tr l f g C M I. destruct M.
    + apply y_sem. eapply smid_inner; eauto using cvR_mono.
    + now apply y_lock.
    + now apply y_unlock.
    + now apply y_notify.
    + eapply y_cur; eauto with mono.
    + eapply y_list; eauto with mono.
  - apply no_throw. apply ymid_user.
  - apply ymid_code.
  - apply ymid_catch.
  - apply ymid_above.
  - intros t cl tr r M. inversion M; subst. exfalso. eapply smid_res; eauto.
Qed.
