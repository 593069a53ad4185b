(** * ThmLaunch: async and then, and invalid futures, in the words of the properties. *)
From Verif Require Import Types Core State Ops Code Machine Base Spec SpecApi SpecWait SpecFut SpecObj SpecLaunch Calls Contract ContractLib ReplayObj ThmObj
  ReplayFut ApiFut ApiObj ApiLaunch.
From Verif Require ThmSync ThmFut ThmCalls.

Theorem launch_calls' : forall s, reachable s ->
  each_return (fun t cl tr r => match cl_api cl with
    | AAsync i pol v u caps => async_spec t i pol v u caps [] cl tr r
    | AAsyncNew pol v u caps => exists i pre, worker t i pre /\ async_spec t i pol v u caps pre cl tr r
    | AFThen h i pol v u caps => then_spec t h i pol v u caps [] cl tr r
    | AFThenNew h pol v u caps => exists i pre, worker t i pre /\ then_spec t h i pol v u caps pre cl tr r
    | _ => True end) (trace s).
Proof.
  intros s R. eapply ThmSync.each_mono; [|apply launch_calls; exact R]. unfold launch_contract, launch_sel.
  intros t cl x r H. destruct (cl_api cl); auto.
Qed.

Lemma none_stays : forall s h m x b, reachable s -> trace s = (m ++ x) ++ b -> fut_made h m -> snd (fut_of h m) = None -> snd (fut_of h (m ++ x)) = None.
Proof.
  intros s h m x b R E U N. pose proof (hnd_events s R) as HE. rewrite E in HE. clear E R s. revert b HE.
  induction x as [|e x IH] using rev_ind; intros b HE; [now rewrite app_nil_r|].
  assert (Eq : (m ++ x ++ [e]) ++ b = (m ++ x) ++ e :: b) by (rewrite <- !app_assoc; reflexivity). rewrite Eq in HE.
  assert (K : snd (fut_of h (m ++ x)) = None) by (apply (IH (e :: b)); exact HE).
  rewrite app_assoc, fut_snoc. destruct e; auto. destruct (Nat.eqb_spec n h); auto. subst. cbn [snd].
  destruct (HE _ _ _ eq_refl) as [->|[->|Nu]]; auto. elim Nu. now apply hnd_used_app.
Qed.
Lemma kind_stays : forall s h m x b, reachable s -> trace s = (m ++ x) ++ b -> fut_made h m -> fst (fut_of h (m ++ x)) = fst (fut_of h m).
Proof.
  intros s h m x b R E U. pose proof (hnd_kinds s R) as HE. rewrite E in HE. clear E R s. revert b HE.
  induction x as [|e x IH] using rev_ind; intros b HE; [now rewrite app_nil_r|].
  assert (Eq : (m ++ x ++ [e]) ++ b = (m ++ x) ++ e :: b) by (rewrite <- !app_assoc; reflexivity). rewrite Eq in HE.
  assert (K : fst (fut_of h (m ++ x)) = fst (fut_of h m)) by (apply (IH (e :: b)); exact HE).
  rewrite app_assoc, fut_snoc. destruct e; auto. destruct (Nat.eqb_spec n h); auto. subst. cbn [fst].
  rewrite (HE _ _ _ eq_refl); auto. now apply hnd_used_app.
Qed.
(** What a call does is in the history after its start. *)
Lemma acts_in : forall t l cl, In cl (calls_r t l) -> exists w, rev l = cl_pre cl ++ w /\ incl (cl_acts cl) w.
Proof.
  intros t l. induction l as [|e l IH]; intros cl I; [destruct I|]. cbn [rev].
  assert (K : forall cl, In cl (calls_r t l) -> exists w, rev l ++ [e] = cl_pre cl ++ w /\ incl (cl_acts cl) w).
  { intros c H. destruct (IH c H) as (w & -> & J). exists (w ++ [e]). split; [now rewrite <- app_assoc|]. now apply incl_appl. }
  assert (A : forall cl, In cl (add_act e (calls_r t l)) -> exists w, rev l ++ [e] = cl_pre cl ++ w /\ incl (cl_acts cl) w).
  { intros c H. destruct (calls_r t l) as [|c0 cs]; [destruct H|]. destruct H as [<-|H]; [|apply K; now right]. cbn [cl_pre cl_acts].
    destruct (IH c0 (or_introl eq_refl)) as (w & -> & J). exists (w ++ [e]). split; [now rewrite <- app_assoc|].
    apply incl_app; [now apply incl_appl|apply incl_appr, incl_refl]. }
  assert (D : e = e) by reflexivity.
  cbn [calls_r] in I. destruct e; cbv beta iota in I;
    repeat match type of I with context [if ?b then _ else _] => destruct b end; auto; try destruct I as [<-|I]; auto; try contradiction.
  - exists [EvCall t0 c]. split; [reflexivity|]. intros x [].
  - apply K. destruct (calls_r t l); [destruct I|now right].
Qed.

(** Every operation on a future object that is invalid when it is called. *)
Theorem invalid_rejected : forall s, reachable s ->
  each_return (fun t cl tr r => forall h, fut_made h (cl_pre cl) -> snd (fut_of h (cl_pre cl)) = None ->
    match cl_api cl with
    | AFValid h' => h' = h -> r = RBool false /\ cl_acts cl = []
    | AFReady h' | AFHasError h' | AFWait h' | AFWaitFor h' _ | AFGet h' => h' = h -> r = RExn XNoState /\ cl_acts cl = []
    | AFThen h' _ _ _ u caps => h' = h -> r = RExn XNoState /\ drops (TUser u caps) cl [EvDrop t (TUser u caps)]
    | AFShare h' => h' = h -> exists n, r = RHnd n /\ cl_acts cl = [EvHnd t h false None; EvHnd t n true None]
    | AFCopy h' => h' = h -> exists n, r = RHnd n /\ cl_acts cl = [EvHnd t n true None]
    | _ => True
    end) (trace s).
Proof.
  intros s R a e b E. pose proof (obj_calls s R a e b E) as Ho. pose proof (fwait_calls s R a e b E) as Hw. pose proof (launch_calls s R a e b E) as Hl.
  destruct e; auto. destruct Ho as (cl & rest & Op & Ap & Ho). destruct Hw as (cl2 & rest2 & Op2 & _ & Hw). destruct Hl as (cl3 & rest3 & Op3 & _ & Hl).
  rewrite Op in Op2, Op3. injection Op2 as <- <-. injection Op3 as <- <-.
  exists cl, rest. split; auto. split; auto. intros h U N.
  assert (NN : forall m, moment cl a m -> snd (fut_of h m) = None).
  { intros m (x & y & -> & Ea). eapply none_stays with (b := y ++ EvRet t c r :: b); eauto. rewrite E, Ea. now rewrite <- app_assoc. }
  assert (NR : forall p, ~ refers h p cl a) by (intros p (m & M & F); rewrite (NN m M) in F; discriminate F).
  unfold obj_contract, fwait_contract, launch_contract in *. destruct (cl_api cl); cbn in Ho, Hw, Hl; auto; intros ->;
    try specialize (Ho eq_refl); try specialize (Hw eq_refl); try specialize (Hl eq_refl).
  - destruct Ho as [A (m & cs & M & O & F)]. rewrite (NN m M) in F. auto.
  - destruct Ho as [(A & B & _)|(p & _ & Rf & _)]; auto. now elim (NR p).
  - destruct Ho as [(A & B & _)|(p & _ & Rf & _)]; auto. now elim (NR p).
  - destruct Hw as [(A & B & _)|(p & Rf & _)]; auto. now elim (NR p).
  - destruct Hw as [(A & B & _)|(p & Rf & _)]; auto. now elim (NR p).
  - destruct Hw as [(A & B & _)|(p & Rf & _)]; auto. now elim (NR p).
  - destruct Ho as (n & x & A & B & (_ & m & M & F)). exists n. apply happens_moment in M. apply NN in M. rewrite F in M. cbn in M. subst x. auto.
  - destruct Ho as (n & x & A & B & (m & M & F)). exists n. apply NN in M. rewrite F in M. cbn in M. subst x. auto.
  - destruct Hl as [(A & _ & B)|(p & sh & q & (m & M & F) & _)]; auto. apply NN in M. rewrite F in M. discriminate M.
Qed.

(** get, then and share leave a unique future invalid. *)
Theorem consumed : forall s, reachable s ->
  each_return (fun t cl tr r => forall h, fut_made h (cl_pre cl) -> fst (fut_of h (cl_pre cl)) = false ->
    match cl_api cl with
    | AFGet h' => h' = h -> threw t cl r \/ snd (fut_of h tr) = None
    | AFThen h' _ _ _ _ _ | AFThenNew h' _ _ _ _ | AFShare h' | AFMove h' => h' = h -> snd (fut_of h tr) = None
    | _ => True
    end) (trace s).
Proof.
  intros s R a e b E. pose proof (obj_calls s R a e b E) as Ho. pose proof (fwait_calls s R a e b E) as Hw. pose proof (launch_calls s R a e b E) as Hl.
  destruct e; auto. destruct Ho as (cl & rest & Op & Ap & Ho). destruct Hw as (cl2 & rest2 & Op2 & _ & Hw). destruct Hl as (cl3 & rest3 & Op3 & _ & Hl).
  rewrite Op in Op2, Op3. injection Op2 as <- <-. injection Op3 as <- <-.
  exists cl, rest. split; auto. split; auto. intros h U N.
  assert (Um : forall m x, m = cl_pre cl ++ x -> fut_made h m) by (intros m x ->; now apply hnd_used_app).
  assert (NN : forall m, moment cl a m -> snd (fut_of h m) = None -> snd (fut_of h a) = None).
  { intros m (x & y & Em & Ea) F. rewrite Ea. eapply none_stays with (b := EvRet t c r :: b); eauto. now rewrite E, Ea. }
  assert (KK : forall m, moment cl a m -> fst (fut_of h m) = false).
  { intros m (x & y & -> & Ea). rewrite <- N. eapply kind_stays with (b := y ++ EvRet t c r :: b); eauto. rewrite E, Ea. now rewrite <- app_assoc. }
  assert (AA : forall sh, In (EvHnd t h sh None) (cl_acts cl) -> snd (fut_of h a) = None).
  { intros sh I. destruct (acts_in t (rev a) cl) as (w & Ew & J); [unfold open_calls in Op; rewrite Op; now left|].
    rewrite rev_involutive in Ew. apply J in I. apply in_split in I as (w1 & w2 & ->).
    apply (NN (cl_pre cl ++ w1 ++ [EvHnd t h sh None])).
    - exists (w1 ++ [EvHnd t h sh None]), w2. split; auto. rewrite Ew. now rewrite <- !app_assoc.
    - rewrite app_assoc, fut_snoc, Nat.eqb_refl. reflexivity. }
  assert (TT : forall i pol v u caps pre, then_spec t h i pol v u caps pre cl a r -> snd (fut_of h a) = None).
  { intros i pol v u caps pre [(_ & (m & M & F) & _)|(p & sh & q & (m & M & F) & G & _)]; [eauto|].
    pose proof (KK m M) as K. rewrite F in K. cbn in K. subst sh. apply (AA false). destruct G as (n & l & _ & ->).
    apply in_or_app. left. apply in_or_app. right. now left. }
  unfold obj_contract, fwait_contract, launch_contract in *. destruct (cl_api cl); cbn in Ho, Hw, Hl; auto; intros ->;
    try specialize (Ho eq_refl); try specialize (Hw eq_refl); try specialize (Hl eq_refl).
  - destruct Hw as [(_ & _ & m & M & F)|(p & _ & _ & [(_ & [(m & M & F)|[sh I]] & _)|W])]; eauto.
    pose proof (KK m M) as K. rewrite F in K. discriminate K.
  - destruct Ho as (n & x & _ & A & _). apply (AA false). rewrite A. now left.
  - destruct Ho as (_ & sh & A & _). apply (AA sh). rewrite A. now left.
  - eauto.
  - destruct Hl as (i & pre & _ & H). eauto.
Qed.
