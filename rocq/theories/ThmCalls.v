(** * ThmCalls: the calls on promise, future, thread and pool objects, in the words of the properties. *)
From Verif Require Import Types Core State Ops Code Machine Base Spec SpecApi SpecFut SpecObj Calls Contract ContractLib ReplayObj ThmObj ReplayFut ApiObj.
From Verif Require ThmSync.

Lemma latest_app : forall A (f : event -> option A) d a b, latest f d (a ++ b) = latest f (latest f d a) b.
Proof. intros. unfold latest. apply fold_left_app. Qed.
Lemma latest_filter : forall A (f : event -> option A) (g : event -> bool) l d,
  (forall e, g e = false -> f e = None) -> latest f d l = latest f d (filter g l).
Proof.
  intros A f g l d H. revert d. induction l as [|e l IH]; intros d; cbn [filter]; [reflexivity|].
  destruct (g e) eqn:E.
  - exact (IH _).
  - change (latest f d (e :: l)) with (latest f (match f e with Some y => y | None => d end) l). rewrite (H e E). apply IH.
Qed.
Lemma alone_now : forall A (f : event -> option A) g cl tr d, (forall e, g e = false -> f e = None) -> alone g cl tr ->
  latest f d tr = latest f (latest f d (cl_pre cl)) (filter g (cl_acts cl)).
Proof. intros A f g cl tr d H (w & -> & E). rewrite latest_app. rewrite (latest_filter _ f g w) by auto. now rewrite E. Qed.
(** Before the first change the call makes, the object is as it was before the call. *)
Lemma alone_first : forall A (f : event -> option A) g cl tr d m m' e l, (forall e, g e = false -> f e = None) -> alone g cl tr ->
  filter g (cl_acts cl) = e :: l -> (forall e', In e' l -> e' <> e) -> g e = true -> happens cl tr m e -> moment cl m m' ->
  latest f d m' = latest f d (cl_pre cl).
Proof.
  intros A f g cl tr d m m' e l H (w & -> & E) F Nl Ge (a & b & Em & Eq) (a' & b' & Em' & Eq'). subst m'.
  assert (Ew : w = a ++ e :: b) by (rewrite Em, <- app_assoc in Eq; now apply app_inv_head in Eq).
  rewrite Ew, F in E. rewrite filter_app in E. cbn [filter] in E. rewrite Ge in E.
  assert (Ea : filter g a = []).
  { destruct (filter g a) as [|x q]; [reflexivity|]. injection E as -> E. exfalso. apply (Nl e); auto. rewrite <- E. apply in_or_app. right. now left. }
  rewrite latest_app, (latest_filter _ f g a') by auto.
  assert (Eaa : a = a' ++ b') by (rewrite Em, <- app_assoc in Eq'; now apply app_inv_head in Eq').
  rewrite Eaa, filter_app in Ea. apply app_eq_nil in Ea as [-> _]. reflexivity.
Qed.

Theorem get_future : forall s, reachable s ->
  each_return (fun t cl tr r => forall pr, cl_api cl = APGetFuture pr -> getfut_spec t pr cl tr r) (trace s).
Proof.
  intros s R. eapply ThmSync.each_mono; [|apply obj_calls; exact R]. unfold obj_contract, obj_sel.
  intros t cl x r H pr E. rewrite E in H. auto.
Qed.
Theorem retrieved_once : forall s, reachable s ->
  at_each (fun tr e => match e with EvRetr _ p false => ~ retrieved p tr | _ => True end) (trace s).
Proof.
  intros s R a e b E. pose proof (ready_once s R a e b E) as X. destruct e; auto. destruct again; auto.
  intros N. assert (Q : false = true) by (apply X; auto). discriminate Q.
Qed.
Theorem promise_calls : forall s, reachable s ->
  each_return (fun t cl tr r => match cl_api cl with
    | APromise v => exists n p, r = RProm n /\ cl_acts cl = [EvState t p v PuPromise; EvPrm t n (Some p)]
    | APAssign d s => passign_spec t d s cl tr r
    | _ => True end) (trace s).
Proof.
  intros s R. eapply ThmSync.each_mono; [|apply obj_calls; exact R]. unfold obj_contract, obj_sel.
  intros t cl x r H. destruct (cl_api cl); auto.
Qed.
Theorem future_calls : forall s, reachable s ->
  each_return (fun t cl tr r => match cl_api cl with
    | AFValid h => cl_acts cl = [] /\ at_end t cl tr (fun m => r = RBool (match snd (fut_of h m) with Some _ => true | None => false end))
    | AFReady h => fquery_spec h is_ready cl tr r
    | AFHasError h => fquery_spec h fails cl tr r
    | AFShare h => share_spec t h cl tr r
    | AFCopy h => exists n x, r = RHnd n /\ cl_acts cl = [EvHnd t n true x] /\ sometime cl tr (fun m => fut_of h m = (true, x))
    | AFMove h => r = RUnit /\ exists sh, cl_acts cl = [EvHnd t h sh None] /\ does cl tr (EvHnd t h sh None) (fun m => fst (fut_of h m) = sh)
    | AFFromVal p sh => exists n, r = RHnd n /\ cl_acts cl = [EvHnd t n sh (Some p)]
    | _ => True end) (trace s).
Proof.
  intros s R. eapply ThmSync.each_mono; [|apply obj_calls; exact R]. unfold obj_contract, obj_sel.
  intros t cl x r H. destruct (cl_api cl); auto.
Qed.
Theorem jobs_count : forall s, reachable s ->
  each_return (fun t cl tr r => forall o, cl_api cl = APCount o ->
    cl_acts cl = [] /\ exists pl, sometime cl tr (fun m => pool_of o m = Some pl) /\
      at_end t cl tr (fun m => r = RInt (Z.of_nat (length (jobs_of pl m))))) (trace s).
Proof.
  intros s R. eapply ThmSync.each_mono; [|apply obj_calls; exact R]. unfold obj_contract, obj_sel.
  intros t cl x r H o E. rewrite E in H. auto.
Qed.
Theorem thread_calls : forall s, reachable s ->
  each_return (fun t cl tr r => match cl_api cl with
    | AStdThread u => exists n, r = RThread n invalid_id /\ cl_acts cl = [EvSpawn t n]
    | AThread o b => thnew_spec t o cl tr r
    | AThId o => cl_acts cl = [] /\ at_end t cl tr (fun m => r = RId (snd (thobj_of o m)))
    | AThMove d s => thmove_spec t d s cl tr r
    | AThSwap a b => r = RUnit /\ swapped t a b [] cl tr
    | AThDetach o => detach_spec t o cl tr r
    | AThJoin o => join_spec t o cl tr r
    | AThAssign d s => thassign_spec t d s cl tr r
    | AThDtor o => thdtor_spec t o cl tr r
    | _ => True end) (trace s).
Proof.
  intros s R. eapply ThmSync.each_mono; [|apply obj_calls; exact R]. unfold obj_contract, obj_sel.
  intros t cl x r H. destruct (cl_api cl); auto.
Qed.

Lemma on_a : forall a b e, on_thobj a b e = false -> match e with EvThObj _ m x i => if m =? a then Some (x, i) else None | _ => None end = None.
Proof. intros a b [] H; auto. cbn in H. apply orb_false_iff in H as [-> _]. reflexivity. Qed.
Lemma on_b : forall a b e, on_thobj a b e = false -> match e with EvThObj _ m x i => if m =? b then Some (x, i) else None | _ => None end = None.
Proof. intros a b [] H; auto. cbn in H. apply orb_false_iff in H as [_ ->]. reflexivity. Qed.

Theorem thread_moves : forall s, reachable s ->
  each_return (fun t cl tr r => forall a b, a <> b -> alone (on_thobj a b) cl tr ->
    let x := thobj_of a (cl_pre cl) in let y := thobj_of b (cl_pre cl) in
    (cl_api cl = AThMove a b -> thobj_of a tr = y /\ thobj_of b tr = (None, snd y)) /\
    (cl_api cl = AThSwap a b -> thobj_of a tr = y /\ thobj_of b tr = x)) (trace s).
Proof.
  intros s R. eapply ThmSync.each_mono; [|apply thread_calls; exact R].
  intros t cl tr r H a b N Al x y. cbv beta in H.
  assert (Nab : (a =? b) = false) by now apply Nat.eqb_neq. assert (Nba : (b =? a) = false) by (apply Nat.eqb_neq; congruence).
  assert (Fa : forall m m' e l, filter (on_thobj a b) (cl_acts cl) = e :: l -> (forall e', In e' l -> e' <> e) -> on_thobj a b e = true ->
    happens cl tr m e -> moment cl m m' -> thobj_of a m' = x) by (intros; eapply alone_first; eauto using on_a).
  assert (Fb : forall m m' e l, filter (on_thobj a b) (cl_acts cl) = e :: l -> (forall e', In e' l -> e' <> e) -> on_thobj a b e = true ->
    happens cl tr m e -> moment cl m m' -> thobj_of b m' = y) by (intros; eapply alone_first; eauto using on_b).
  assert (Sw : swapped t a b [] cl tr -> thobj_of a tr = y /\ thobj_of b tr = x).
  { intros (x' & y' & (I & m & Hm & (ma & Ma & Ea) & (mb & Mb & Eb)) & Ac).
    assert (Ff : filter (on_thobj a b) (cl_acts cl) = [EvThObj t b (fst x') (snd x'); EvThObj t a (fst y') (snd y')]).
    { rewrite Ac. cbn. rewrite ?Nat.eqb_refl, ?Nba. cbn. reflexivity. }
    assert (Q : forall e', In e' [EvThObj t a (fst y') (snd y')] -> e' <> EvThObj t b (fst x') (snd x')).
    { intros e' [<-|[]] X. injection X as X _ _. congruence. }
    assert (Ge : on_thobj a b (EvThObj t b (fst x') (snd x')) = true) by (cbn; rewrite Nat.eqb_refl; now rewrite orb_true_r).
    rewrite (Fa _ _ _ _ Ff Q Ge Hm Ma) in Ea. rewrite (Fb _ _ _ _ Ff Q Ge Hm Mb) in Eb. rewrite Ea, Eb. unfold thobj_of at 1 2.
    rewrite (alone_now _ _ _ _ _ _ (on_a a b) Al), (alone_now _ _ _ _ _ _ (on_b a b) Al), Ff. cbn. rewrite ?Nat.eqb_refl, ?Nab, ?Nba.
    split; now rewrite <- surjective_pairing. }
  split.
  - intros E. rewrite E in H. destruct H as (_ & x' & _ & (I & m & Hm & (mb & Mb & Eb)) & Ac).
    assert (Ff : filter (on_thobj a b) (cl_acts cl) = [EvThObj t b None (snd x'); EvThObj t a (fst x') (snd x')]).
    { rewrite Ac. cbn. rewrite ?Nat.eqb_refl, ?Nba. cbn. reflexivity. }
    assert (Q : forall e', In e' [EvThObj t a (fst x') (snd x')] -> e' <> EvThObj t b None (snd x')).
    { intros e' [<-|[]] X. injection X as X _. congruence. }
    assert (Ge : on_thobj a b (EvThObj t b None (snd x')) = true) by (cbn; rewrite Nat.eqb_refl; now rewrite orb_true_r).
    rewrite (Fb _ _ _ _ Ff Q Ge Hm Mb) in Eb. rewrite Eb. unfold thobj_of at 1 2.
    rewrite (alone_now _ _ _ _ _ _ (on_a a b) Al), (alone_now _ _ _ _ _ _ (on_b a b) Al), Ff. cbn. rewrite ?Nat.eqb_refl, ?Nab, ?Nba.
    split; auto. now rewrite <- surjective_pairing.
  - intros E. rewrite E in H. now apply Sw.
Qed.
