(** * ReplayObj: the same for condition variables, time, pools and shared states. *)
From Verif Require Import Types Core State Ops Code Machine Base Spec Rules Events InvCtx InvQueue InvStack InvRefs InvEvents InvBound Replay.

Lemma waiters_snoc : forall s tr e, waiters s (tr ++ [e]) = waiters_step s (waiters s tr) e.
Proof. intros. unfold waiters. now rewrite fold_left_app. Qed.
Theorem replay_sems : forall sm s, reachable s -> h_sems (hp s) sm = waiters sm (trace s).
Proof.
  intros sm. apply (replay_rule (fun h tr => h_sems h sm = waiters sm tr)).
  - reflexivity.
  - intros h l d IH. rewrite waiters_snoc. exact IH.
  - intros h l e IH Ok. rewrite waiters_snoc. destruct e; cbn in Ok; try contradiction; exact IH.
  - intros h ? ? [] ? ? ? G O IH At NN; try contradiction; atom_split At; rewrite ?waiters_snoc; cbn [waiters_step]; try exact IH;
      unfold upds; rewrite (sem_eqb_sym sm); destruct (sem_eqb s sm) eqn:E; auto.
    all: assert (sm = s) by (destruct sm, s; cbn in E; try discriminate E; apply Nat.eqb_eq in E; congruence); subst.
    all: rewrite <- IH; auto.
    + rewrite skipn_all. reflexivity.
    + destruct (h_sems h s); reflexivity.
Qed.

Lemma interrupted_snoc : forall tk tr e, interrupted tk (tr ++ [e]) <-> interrupted tk tr \/ exists t, e = EvInterrupt t tk.
Proof. intros. unfold interrupted. setoid_rewrite in_app_iff. cbn. firstorder. Qed.
Theorem replay_toks : forall tk s, reachable s -> h_toks (hp s) tk = true <-> interrupted tk (trace s).
Proof.
  intros tk. apply (replay_rule (fun h tr => h_toks h tk = true <-> interrupted tk tr)).
  - cbn. split; [discriminate|]. intros [t []].
  - intros h l d IH. rewrite interrupted_snoc. hs. rewrite IH. split; auto. intros [?|[? ?]]; auto; discriminate.
  - intros h l e IH Ok. rewrite interrupted_snoc. hs. rewrite IH. split; auto. intros [?|[? ->]]; auto. contradiction.
  - intros h ? ? [] ? ? ? G O IH At NN; try contradiction; atom_split At; rewrite ?interrupted_snoc; try exact IH;
      try solve [rewrite IH; split; [auto|intros [?|[? ?]]; auto; discriminate]].
    + unfold upd. destruct (Nat.eqb_spec tk (h_ntok h)).
      * subst. destruct G as (_ & V & _). pose proof (proj2 (proj2 (proj2 V)) _ (le_n _)) as V'.
        split; [discriminate|]. intros [X|[? X]]; [|discriminate]. apply IH in X. congruence.
      * rewrite IH. split; auto. intros [?|[? ?]]; auto. discriminate.
    + unfold upd. match goal with |- context [tk =? ?a] => destruct (Nat.eqb_spec tk a) as [->|N] end.
      * split; auto. intros _. right. eauto.
      * rewrite IH. split; auto. intros [?|[? X]]; auto. injection X as _ ->. congruence.
Qed.

Lemma clock_snoc' : forall tr e, clock (tr ++ [e]) = (clock tr + match e with EvTick d => d | _ => 0 end)%Z.
Proof.
  intros. unfold clock. rewrite map_app. cbn [map]. induction (map _ tr) as [|x l IH]; cbn [fold_right app].
  - now rewrite Z.add_0_r.
  - rewrite IH. ring.
Qed.
Theorem replay_clock : forall s, reachable s -> h_now (hp s) = clock (trace s).
Proof.
  apply (replay_rule (fun h tr => h_now h = clock tr)).
  - reflexivity.
  - intros h l d IH. rewrite clock_snoc'. hs. now rewrite IH.
  - intros h l e IH Ok. rewrite clock_snoc'. destruct e; cbn in Ok; try contradiction; hs; rewrite Z.add_0_r; exact IH.
  - intros h ? ? [] ? ? ? G O IH At NN; try contradiction; atom_split At; rewrite ?clock_snoc', ?Z.add_0_r; exact IH.
Qed.

(** Pools *)
Theorem replay_pobj : forall s, reachable s -> forall o, fst (h_pobj (hp s) o) = pool_of o (trace s).
Proof.
  apply (replay_rule (fun h tr => forall o, fst (h_pobj h o) = pool_of o tr)); unfold pool_of.
  - reflexivity.
  - intros h l d IH o. rewrite fold_left_app. apply IH.
  - intros h l e IH Ok o. rewrite fold_left_app. destruct e; cbn in Ok; try contradiction; apply IH.
  - intros h ? ? [] ? ? ? G O IH At NN; try contradiction; atom_split At; intros q; rewrite ?fold_left_app; cbn [fold_left pool_step]; try apply IH;
      rewrite <- ?IH; unfold upd;
      repeat match goal with H : (_ =? _) = true |- _ => apply Nat.eqb_eq in H | H : (_ =? _) = false |- _ => apply Nat.eqb_neq in H end; subst; updg.
Qed.
Lemma jobs_of_snoc : forall pl tr e, jobs_of pl (tr ++ [e]) = jobs_step pl (jobs_of pl tr) e.
Proof. intros. unfold jobs_of. now rewrite fold_left_app. Qed.
Lemma jobs_set_fst : forall js j x, map fst (jobs_set js j x) = map fst js.
Proof. induction js as [|[k y] r IH]; intros; cbn; auto. destruct (k =? j); cbn; [reflexivity|now rewrite IH]. Qed.
Lemma jobs_erase_fst : forall js j, map fst (jobs_erase js j) = filter (fun k => negb (k =? j)) (map fst js).
Proof.
  unfold jobs_erase. induction js as [|[k y] r IH]; intros; cbn; auto. destruct (k =? j); cbn; [apply IH|now rewrite IH].
Qed.
Lemma filter_none : forall A (f : A -> bool) l, (forall x, In x l -> f x = false) -> filter f l = [].
Proof. induction l; cbn; intros H; auto. rewrite (H a); auto. Qed.
Lemma pool_add_fst : forall p g k q p' j, pool_add p g k q = (p', j) -> map fst (pl_jobs p') = map fst (pl_jobs p) ++ [j].
Proof. unfold pool_add. intros p g k q p' j E. injection E as <- <-. cbn [pl_jobs]. now rewrite map_app. Qed.
Lemma pool_change_fst : forall p j g p' b, pool_change p j g = (p', b) -> map fst (pl_jobs p') = map fst (pl_jobs p).
Proof. unfold pool_change. intros p j g p' b E. brki E; injection E as <- <-; auto. cbn [pl_jobs]. apply jobs_set_fst. Qed.
Lemma pool_clear_fst : forall p j c p' x, pool_clear p j c = (p', Some x) ->
  map fst (pl_jobs p') = filter (fun k => negb (k =? j)) (map fst (pl_jobs p)).
Proof. unfold pool_clear. intros p j c p' x E. brki E; try discriminate E; injection E as <- <-; auto. cbn [pl_jobs]. apply jobs_erase_fst. Qed.
Lemma pool_take_fst : forall p lv inp p' x, pool_take p lv inp = (p', x) -> map fst (pl_jobs p') = map fst (pl_jobs p).
Proof.
  unfold pool_take. cbv zeta. intros p lv inp p' x E. brki E; injection E as <- <-; cbn [pl_jobs]; auto using jobs_set_fst.
Qed.
Theorem replay_jobs : forall pl s, reachable s -> map fst (pl_jobs (h_pools (hp s) pl)) = jobs_of pl (trace s).
Proof.
  intros pl. apply (replay_rule (fun h tr => map fst (pl_jobs (h_pools h pl)) = jobs_of pl tr)).
  - reflexivity.
  - intros h l d IH. rewrite jobs_of_snoc. exact IH.
  - intros h l e IH Ok. rewrite jobs_of_snoc. destruct e; cbn in Ok; try contradiction; exact IH.
  - intros h ? ? [] ? ? ? G O IH At NN; try contradiction; atom_split At; rewrite ?jobs_of_snoc; cbn [jobs_step]; try exact IH;
      unfold upd; rewrite (Nat.eqb_sym pl); match goal with |- context [?a =? pl] => destruct (Nat.eqb_spec a pl); subst end; cbn [pl_jobs]; auto.
    + destruct G as (_ & V & _). rewrite <- IH, (proj1 (proj2 (proj2 V)) _ (le_n _)). reflexivity.
    + apply pool_add_fst in Heqp. now rewrite Heqp, IH.
    + apply pool_change_fst in Heqp. now rewrite Heqp, IH.
    + apply pool_clear_fst in Heqp. rewrite Heqp, IH. apply filter_ext. intros a. cbn. now rewrite orb_false_r.
    + cbn. symmetry. apply filter_none. intros a Ha. rewrite <- IH in Ha. apply negb_false_iff, existsb_exists.
      exists a. split; auto. apply Nat.eqb_refl.
    + apply pool_take_fst in Heqp. now rewrite Heqp, IH.
    + apply pool_take_fst in Heqp. now rewrite Heqp, IH.
    + apply pool_take_fst in Heqp. now rewrite Heqp, IH.
Qed.

(** Shared states *)
Definition early (p : sid) (tr : list event) : list callback * bool := fold_left (early_step p) tr ([], false).
Lemma early_snoc : forall p tr e, early p (tr ++ [e]) = early_step p (early p tr) e.
Proof. intros. unfold early. now rewrite fold_left_app. Qed.
Definition made (p : sid) (tr : list event) : Prop := exists t a w ins, In (EvWhen t a w p ins) tr.
Record fs_rel (f : fstate) (p : sid) (tr : list event) : Prop := {
  fr_void : fs_void f = void_state p tr;
  fr_out : match outcome_of p tr with
           | None => fs_status f = SNotSet /\ fs_value f = None /\ fs_exn f = None /\ fs_cbs f = fst (early p tr)
           | Some (OVal v) => fs_status f = SReady /\ fs_value f = (if fs_void f then None else Some v) /\ fs_exn f = None
                              /\ fs_cbs f = []
           | Some (OExn e) => fs_status f = SError /\ fs_value f = None /\ fs_exn f = Some e /\ fs_cbs f = []
           end;
  fr_early : snd (early p tr) = fs_ready f;
  fr_retr : fs_retrieved f = true <-> retrieved p tr \/ made p tr }.
(** Events that say nothing about shared states. *)
Definition fs_quiet (p : sid) (e : event) : Prop :=
  match e with
  | EvReady _ q _ | EvAttach _ q _ | EvRetr _ q _ | EvState _ q _ _ | EvWhen _ _ _ q _ => q <> p
  | _ => True
  end.
Lemma in_snoc : forall A (x e : A) l, In x (l ++ [e]) <-> In x l \/ e = x.
Proof. intros. rewrite in_app_iff. cbn. intuition. Qed.
Lemma fs_rel_quiet : forall f p tr e, fs_rel f p tr -> fs_quiet p e -> fs_rel f p (tr ++ [e]).
Proof.
  intros f p tr e [A B C D] Q. constructor.
  - unfold void_state. rewrite latest_snoc. destruct e; auto. cbn in Q. destruct (Nat.eqb_spec p0 p); [congruence|auto].
  - assert (O : outcome_of p (tr ++ [e]) = outcome_of p tr).
    { unfold outcome_of. rewrite latest_snoc. destruct e; auto. cbn in Q. destruct (Nat.eqb_spec p0 p); [congruence|auto]. }
    assert (E : fst (early p (tr ++ [e])) = fst (early p tr)).
    { rewrite early_snoc. destruct e; auto. cbn in *. destruct (Nat.eqb_spec p0 p); [congruence|auto]. }
    rewrite O, E. exact B.
  - rewrite early_snoc. rewrite <- C. destruct e; auto. cbn in *. destruct (Nat.eqb_spec p0 p); [congruence|auto].
  - rewrite D. unfold retrieved, made. setoid_rewrite in_snoc. split.
    + intros [(t & b & X)|(t & a & w & ins & X)]; [left|right]; eauto 8.
    + intros [(t & b & [X| ->])|(t & a & w & ins & [X| ->])]; try solve [left; eauto|right; eauto 8]; cbn in Q; congruence.
Qed.
Lemma void_snoc : forall p tr e, void_state p (tr ++ [e]) = match e with EvState _ q v _ => if q =? p then v else void_state p tr | _ => void_state p tr end.
Proof. intros. unfold void_state. rewrite latest_snoc. destruct e; auto. destruct (_ =? _); auto. Qed.
Lemma outcome_snoc : forall p tr e, outcome_of p (tr ++ [e]) =
  match e with EvReady _ q o => if q =? p then Some o else outcome_of p tr | _ => outcome_of p tr end.
Proof. intros. unfold outcome_of. rewrite latest_snoc. destruct e; auto. destruct (_ =? _); auto. Qed.
Lemma retr_snoc : forall p tr e, (retrieved p (tr ++ [e]) \/ made p (tr ++ [e])) <->
  (retrieved p tr \/ made p tr) \/ match e with EvRetr _ q _ | EvWhen _ _ _ q _ => q = p | _ => False end.
Proof.
  intros. unfold retrieved, made. setoid_rewrite in_snoc. split.
  - intros [(t & b & [X| ->])|(t & a & w & ins & [X| ->])]; eauto 8.
  - intros [[(t & b & X)|(t & a & w & ins & X)]|X]; eauto 8. destruct e; try contradiction; subst; eauto 8.
Qed.
Lemma fs_rel_new : forall f p tr, fs_rel f p tr -> f = new_fs false ->
  outcome_of p tr = None /\ early p tr = ([], false) /\ void_state p tr = false /\ ~ (retrieved p tr \/ made p tr).
Proof.
  intros f p tr [A B C D] ->. cbn in *. assert (O : outcome_of p tr = None).
  { destruct (outcome_of p tr) as [[v|e]|]; auto; destruct B as (X & _); discriminate X. }
  rewrite O in B. destruct B as (_ & _ & _ & B). repeat split; auto.
  - destruct (early p tr). cbn in *. congruence.
  - intros X. apply D in X. discriminate X.
Qed.
Theorem replay_fs : forall p s, reachable s -> fs_rel (h_fsts (hp s) p) p (trace s).
Proof.
  intros p. apply (replay_rule (fun h tr => fs_rel (h_fsts h p) p tr)).
  - constructor; cbn; auto. split; [discriminate|]. intros [(? & ? & [])|(? & ? & ? & ? & [])].
  - intros h l d IH. apply fs_rel_quiet; auto. exact I.
  - intros h l e IH Ok. apply fs_rel_quiet; auto. destruct e; cbn in Ok; try contradiction; exact I.
  - intros h ? ? [] ? ? ? G O IH At NN; try contradiction; atom_split At; try exact IH; try solve [apply fs_rel_quiet; [exact IH|exact I]].
    all: unfold upd; try match goal with |- fs_rel (if ?p =? ?a then _ else _) _ _ => destruct (Nat.eqb_spec p a); [subst|solve [apply fs_rel_quiet; [exact IH|cbn; congruence]]] end.
    + destruct G as (_ & V & _). destruct (fs_rel_new _ _ _ IH (proj1 V _ (le_n _))) as (X1 & X2 & X3 & X4).
      constructor; rewrite ?void_snoc, ?outcome_snoc, ?early_snoc, ?retr_snoc, ?Nat.eqb_refl, ?X1, ?X2; cbn; auto.
      split; [discriminate|tauto].
    + destruct IH as [A B C D].
      assert (X1 : outcome_of s (tr_of h) = None).
      { unfold fs_ready in *. destruct (outcome_of s (tr_of h)) as [[v|e]|]; auto; destruct B as (X & _); rewrite X in *; discriminate. }
      rewrite X1 in B. destruct B as (B1 & B2 & B3 & B4).
      match goal with E : fs_set _ _ = _ |- _ => unfold fs_set in E; injection E as <- <- end.
      constructor; rewrite ?void_snoc, ?outcome_snoc, ?early_snoc, ?retr_snoc, ?Nat.eqb_refl, ?X1; cbn; rewrite ?Nat.eqb_refl; auto.
      * destruct o; cbn; auto.
      * destruct o; cbn; rewrite ?B2, ?B3; auto.
      * destruct o; reflexivity.
      * destruct o; cbn; tauto.
    + destruct (Nat.eq_dec s p); [subst|apply fs_rel_quiet; auto; exact n].
      destruct IH as [A B C D].
      constructor; rewrite ?void_snoc, ?outcome_snoc, ?early_snoc, ?retr_snoc; cbn; auto; [|tauto].
      unfold fs_ready in *. destruct (outcome_of p (tr_of h)) as [[v|e]|]; auto. destruct B as (X & _); rewrite X in *; discriminate.
    + destruct IH as [A B C D].
      constructor; rewrite ?void_snoc, ?outcome_snoc, ?early_snoc, ?retr_snoc; cbn; auto; [|tauto].
      unfold fs_ready in *. destruct (outcome_of s (tr_of h)) as [[v|e]|].
      * destruct B as (X & _); rewrite X in *; discriminate.
      * destruct B as (X & _); rewrite X in *; discriminate.
      * destruct B as (B1 & B2 & B3 & B4). rewrite C, B1, Nat.eqb_refl. cbn. now rewrite B4.
    + apply fs_rel_quiet; [|exact I]. destruct IH as [A B C D]. constructor; auto.
    + apply fs_rel_quiet; [|exact I]. exact IH.
    + apply fs_rel_quiet; [|exact I]. destruct IH as [A B C D]. constructor; auto.
    + apply fs_rel_quiet; [|exact I]. exact IH.
    + destruct IH as [A B C D].
      constructor; rewrite ?void_snoc, ?outcome_snoc, ?early_snoc, ?retr_snoc; cbn; auto. tauto.
    + destruct G as (_ & V & _). destruct (fs_rel_new _ _ _ IH (proj1 V _ (le_n _))) as (X1 & X2 & X3 & X4).
      constructor; rewrite ?void_snoc, ?outcome_snoc, ?early_snoc, ?retr_snoc, ?Nat.eqb_refl, ?X1, ?X2; cbn; auto. tauto.
Qed.

Theorem replay_ready : forall p s, reachable s -> fs_ready (h_fsts (hp s) p) = match outcome_of p (trace s) with Some _ => true | None => false end.
Proof.
  intros p s R. destruct (replay_fs p s R) as [_ B _ _]. unfold fs_ready.
  destruct (outcome_of p (trace s)) as [[v|e]|]; destruct B as (-> & _); reflexivity.
Qed.
Theorem replay_error : forall p s, reachable s ->
  fs_has_error (h_fsts (hp s) p) = match outcome_of p (trace s) with Some (OExn _) => true | _ => false end.
Proof.
  intros p s R. destruct (replay_fs p s R) as [_ B _ _]. unfold fs_has_error.
  destruct (outcome_of p (trace s)) as [[v|e]|]; destruct B as (-> & _); reflexivity.
Qed.
Theorem replay_get : forall p s, reachable s ->
  fs_get (h_fsts (hp s) p) = delivers (void_state p (trace s)) (outcome_of p (trace s)).
Proof.
  intros p s R. destruct (replay_fs p s R) as [A B _ _]. unfold fs_get, delivers. rewrite <- A.
  destruct (outcome_of p (trace s)) as [[v|e]|]; destruct B as (_ & -> & -> & _); destruct (fs_void _); reflexivity.
Qed.


