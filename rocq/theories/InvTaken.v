(** * InvTaken: only get of a unique future moves the value out. *)
From Verif Require Import Types Core State Ops Code Machine Base Spec SpecTaken Rules Events Calls InvFill InvRefs InvStack InvTop InvCv Adj Replay.

(** FGet3 lies at the top or below the step that empties the future object. *)
Definition gmv (a : option frame) (f : frame) (r : list frame) : Prop :=
  match f with FGet3 _ b => a = None \/ exists n, a = Some (FHMove n) /\ b = true | _ => True end.
Definition nog (f : frame) : Prop := match f with FGet3 _ _ => False | _ => True end.
Lemma nog_adj : forall l a r, Forall nog l -> adj (fun a f x => gmv a f (x ++ r)) a l.
Proof. induction l as [|f l IH]; intros a r H; cbn; auto. inversion H; subst. split; [|now apply IH]. destruct f; try exact Logic.I. contradiction. Qed.
Lemma get3_next : forall h t pre h' n, lstep h t pre h' n -> Forall nog (next_frames n) \/
  exists m, pre = [FGet2 m] /\ h' = h /\ ((exists p, h_hnds h m = (true, Some p) /\ n = Go [FGet3 p false]) \/ (exists p, h_hnds h m = (false, Some p) /\ n = Go [FHMove m; FGet3 p true])).
Proof.
  intros h t pre h' n L. lstep_cases L; try (left; cbn [next_frames]; fl_; exact Logic.I).
  cbn [atom] in A. injection A as <- <-. destruct (h_hnds h h0) as [[] [p|]] eqn:E; try (left; cbn [next_frames]; repeat constructor; fail).
  all: right; exists h0; repeat split; eauto.
Qed.
Lemma move_step : forall h t m h' n, lstep h t [FHMove m] h' n -> n = Go [] /\ h_tr h' = EvHnd t m (fst (h_hnds h m)) None :: h_tr h.
Proof.
  intros h t m h' n L. remember [FHMove m] as pre eqn:Ep. lstep_cases L; try discriminate Ep. injection Ep as ->. cbn [atom] in A. injection A as <- _. auto.
Qed.
Lemma pre_move : forall s t pre rest h n m, reachable s -> stk s t = pre ++ rest -> lstep (hp s) t pre h n -> lasto None pre = Some (FHMove m) ->
  pre = [FHMove m] /\ n = Go [] /\ h_tr h = EvHnd t m (fst (h_hnds (hp s) m)) None :: h_tr (hp s).
Proof.
  intros s t pre rest h n m R E L Q. destruct (lstep_pre _ _ _ _ _ L) as (P1 & P2 & _). destruct pre as [|x [|y [|z pre]]]; [congruence| | |cbn in P2; lia].
  - cbn in Q. injection Q as ->. split; auto. now apply move_step.
  - cbn in Q. injection Q as ->. pose proof (under_reachable s R t) as U. rewrite E in U. discriminate U.
Qed.
Theorem gmv_reachable : forall s, reachable s -> forall t, adj gmv None (stk s t).
Proof.
  apply (adj_rule (fun _ _ => gmv)); auto.
  - intros t. cbn. destruct t; cbn; auto.
  - intros s t pre rest h n R R' E L A. split; [|split].
    + destruct (get3_next _ _ _ _ _ L) as [N|(m & _ & _ & [(p & _ & ->)|(p & _ & ->)])]; [now apply nog_adj|cbn; auto|cbn; eauto 8].
    + destruct rest as [|g r]; auto. destruct g; auto. cbn [gmv]. intros [Q|(m & Q & ->)].
      * destruct (lstep_pre _ _ _ _ _ L) as (P1 & _). destruct pre as [|f pre]; [congruence|]. cbn in Q. exfalso. clear - Q. revert f Q. induction pre; cbn; intros f Q; [discriminate Q|eauto].
      * destruct (pre_move s t pre _ h n m R E L Q) as (-> & -> & _). cbn. auto.
    + destruct (spawned n) as [[c cfs]|] eqn:Sp; auto. destruct (lstep_spawned _ _ _ _ _ _ _ L Sp) as (_ & _ & b & ->). destruct b; cbn; auto.
Qed.

(** ** What the thread has seen *)
Definition mid_get (h : heap) (t : tid) (fs : list frame) : Prop :=
  match fs with
  | FHMove n :: FGet3 p _ :: _ => looked t n false p (tr_of h)
  | FGet3 p true :: _ => took_out t p (tr_of h)
  | FGet3 p false :: _ => exists n, looked t n true p (tr_of h)
  | _ => True
  end.
Lemma looked_app : forall t n sh p tr l, looked t n sh p tr -> (forall e, In e l -> by_thread t e = false) -> looked t n sh p (tr ++ l).
Proof.
  intros t n sh p tr l (a & b & -> & F & N) N'. exists a, (b ++ l). rewrite app_assoc. repeat split; auto. intros e I. apply in_app_iff in I as [I|I]; auto.
Qed.
Lemma mid_app : forall h h' t fs l, mid_get h t fs -> tr_of h' = tr_of h ++ l -> (forall e, In e l -> by_thread t e = false) -> mid_get h' t fs.
Proof.
  intros h h' t fs l M E N. unfold mid_get in *. rewrite E.
  assert (T : forall p, took_out t p (tr_of h) -> took_out t p (tr_of h ++ l)).
  { intros p (n & sh & a & b & -> & K & Nb). exists n, sh, a, (b ++ l). rewrite <- app_assoc. repeat split; auto. intros e I. apply in_app_iff in I as [I|I]; auto. }
  destruct fs as [|f fs]; auto. destruct f; auto.
  - destruct take; auto. destruct M as (n & M). exists n. now apply looked_app.
  - destruct fs as [|f fs]; auto. destruct f; auto. now apply looked_app.
Qed.
Theorem mid_reachable : forall s, reachable s -> forall t, mid_get (hp s) t (stk s t).
Proof.
  apply (reachable_ind'' (fun s => forall t, mid_get (hp s) t (stk s t))).
  - intros t. cbn. destruct t; exact Logic.I.
  - intros s s' R R' IH U Tr v. destruct Tr as [d|t pre rest ub E L|t pre rest h n E L].
    + apply (mid_app _ _ _ _ [EvTick (Zpos d)] (IH v)); [reflexivity|]. intros e [<-|[]]. reflexivity.
    + apply IH.
    + cbn [hp stk]. destruct (Nat.eq_dec v t) as [->|Nv].
      * assert (Sn : set_next (stk s) t n rest t = next_frames n ++ rest) by (unfold set_next; destruct n; now rewrite upd_same). rewrite Sn. pose proof (gmv_reachable s R t) as G. rewrite E in G. apply adj_app in G as [_ G]. specialize (IH t). rewrite E in IH.
        destruct (get3_next _ _ _ _ _ L) as [N|(m & -> & -> & K)].
        -- destruct rest as [|g r].
           { rewrite app_nil_r. destruct (next_frames n) as [|x [|y l]]; [exact Logic.I| |]; inversion N; subst; destruct x; try exact Logic.I; try contradiction.
             inversion H2; subst. destruct y; try exact Logic.I. contradiction. }
           assert (Dg : nog g \/ exists p b, g = FGet3 p b) by (destruct g; cbn; eauto).
           destruct Dg as [Dg|(p & b & ->)].
           { destruct (next_frames n) as [|x [|y l]]; cbn [app].
             - destruct g; try exact Logic.I; try contradiction. cbn [mid_get]. destruct r as [|y r]; auto. destruct y; auto.
               cbn [adj] in G. destruct G as [_ [[G|(m & G & _)] _]]; [discriminate G|]. exfalso.
               pose proof (under_reachable s R t) as Ur. rewrite E in Ur. destruct (lstep_pre _ _ _ _ _ L) as (P1 & _). destruct pre as [|z pre]; [congruence|]. cbn in Ur. rewrite unders_app in Ur. apply andb_true_iff in Ur as [_ Ur]. discriminate Ur.
             - inversion N; subst. destruct x; try exact Logic.I; try contradiction. destruct g; try exact Logic.I. contradiction.
             - inversion N; subst. inversion H2; subst. destruct x; try exact Logic.I; try contradiction. destruct y; try exact Logic.I. contradiction. }
           cbn [adj gmv] in G. destruct G as [[G|(m & G & ->)] _].
           { exfalso. destruct (lstep_pre _ _ _ _ _ L) as (P1 & _). destruct pre as [|f pre]; [congruence|]. cbn in G. clear - G. revert f G. induction pre; cbn; intros f G; [discriminate G|eauto]. }
           destruct (pre_move s t pre _ h n m R E L G) as (-> & -> & X). cbn [next_frames app mid_get] in *.
           exists m, (fst (h_hnds (hp s) m)), (trace s), []. split; [|split; [exact IH|intros e []]]. unfold tr_of. rewrite X. reflexivity.
        -- assert (Lk : forall sh p, h_hnds (hp s) m = (sh, Some p) -> looked t m sh p (tr_of (hp s))).
           { intros sh p Q. rewrite (replay_hnds m s R) in Q. exists (trace s), []. rewrite app_nil_r. repeat split; auto. intros e []. }
           destruct K as [(p & Q & ->)|(p & Q & ->)]; cbn [next_frames app mid_get]; [exists m|]; now apply Lk.
      * assert (Cs : set_next (stk s) t n rest v = stk s v \/ exists b, set_next (stk s) t n rest v = tframes b).
        { unfold set_next. destruct n as [fs|c cfs fs]; [left; now rewrite upd_other by auto|]. rewrite upd_other by auto. destruct (Nat.eq_dec v c) as [->|Nc]; [|left; now rewrite upd_other by auto].
          rewrite upd_same. right. destruct (lstep_spawned _ _ _ _ _ c cfs L eq_refl) as (_ & _ & b & ->). eauto. }
        destruct Cs as [->|(b & ->)]; [|destruct b; exact Logic.I].
        destruct (lstep_trl _ _ _ _ _ L) as [l El]. apply (mid_app _ _ _ _ l (IH v) El). intros e I.
        destruct (lstep_tr _ _ _ _ _ L) as [X|[e' X]].
        -- unfold tr_of in El. rewrite X in El. change (trace s = trace s ++ l) in El. rewrite <- (app_nil_r (trace s)) in El at 1. apply app_inv_head in El. subst l. destruct I.
        -- unfold tr_of in El. rewrite X in El. cbn [rev] in El. apply app_inv_head in El. subst l. destruct I as [<-|[]].
           unfold by_thread. destruct (lstep_actor _ _ _ _ _ _ L X) as [->| ->]; auto. now apply Nat.eqb_neq; auto.
Qed.

Theorem got_how : forall s, reachable s -> at_each (fun tr e => match e with
  | EvGot t p r => took_out t p tr \/ exists n, looked t n true p tr | _ => True end) (trace s).
Proof.
  apply (event_rule reachable); auto.
  intros s t pre rest h n e R U E L X. destruct e; auto.
  assert (K : t0 = t /\ exists b, pre = [FGet3 p b]).
  { clear E. rename p into p9, r into r9, t0 into t9. ev_cases L X. injection X as <- -> _. eauto. }
  destruct K as [-> (b & ->)]. pose proof (mid_reachable s R t) as M. rewrite E in M. cbn [app mid_get] in M. destruct b; auto.
Qed.
Definition takes (p : sid) {T} (o : op T) : Prop := match o with OGetVal q true => q = p | _ => False end.
Lemma taken_atom : forall h t T (o : op T) inp h' x p, atom h t o inp = AOk h' x -> fs_taken (h_fsts h' p) = true -> fs_taken (h_fsts h p) = true \/ takes p o.
Proof.
  intros h t T o inp h' x p At.
  destruct o; cbn [atom takes] in *; try discriminate At; op_unfold At; brki At; try discriminate At; inversion At; subst; hs; auto.
  all: unfold upd; try match goal with |- context [?a =? ?b] => destruct (Nat.eqb_spec a b); subst; cbn; auto; try discriminate end.
  all: try match goal with E : fs_set _ _ = _ |- _ => unfold fs_set in E; injection E as <- <- end.
  all: try match goal with |- context [match ?o with OVal _ => _ | OExn _ => _ end] => destruct o; auto end.
Qed.
Lemma taken_step : forall h t pre h' n p, lstep h t pre h' n -> fs_taken (h_fsts h' p) = true ->
  fs_taken (h_fsts h p) = true \/ exists r, pre = [FGet3 p true] /\ h_tr h' = EvGot t p r :: h_tr h.
Proof.
  intros h t pre h' n p9 L H. lstep_cases L; try (left; exact H);
    (destruct (taken_atom _ _ _ _ _ _ _ _ A H) as [X|X]; [left; exact X|try contradiction]).
  cbn [takes] in X. destruct take; [subst|contradiction]. right. cbn [atom] in A. op_unfold A. brki A; try discriminate A; injection A as <- <-; eexists; split; reflexivity.
Qed.
Theorem taken_out : forall s, reachable s -> forall p, fs_taken (h_fsts (hp s) p) = true ->
  exists tr1 t r tr2, trace s = tr1 ++ EvGot t p r :: tr2 /\ took_out t p tr1.
Proof.
  apply (reachable_ind'' (fun s => forall p, fs_taken (h_fsts (hp s) p) = true -> exists tr1 t r tr2, trace s = tr1 ++ EvGot t p r :: tr2 /\ took_out t p tr1)).
  - intros p H. discriminate H.
  - intros s s' R R' IH U Tr p H. destruct Tr as [d|t pre rest ub E L|t pre rest h n E L].
    + destruct (IH p H) as (tr1 & v & r & tr2 & Q & T). exists tr1, v, r, (tr2 ++ [EvTick (Zpos d)]). split; auto. change (trace s ++ [EvTick (Zpos d)] = tr1 ++ EvGot v p r :: tr2 ++ [EvTick (Zpos d)]). rewrite Q, <- app_assoc. reflexivity.
    + exact (IH p H).
    + destruct (taken_step _ _ _ _ _ _ L H) as [X|(r & -> & X)].
      * destruct (IH p X) as (tr1 & v & r & tr2 & Q & T). destruct (lstep_trl _ _ _ _ _ L) as [l El]. exists tr1, v, r, (tr2 ++ l). split; auto.
        change (tr_of h = tr1 ++ EvGot v p r :: tr2 ++ l). rewrite El. change (tr_of (hp s)) with (trace s). rewrite Q, <- app_assoc. reflexivity.
      * exists (trace s), t, r, []. split; [unfold trace; cbn [hp]; rewrite X; reflexivity|].
        pose proof (mid_reachable s R t) as M. rewrite E in M. exact M.
Qed.
