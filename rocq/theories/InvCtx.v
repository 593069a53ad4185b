(** * InvCtx: invariants of the registry and of the thread contexts. *)
From Verif Require Import Types Core State Ops Code Machine Base Spec Rules.

(** Events that concern contexts. *)
Definition cev (e : event) : Prop :=
  match e with
  | EvReg _ _ _ _ | EvUnreg _ _ | EvAccept _ _ _ | EvStart _ _ _ | EvDone _ _ | EvSleep _ _ | EvExitSet _ _
  | EvCtxGone _ _ | EvLoc _ _ | EvSpawn _ _ | EvThreadEnd _ => True
  | _ => False
  end.

Definition same_c (h h' : heap) : Prop :=
  h_idgen h' = h_idgen h /\ h_idmap h' = h_idmap h /\ h_regd h' = h_regd h /\
  h_ctxs h' = h_ctxs h /\ h_loc h' = h_loc h.

Inductive cview (h : heap) (t : tid) : heap -> Prop :=
| cv_same : forall h', same_c h h' ->
    (h_tr h' = h_tr h \/ exists e, ~ cev e /\ h_tr h' = e :: h_tr h) -> cview h t h'
| cv_reg : forall n, cview h t (fst (do_reg h t n))
| cv_unreg : forall i, cview h t (fst (do_unreg h t i))
| cv_find : forall i, mem i (h_regd h) = true ->
    cview h t (upd_ctx h i (set_refs (h_ctxs h i) (t :: cx_refs (h_ctxs h i))))
| cv_release : forall i, cview h t (fst (do_release h t i))
| cv_loc : forall l, cview h t (emit (put_loc h (upd (h_loc h) t l)) (EvLoc t l))
| cv_push : forall i k, alive h i = true ->
    cview h t (emit (upd_ctx h i (push_task (h_ctxs h i) k)) (EvAccept t i k))
| cv_exit : forall i, alive h i = true ->
    cview h t (emit (upd_ctx h i (set_exit (h_ctxs h i))) (EvExitSet t i))
| cv_take : forall i k c c', alive h i = true -> h_loc h t = Some i ->
    c = h_ctxs h i \/ c = clear_wakeup (h_ctxs h i) -> take_task c = (Some k, c') ->
    cview h t (take_log h t i k c')
| cv_notake : forall i c c', alive h i = true -> h_loc h t = Some i ->
    c = h_ctxs h i \/ c = clear_wakeup (h_ctxs h i) -> take_task c = (None, c') ->
    cview h t (upd_ctx h i c')
| cv_clear : forall i, alive h i = true -> cview h t (upd_ctx h i (clear_wakeup (h_ctxs h i)))
| cv_sleep : forall i c', alive h i = true -> h_loc h t = Some i ->
    take_task (h_ctxs h i) = (None, c') -> cx_exit c' = false ->
    cview h t (emit (upd_ctx h i (start_sleep c')) (EvSleep t i))
| cv_end : forall i, alive h i = true ->
    cview h t (emit (upd_ctx h i (end_task (h_ctxs h i))) (EvDone t i))
| cv_spawn : forall n, cview h t (emit (put_loc (put_tst h (upd (h_tst h) n (TRun true))) (upd (h_loc h) n None)) (EvSpawn t n))
| cv_thend : forall st, cview h t (emit (put_loc (put_tst h st) (upd (h_loc h) t None)) (EvThreadEnd t)).

Ltac brk H :=
  repeat match type of H with
         | context [match ?x with _ => _ end] => destruct x eqn:?
         end.
Ltac aok H := first [discriminate H | injection H as <- <- | injection H as <-].

Lemma aok_inv : forall T h (x : T) h' x', AOk h x = AOk h' x' -> h' = h /\ x' = x.
Proof. intros T h x h' x' H. now inversion H. Qed.

Lemma view_c : forall h t T (o : op T) inp h' x, op_ok o -> atom h t o inp = AOk h' x -> cview h t h'.
Proof.
  intros h t T o inp h' x Hok H.
  destruct o; cbn [atom] in H; try discriminate H;
    try solve [unfold leaf in H; brk H; try discriminate H; apply aok_inv in H as [-> _];
      (apply cv_same; [repeat split|
         hs; first [left; reflexivity | right; eexists; split; [|reflexivity]; cbn; tauto]])].
  - apply aok_inv in H as [-> _]. apply cv_same; [repeat split|]. right. exists (e t). split; [|reflexivity].
    specialize (Hok t). destruct (e t); cbn in *; tauto.
  - destruct (do_reg h t _) as [h1 i] eqn:E. apply aok_inv in H as [-> _].
    replace h1 with (fst (do_reg h t (match o with Some n => n | None => t end))) by now rewrite E. apply cv_reg.
  - apply aok_inv in H as [-> _]. apply cv_loc.
  - destruct (do_unreg h t i) as [h1 b] eqn:E. apply aok_inv in H as [-> _].
    replace h1 with (fst (do_unreg h t i)) by now rewrite E. apply cv_unreg.
  - destruct (mem i (h_regd h)) eqn:E; apply aok_inv in H as [-> _].
    + now apply cv_find.
    + apply cv_same; [repeat split|]; auto.
  - destruct (do_release h t i) as [h1 b] eqn:E. apply aok_inv in H as [-> _].
    replace h1 with (fst (do_release h t i)) by now rewrite E. apply cv_release.
  - brk H; try discriminate H; apply aok_inv in H as [-> _]; now apply cv_push.
  - brk H; try discriminate H; apply aok_inv in H as [-> _]; now apply cv_exit.
  - unfold do_proc, with_local in H. destruct (alive h i) eqn:A; [|discriminate].
    destruct (h_loc h t) as [j|] eqn:L.
    + destruct (Nat.eqb_spec j i); [subst j|discriminate].
      destruct (cx_exit (h_ctxs h i)).
      * apply aok_inv in H as [-> _]. apply cv_same; [repeat split|]; auto.
      * destruct (take_task (h_ctxs h i)) as [[k|] c'] eqn:T; apply aok_inv in H as [-> _].
        -- apply (cv_take h t i k (h_ctxs h i) c'); auto.
        -- apply (cv_notake h t i (h_ctxs h i) c'); auto.
    + apply aok_inv in H as [-> _]. apply cv_same; [repeat split|]; auto.
  - unfold do_takesleep, with_local in H. destruct (alive h i) eqn:A; [|discriminate].
    destruct (h_loc h t) as [j|] eqn:L.
    + destruct (Nat.eqb_spec j i); [subst j|discriminate].
      destruct (take_task (h_ctxs h i)) as [[k|] c'] eqn:T.
      * apply aok_inv in H as [-> _]. apply (cv_take h t i k (h_ctxs h i) c'); auto.
      * destruct (cx_exit c') eqn:X; apply aok_inv in H as [-> _].
        -- apply (cv_notake h t i (h_ctxs h i) c'); auto.
        -- apply (cv_sleep h t i c'); auto.
    + apply aok_inv in H as [-> _]. apply cv_same; [repeat split|]; auto.
  - unfold do_wake in H. destruct (alive h i) eqn:A; [|discriminate].
    match type of H with (if ?c then _ else _) = _ => destruct c; [|discriminate] end.
    destruct (h_loc h t) as [j|] eqn:L.
    + destruct (Nat.eqb_spec j i); [subst j|discriminate].
      destruct (take_task (clear_wakeup (h_ctxs h i))) as [[k|] c'] eqn:T; apply aok_inv in H as [-> _].
      * apply (cv_take h t i k (clear_wakeup (h_ctxs h i)) c'); auto.
      * apply (cv_notake h t i (clear_wakeup (h_ctxs h i)) c'); auto.
    + apply aok_inv in H as [-> _]. now apply cv_clear.
  - brk H; try discriminate H; apply aok_inv in H as [-> _]; now apply cv_end.
  - brk H; try discriminate H; apply aok_inv in H as [-> _]; now apply cv_spawn.
  - apply aok_inv in H as [-> _]. apply cv_thend.
Qed.

Lemma view_log : forall h t e, log_ok e -> cview h t (emit h e).
Proof.
  intros. apply cv_same; [repeat split|]. right. exists e. split; [|reflexivity].
  destruct e; cbn in *; tauto.
Qed.
Lemma view_tick : forall h t d, cview h t (emit (put_now h (h_now h + Zpos d)) (EvTick (Zpos d))).
Proof. intros. apply cv_same; [repeat split|]. right. eexists. split; [|reflexivity]. cbn; tauto. Qed.

Lemma hstep_view : forall h t h', hstep h t h' -> cview h t h'.
Proof. intros h t h' []; [now apply view_log|eapply view_c; eauto]. Qed.

Theorem ctx_inv_rel : forall P Q : heap -> Prop,
  (forall s, reachable s -> P (hp s)) ->
  Q heap0 -> (forall h t h', P h -> Q h -> cview h t h' -> Q h') -> forall s, reachable s -> Q (hp s).
Proof.
  intros P Q HP H0 HS. apply (heap_rel P Q); auto.
  - intros. apply (HS h 0); auto. apply view_tick.
  - intros. apply (HS h t); auto. now apply hstep_view.
Qed.
Theorem ctx_inv : forall P : heap -> Prop,
  P heap0 -> (forall h t h', P h -> cview h t h' -> P h') -> forall s, reachable s -> P (hp s).
Proof. intros P H0 HS. apply (ctx_inv_rel (fun _ => True) P); eauto. Qed.

(** ** Contexts as pure data *)
Lemma skipn_set_nth : forall A n (v : A) l, skipn (S n) (set_nth n v l) = skipn (S n) l.
Proof. induction n; destruct l; simpl; auto. apply IHn. Qed.
Lemma skipn_nth : forall A n (l : list A) d, n < length l -> skipn n l = nth n l d :: skipn (S n) l.
Proof.
  induction n; destruct l; simpl; intros; try lia; auto. rewrite (IHn l d) by lia. reflexivity.
Qed.

Definition same_ctl (c c' : ctx) : Prop :=
  cx_native c' = cx_native c /\ cx_exit c' = cx_exit c /\ cx_refs c' = cx_refs c /\
  cx_wakeup c' = cx_wakeup c /\ cx_sig c' = cx_sig c.

Lemma take_some : forall c k c', take_task c = (Some k, c') ->
  ctx_pending c = k :: ctx_pending c' /\ same_ctl c c' /\ cx_depth c' = (cx_depth c + 1)%Z /\
  cx_idx c' <= length (cx_proc c').
Proof.
  intros c k c' H. unfold take_task in H. set (d := prepare_tasks c) in *.
  assert (P : ctx_pending c = ctx_pending d).
  { unfold d, prepare_tasks, has_tasks_to_process, ctx_pending.
    destruct (cx_idx c <? length (cx_proc c)) eqn:E; simpl; auto.
    apply Nat.ltb_ge in E. destruct (cx_tasks c) eqn:T; simpl; rewrite ?T; auto.
    rewrite skipn_all2 by lia. now rewrite app_nil_r. }
  assert (S : same_ctl c d /\ cx_depth d = cx_depth c).
  { unfold d, prepare_tasks, same_ctl. destruct (_ && _); simpl; tauto. }
  destruct S as [S D].
  destruct (has_tasks_to_process d) eqn:E; [|discriminate]. injection H as <- <-.
  unfold has_tasks_to_process in E. apply Nat.ltb_lt in E. 
  split; [|split; [exact S|split; [simpl; lia|]]].
  - rewrite P. unfold ctx_pending. cbn [cx_idx cx_proc cx_tasks].
    rewrite skipn_set_nth. rewrite (skipn_nth _ _ _ TNull E). reflexivity.
  - cbn [cx_idx cx_proc]. revert E. generalize (cx_idx d), (cx_proc d). clear.
    intros n l H. assert (L : length (set_nth n TNull l) = length l); [|lia].
    revert l H. induction n; destruct l; simpl; intros; auto. rewrite IHn; lia.
Qed.

Lemma take_none : forall c c', take_task c = (None, c') -> c' = c /\ ctx_pending c = [].
Proof.
  intros c c' H. unfold take_task, prepare_tasks in H.
  destruct (has_tasks_to_process c) eqn:E; simpl in H; [rewrite E in H; discriminate|].
  unfold has_tasks_to_process in *. apply Nat.ltb_ge in E.
  destruct (cx_tasks c) eqn:T; simpl in H.
  - assert ((cx_idx c <? length (cx_proc c)) = false) as E' by now apply Nat.ltb_ge.
    rewrite E' in H. injection H as <-. split; auto.
    unfold ctx_pending. now rewrite skipn_all2, T by lia.
  - discriminate.
Qed.

Lemma mem_In : forall i l, mem i l = true <-> In i l.
Proof.
  intros. unfold mem. rewrite existsb_exists. split.
  - intros (x & I & E). apply Nat.eqb_eq in E. now subst.
  - intros I. exists i. split; auto. apply Nat.eqb_refl.
Qed.
Lemma rem_In : forall i x l, In x (rem i l) <-> In x l /\ x <> i.
Proof.
  intros. unfold rem. rewrite filter_In. destruct (Nat.eqb_spec x i); simpl; intuition congruence.
Qed.
Lemma NoDup_filter' : forall A (f : A -> bool) l, NoDup l -> NoDup (filter f l).
Proof. intros. now apply NoDup_filter. Qed.

(** ** The registry *)
Record reg_inv (h : heap) : Prop := {
  ri_nodup : NoDup (h_regd h);
  ri_range : forall i, In i (h_regd h) -> 0 < i <= h_idgen h;
  ri_map : forall n i, h_idmap h n = Some i -> In i (h_regd h) /\ cx_native (h_ctxs h i) = n;
  ri_back : forall i, In i (h_regd h) -> h_idmap h (cx_native (h_ctxs h i)) = Some i;
  ri_fresh : forall i, h_idgen h < i -> h_ctxs h i = no_ctx;
  ri_zero : h_ctxs h 0 = no_ctx }.

Lemma alive_range : forall h i, reg_inv h -> alive h i = true -> 0 < i <= h_idgen h.
Proof.
  intros h i R A. unfold alive in A. apply orb_true_iff in A as [A|A].
  - apply mem_In in A. now apply (ri_range h R).
  - destruct (Nat.eq_dec i 0) as [->|]; [now rewrite (ri_zero h R) in A|].
    destruct (le_lt_dec i (h_idgen h)); [lia|].
    rewrite (ri_fresh h R) in A by lia. discriminate.
Qed.

(** What do_reg does. *)
Lemma do_reg_cases : forall h t n, reg_inv h ->
  (exists i, h_idmap h n = Some i /\ In i (h_regd h) /\
     do_reg h t n = (emit (upd_ctx h i (set_refs (h_ctxs h i) (t :: cx_refs (h_ctxs h i)))) (EvReg t n i false), i)) \/
  (h_idmap h n = None /\
     do_reg h t n = let i := S (h_idgen h) in
       (emit (put_regd (put_idmap (upd_ctx (put_idgen h i) i (set_refs (new_ctx n) [t]))
                                  (upd (h_idmap h) n (Some i))) (i :: h_regd h)) (EvReg t n i true), i)).
Proof.
  intros h t n R. unfold do_reg. destruct (h_idmap h n) as [i|] eqn:E.
  - left. exists i. destruct (ri_map h R _ _ E) as [I N]. split; auto. split; auto.
    pose proof (ri_range h R _ I). destruct (Nat.eqb_spec i invalid_id); [unfold invalid_id in *; lia|].
    assert ((mem i (h_regd h)) = true) as -> by now apply mem_In. reflexivity.
  - right. split; auto. cbn zeta.
    assert (mem (S (h_idgen h)) (h_regd (put_idgen h (S (h_idgen h)))) = false) as ->; [|reflexivity].
    hs. destruct (mem _ _) eqn:M; auto. apply mem_In in M. apply (ri_range h R) in M. lia.
Qed.

Lemma reg_inv_upd : forall h i c, reg_inv h -> alive h i = true -> cx_native c = cx_native (h_ctxs h i) ->
  reg_inv (upd_ctx h i c).
Proof.
  intros h i c R A N. pose proof (alive_range h i R A) as G. destruct R. constructor; hs; auto.
  - intros n j E. destruct (ri_map0 n j E) as [I X]. split; auto. rewrite upd_eq.
    destruct (Nat.eqb_spec j i); congruence.
  - intros j I. rewrite upd_eq. destruct (Nat.eqb_spec j i); subst; rewrite ?N; auto.
  - intros j L. rewrite upd_other by lia. auto.
  - rewrite upd_other by lia. auto.
Qed.
Lemma reg_inv_emit : forall h e, reg_inv h -> reg_inv (emit h e).
Proof. intros h e []; constructor; hs; auto. Qed.
Lemma alive_mem : forall h i, mem i (h_regd h) = true -> alive h i = true.
Proof. intros h i H. unfold alive. now rewrite H. Qed.

Lemma reg_inv_refs : forall h i r, reg_inv h -> (alive h i = false -> r = []) ->
  reg_inv (upd_ctx h i (set_refs (h_ctxs h i) r)).
Proof.
  intros h i r R D. destruct (alive h i) eqn:A; [now apply reg_inv_upd|].
  rewrite (D eq_refl). 
  assert (N : mem i (h_regd h) = false) by (unfold alive in A; now apply orb_false_iff in A).
  assert (RF : cx_refs (h_ctxs h i) = []).
  { unfold alive in A. apply orb_false_iff in A as [_ A]. destruct (cx_refs _); [auto|discriminate]. }
  assert (X : set_refs (h_ctxs h i) [] = h_ctxs h i).
  { destruct (h_ctxs h i); simpl in *. now rewrite RF. }
  rewrite X. destruct R. constructor; hs; auto.
  - intros n j E. rewrite upd_eq. destruct (Nat.eqb_spec j i); subst; auto.
  - intros j I. rewrite upd_eq. destruct (Nat.eqb_spec j i); subst; auto.
  - intros j L. rewrite upd_eq. destruct (Nat.eqb_spec j i); subst; auto.
  - rewrite upd_eq. destruct (Nat.eqb_spec 0 i); subst; auto.
Qed.

Lemma dead_refs : forall h i, alive h i = false -> cx_refs (h_ctxs h i) = [] /\ ~ In i (h_regd h).
Proof.
  intros h i A. unfold alive in A. apply orb_false_iff in A as [A B]. split.
  - destruct (cx_refs _); [auto|discriminate].
  - intros I. apply mem_In in I. congruence.
Qed.

Lemma reg_inv_view : forall h t h', reg_inv h -> cview h t h' -> reg_inv h'.
Proof.
  intros h t h' R V. destruct V; auto.
  - destruct H as (A & B & C & D & E). destruct R. constructor; rewrite ?A, ?B, ?C, ?D; auto.
  - destruct (do_reg_cases h t n R) as [(i & E & I & ->)|(E & ->)]; cbn [fst].
    + apply reg_inv_emit. apply reg_inv_upd; auto. apply alive_mem. now apply mem_In.
    + cbn zeta. set (i := S (h_idgen h)). pose proof R as R'. destruct R. apply reg_inv_emit. constructor; hs.
      * constructor; auto. intros I. apply ri_range0 in I. lia.
      * intros j [<-|I]; [lia|]. apply ri_range0 in I. lia.
      * intros m j. rewrite upd_eq. destruct (Nat.eqb_spec m n) as [->|].
        -- injection 1 as <-. split; [now left|]. now rewrite upd_same.
        -- intros X. destruct (ri_map0 _ _ X) as [I Y]. split; [now right|].
           rewrite upd_other; auto. apply ri_range0 in I. lia.
      * intros j [<-|I].
        -- rewrite upd_same. cbn. apply upd_same.
        -- pose proof (ri_range0 _ I). rewrite (upd_other ctx) by lia.
           rewrite upd_other; auto. intros X. pose proof (ri_back0 _ I). congruence.
      * intros j L. rewrite upd_other by lia. apply ri_fresh0. lia.
      * rewrite upd_other by lia. auto.
  - unfold do_unreg. destruct (mem i (h_regd h)) eqn:M; cbn [fst]; auto.
    apply reg_inv_emit. apply mem_In in M. destruct R. constructor; hs.
    + now apply NoDup_filter.
    + intros j I. apply rem_In in I as [I _]. auto.
    + intros n j. rewrite upd_eq. destruct (Nat.eqb_spec n (cx_native (h_ctxs h i))) as [|N]; [discriminate|].
      intros X. destruct (ri_map0 _ _ X) as [I Y].
      assert (j <> i) by congruence. split; [now apply rem_In|]. now rewrite upd_other.
    + intros j I. apply rem_In in I as [I N]. rewrite (upd_other ctx) by auto.
      rewrite upd_other; auto. intros X. pose proof (ri_back0 _ I). pose proof (ri_back0 _ M). congruence.
    + intros j L. rewrite upd_other; auto. pose proof (ri_range0 _ M). lia.
    + pose proof (ri_range0 _ M). rewrite upd_other by lia. auto.
  - apply reg_inv_upd; auto. now apply alive_mem.
  - unfold do_release.
    assert (reg_inv (upd_ctx h i (set_refs (h_ctxs h i) (rem1 t (cx_refs (h_ctxs h i)))))) as X.
    { apply reg_inv_refs; auto. intros D. apply dead_refs in D as [-> _]. reflexivity. }
    destruct (alive _ _); cbn [fst]; auto using reg_inv_emit.
  - destruct R. constructor; hs; auto.
  - apply reg_inv_emit, reg_inv_upd; auto.
  - apply reg_inv_emit, reg_inv_upd; auto.
  - apply reg_inv_emit, reg_inv_upd; auto. apply take_some in H2 as (_ & S & _).
    destruct H1 as [->| ->]; apply S.
  - apply take_none in H2 as [-> _]. apply reg_inv_upd; auto. destruct H1 as [->| ->]; reflexivity.
  - apply reg_inv_upd; auto.
  - apply take_none in H1 as [-> _]. apply reg_inv_emit, reg_inv_upd; auto.
  - apply reg_inv_emit, reg_inv_upd; auto.
  - destruct R. constructor; hs; auto.
  - destruct R. constructor; hs; auto.
Qed.

Theorem reg_inv_reachable : forall s, reachable s -> reg_inv (hp s).
Proof.
  apply ctx_inv; [|exact reg_inv_view].
  constructor; cbn; auto; try tauto; try discriminate. constructor.
Qed.
