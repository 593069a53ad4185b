(** * InvCheck: every queue entry is matched by a check to come, for each worker. *)
From Verif Require Import Types Core State Ops Code Machine Base Spec SpecPool SpecCheck Rules Events InvCtx InvBound InvStack InvRefs InvAff InvCv InvPack Adj Calls Contract Count Replay ReplayObj InvJobs InvTab ThmPool Own OwnJob InvBuild ThmSleep.
From Coq Require Import Permutation.
Local Open Scope Z_scope.

Section Chk.
Variables (pl0 lv0 : nat) (i0 : id).
Definition b2z (b : bool) : Z := if b then 1 else 0.
Definition fwt (loc : tid -> option id) (t : tid) (f : frame) : Z :=
  Z.of_nat (sending pl0 lv0 i0 f) + b2z (checking pl0 lv0 f && at_id (loc t) i0).
Definition qk (k : task) : Z := b2z (is_check pl0 lv0 k).
Definition qc (h : heap) : Z := sumf qk (ctx_pending (h_ctxs h i0)).
Definition qd {T} (o : op T) : T -> Z :=
  match o in op T return T -> Z with
  | OPush c k => fun _ => if (c =? i0)%nat then qk k else 0
  | OProc c => fun r => match r with WTask k => if (c =? i0)%nat then - qk k else 0 | _ => 0 end
  | OTakeSleep c => fun r => match r with WTask k => if (c =? i0)%nat then - qk k else 0 | _ => 0 end
  | OWake c _ => fun r => match snd r with Some k => if (c =? i0)%nat then - qk k else 0 | None => 0 end
  | _ => fun _ => 0
  end.
Lemma atom_q : forall h t T (o : op T) inp h' x, reg_inv h -> In i0 (h_regd h) -> atom h t o inp = AOk h' x -> qc h' = qc h + qd o x.
Proof.
  intros h t T o inp h' x R I At. assert (Rg : (0 < i0 <= h_idgen h)%nat) by now apply (ri_range h R).
  destruct o; cbn [qd] in *; try solve [cbn [atom] in At; try discriminate At; atom_split At; unfold qc; hs; lia].
  - (* OReg *) cbn [atom] in At. destruct (do_reg h t _) as [h1 i] eqn:D. inversion At; subst; clear At.
    destruct (do_reg_cases h t (match o with Some n => n | None => t end) R) as [(i & E & J & D')|(E & D')];
      rewrite D' in D; inversion D; subst; clear D D'; unfold qc; hs; rewrite upd_eq.
    + destruct (Nat.eqb_spec i0 x); [subst; unfold ctx_pending; cbn; lia|lia].
    + destruct (Nat.eqb_spec i0 (S (h_idgen h))); lia.
  - atom_split At; unfold qc; hs; try lia; rewrite upd_eq; (destruct (Nat.eqb_spec i0 i); [subst; unfold ctx_pending; cbn; lia|lia]).
  - atom_split At; unfold qc; hs; try lia; rewrite upd_eq; (destruct (Nat.eqb_spec i0 i); [subst; unfold ctx_pending; cbn; lia|lia]).
  - atom_split At; unfold qc; hs; try lia; rewrite upd_eq; (destruct (Nat.eqb_spec i0 i); [subst; unfold ctx_pending; cbn; lia|lia]).
  - (* OPush *) atom_split At; unfold qc; hs; try lia; rewrite upd_eq, (Nat.eqb_sym i); (destruct (Nat.eqb_spec i0 i); [subst|lia]).
    unfold ctx_pending. cbn. rewrite !sumf_app. cbn. lia.
  - atom_split At; unfold qc; hs; try lia; rewrite upd_eq; (destruct (Nat.eqb_spec i0 i); [subst; unfold ctx_pending; cbn; lia|lia]).
  - (* OProc *) atom_split At; unfold qc; hs; try lia; rewrite upd_eq, ?(Nat.eqb_sym i); (destruct (Nat.eqb_spec i0 i); [subst|lia]).
    + apply take_some in Heqp as (P & _). rewrite P. cbn. lia.
    + apply take_none in Heqp as [-> P]. lia.
  - atom_split At; unfold qc; hs; try lia; rewrite upd_eq, ?(Nat.eqb_sym i); (destruct (Nat.eqb_spec i0 i); [subst|lia]).
    + apply take_some in Heqp as (P & _). rewrite P. cbn. lia.
    + apply take_none in Heqp as [-> P]. lia.
    + apply take_none in Heqp as [-> P]. unfold ctx_pending in *. cbn in *. lia.
  - atom_split At; unfold qc; hs; try lia; rewrite upd_eq, ?(Nat.eqb_sym i); (destruct (Nat.eqb_spec i0 i); [subst|lia]);
      change (ctx_pending (h_ctxs h i)) with (ctx_pending (clear_wakeup (h_ctxs h i))).
    all: first [apply take_some in Heqp as (P & _); rewrite P; cbn; lia | apply take_none in Heqp as [-> P]; lia | lia].
  - atom_split At; unfold qc; hs; try lia; rewrite upd_eq; (destruct (Nat.eqb_spec i0 i); [subst; unfold ctx_pending; cbn; lia|lia]).
Qed.
Lemma atom_at : forall h t T (o : op T) inp h' x, atom h t o inp = AOk h' x -> qd o x < 0 -> h_loc h t = Some i0 /\ h_loc h' t = Some i0.
Proof.
  intros h t T o inp h' x At N. assert (Q : forall k, - qk k < 0 -> True) by auto.
  destruct o; cbn [qd] in N; try lia.
  - unfold qk, b2z in N. destruct (i =? i0)%nat; [destruct (is_check _ _ _)|]; lia.
  - destruct x; try lia. destruct (Nat.eqb_spec i i0); [subst|lia]. cbn [atom] in At. atom_split At; hs. apply Nat.eqb_eq in Heqb0. subst. rewrite Heqo. auto.
  - destruct x; try lia. destruct (Nat.eqb_spec i i0); [subst|lia]. cbn [atom] in At. atom_split At; hs. apply Nat.eqb_eq in Heqb0. subst. rewrite Heqo. auto.
  - destruct (snd x) eqn:Sx; try lia. destruct (Nat.eqb_spec i i0); [subst|lia]. cbn [atom] in At. atom_split At; hs; try discriminate Sx.
    all: match goal with H : (_ =? i0)%nat = true |- _ => apply Nat.eqb_eq in H; subst end; split; congruence.
Qed.
Lemma often_nn : forall ws, 0 <= Z.of_nat (how_often lv0 i0 ws).
Proof. intros. lia. Qed.
Lemma fwt_nn : forall loc t f, 0 <= fwt loc t f.
Proof. intros. unfold fwt, b2z. destruct (_ && _); lia. Qed.
Lemma sum_nn : forall loc t l, 0 <= sumf (fwt loc t) l.
Proof. intros. apply sumf_nonneg, fwt_nn. Qed.
Definition ed (e : event) : Z :=
  match e with
  | EvJobAdd _ p _ g _ _ | EvJobRegroup _ p _ g => b2z ((p =? pl0)%nat && (lv0 <=? g_level g)%nat)
  | EvJobTake _ p _ l _ | EvJobSkip _ p l _ => - b2z ((p =? pl0)%nat && (l =? lv0)%nat)
  | _ => 0
  end.
Lemma often_in : forall ws, In (lv0, i0) ws -> 1 <= Z.of_nat (how_often lv0 i0 ws).
Proof.
  induction ws as [|[l j] ws IH]; intros H; [contradiction|]. cbn [how_often]. destruct H as [H|H].
  - injection H as -> ->. rewrite !Nat.eqb_refl. cbn [andb]. lia.
  - specialize (IH H). lia.
Qed.
Lemma run_w : forall loc t k, loc t = Some i0 -> qk k <= fwt loc t (FRun k).
Proof. intros loc t k E. unfold fwt, qk. cbn [sending checking]. rewrite E. cbn [at_id]. rewrite Nat.eqb_refl, andb_true_r. lia. Qed.
Lemma qk01 : forall k, 0 <= qk k <= 1.
Proof. intros k. unfold qk, b2z. destruct (is_check _ _ _); lia. Qed.
(** A closure taken from the queue is run. *)
Lemma run_taken : forall h t T (o : op T) inp h' x k c r, atom h t o inp = AOk h' x -> qd o x = (if (c =? i0)%nat then - qk k else 0) ->
  0 <= sumf (fwt (h_loc h') t) (FRun k :: r) + (if (c =? i0)%nat then - qk k else 0).
Proof.
  intros h t T o inp h' x k c r A Q. cbn [sumf]. pose proof (sum_nn (h_loc h') t r). pose proof (fwt_nn (h_loc h') t (FRun k)). pose proof (qk01 k).
  destruct (c =? i0)%nat; [|lia]. destruct (Z.eq_dec (qk k) 0); [lia|].
  destruct (atom_at _ _ _ _ _ _ _ A) as [_ E]; [rewrite Q; lia|]. pose proof (run_w _ _ k E). lia.
Qed.
Lemma check_step : forall h t pre h' n, reg_inv h -> In i0 (h_regd h) -> In i0 (h_regd h') -> cx_exit (h_ctxs h i0) = false -> In (lv0, i0) (workers_for (h_pools h pl0) lv0) ->
  lstep h t pre h' n ->
  sumf (fwt (h_loc h) t) pre + qc h + sumf ed (new_acts t h h') <= sumf (fwt (h_loc h') t) (next_frames n) + qc h'.
Proof.
  intros h t pre h' n R I I' X W L. assert (I0 : i0 <> 0%nat) by (pose proof (ri_range h R _ I); lia).
  lstep_cases L; cbn [next_frames].
  all: try (rewrite (new_acts_op _ _ _ _ _ _ _ A); cbn [op_event]);
    try (erewrite new_acts_one by reflexivity); unfold by_thread; cbn [actor]; rewrite ?Nat.eqb_refl.
  all: try (match goal with A : atom _ _ _ _ = AOk _ _ |- _ => rewrite (atom_q _ _ _ _ _ _ _ R I A) end; cbn [qd]).
  all: try match goal with |- context [qc (emit ?a ?e)] => change (qc (emit a e)) with (qc a) end.
  all: try solve [match goal with |- _ <= ?r + _ => assert (Nn : 0 <= r) by (apply sumf_nonneg, fwt_nn); revert Nn; generalize r; intros rr Nn end;
    unfold fwt; cbn [sumf sending checking is_check andb b2z ed];
    repeat match goal with |- context [match ?x with _ => _ end] =>
      lazymatch x with context [match _ with _ => _ end] => fail | actor _ => fail | _ => destruct x; cbn [actor sumf ed]; rewrite ?Nat.eqb_refl; cbn [sumf ed actor] end end; lia].
  - cbn [atom] in A. injection A as <- <-. unfold fwt. cbn. lia.
  - (* FInvoke *) pose proof (sum_nn (h_loc h') t (lresume c false (Some k))). unfold fwt at 1. cbn [sumf sending checking andb b2z].
    destruct (Nat.eqb_spec i i0) as [->|]; [|cbn; lia]. destruct k; try discriminate; cbn; try lia.
    cbn in Heqb. apply Nat.eqb_eq in Heqb. contradiction.
  - cbn [atom] in A. destruct x; [|pose proof (sum_nn (h_loc h') t (lresume c false (Some k)))].
    + cbn [sumf]. unfold fwt. cbn [sending checking andb b2z]. lia.
    + unfold fwt at 1. cbn [sumf sending checking andb b2z]. destruct (Nat.eqb_spec i i0) as [->|]; [|cbn; lia].
      apply mem_In in I. rewrite I in A. discriminate A.
  - (* FPush *) cbn [sumf ed]. pose proof (sum_nn (h_loc h') t (lresume c true None)). pose proof (fwt_nn (h_loc h') t (FRel i)).
    unfold fwt at 1, qk. cbn [sending checking andb b2z]. destruct (i =? i0)%nat; cbn [andb]; destruct (is_check pl0 lv0 k); unfold b2z; lia.
  - (* FDisp *) assert (Q : h' = h /\ x = match h_loc h t with Some i => i | None => invalid_id end)
      by (cbn [atom] in A; destruct (h_loc h t); brki A; inversion A; auto).
    destruct Q as [-> ->]. set (m := match h_loc h t with Some i => i | None => invalid_id end) in *.
    destruct (Nat.eqb_spec m i) as [E|N].
    + cbn [app sumf ed]. pose proof (sum_nn (h_loc h) t (lresume c true None)). pose proof (fwt_nn (h_loc h) t (FDrop k)). pose proof (fwt_nn (h_loc h) t (FRun k)).
      unfold fwt at 1. cbn [sending checking andb b2z]. destruct (Nat.eqb_spec i i0) as [->|]; [|cbn [andb]; lia]. cbn [andb].
      assert (Q : h_loc h t = Some i0) by (unfold m in E; destruct (h_loc h t); [congruence|subst; elim I0; auto]).
      pose proof (run_w _ _ k Q) as RW. unfold qk, b2z in RW. destruct (is_check _ _ _); lia.
    + unfold fwt. cbn [sumf sending checking andb b2z ed]. lia.
  - (* FProc *) destruct x as [k| |]; cbn [sumf ed actor]; rewrite ?Nat.eqb_refl; unfold fwt at 1; cbn [sending checking andb b2z sumf ed]; try lia.
    pose proof (run_taken _ _ _ _ _ _ _ k c (FDrop k :: FPoEnd c :: [FProc c]) A eq_refl). cbn [run_one app]. lia.
  - destruct x as [k| |]; cbn [sumf ed actor]; rewrite ?Nat.eqb_refl; unfold fwt at 1; cbn [sending checking andb b2z sumf ed]; try lia.
    pose proof (run_taken _ _ _ _ _ _ _ k c (FDrop k :: FPoEnd c :: [FPfNow c e]) A eq_refl). cbn [run_one app]. lia.
  - destruct x as [k'| |]; cbn [sumf ed actor]; rewrite ?Nat.eqb_refl; unfold fwt at 1; cbn [sending checking andb b2z sumf ed];
      try (pose proof (sum_nn (h_loc h') t (wresume k false)); lia).
    + pose proof (run_taken _ _ _ _ _ _ _ k' c (FDrop k' :: FPoEnd c :: wresume k false) A eq_refl). cbn [run_one app]. lia.
    + match goal with |- context [fwt ?a ?b (FSleep ?c ?d ?e)] => pose proof (fwt_nn a b (FSleep c d e)) end. lia.
  - destruct x as [b [k'|]]; cbn [snd fst sumf ed actor]; rewrite ?Nat.eqb_refl; unfold fwt at 1; cbn [sending checking andb b2z sumf ed app];
      try (pose proof (sum_nn (h_loc h') t (wresume k b)); lia).
    pose proof (run_taken _ _ _ _ _ _ _ k' c (FDrop k' :: FPoEnd c :: wresume k b) A eq_refl). cbn [run_one app]. lia.
  - (* FSched3 *) unfold fwt. cbn [sumf ed sending checking]. destruct ((pl =? pl0)%nat && (lv0 <=? g_level g)%nat); unfold b2z; cbn [andb]; lia.
  - (* FPNotify *) cbn [atom] in A. injection A as <- <-. unfold fwt. cbn [sumf ed sending checking andb b2z].
    destruct (Nat.eqb_spec pl pl0) as [->|]; [|cbn; lia]. cbn [andb]. destruct (Nat.leb_spec lv0 lv); [|lia].
    assert (J : In (lv0, i0) (workers_for (h_pools h pl0) lv)).
    { unfold workers_for in *. apply in_map_iff in W as ([l w] & Q & J). apply in_map_iff. exists (l, w). split; auto. apply filter_In in J as [J1 J2].
      apply filter_In. split; auto. cbn [fst snd] in *. apply Nat.leb_le. injection Q as Q1 _. lia. }
    pose proof (often_in _ J). lia.
  - (* FPDisp *) unfold fwt. cbn [sumf ed sending checking andb b2z how_often]. destruct (_ =? _)%nat; lia.
  - unfold fwt. cbn [sumf ed sending checking andb b2z how_often is_check]. destruct (Nat.eqb_spec pl pl0); [|lia].
    rewrite Nat2Z.inj_add. subst. destruct (Nat.eqb_spec n0 lv0); destruct (Nat.eqb_spec i i0); cbn [andb]; lia.
  - (* FPChg1 *) destruct x; cbn [actor]; rewrite ?Nat.eqb_refl; unfold fwt; cbn [sumf ed sending checking]; [|cbn [andb b2z]; lia]. destruct ((pl =? pl0)%nat && (lv0 <=? g_level g)%nat); unfold b2z; cbn [andb]; lia.
  - (* FCheck *) cbn [atom] in A. destruct x.
    + unfold fwt. cbn [sumf ed sending checking]. destruct (h_loc h t) as [j|] eqn:E; cbn [at_id]; [|rewrite andb_false_r; cbn; lia].
      destruct (Nat.eqb_spec j i0) as [->|]; [|rewrite andb_false_r; cbn; lia]. destruct (alive h i0); [|discriminate A]. injection A as _ A. congruence.
    + assert (h' = h) by (destruct (h_loc h t); [destruct (alive h i)|]; try discriminate A; now injection A as <- _). subst h'.
      unfold fwt. cbn. lia.
  - (* FCheck1 *) assert (Q : h_loc h' = h_loc h) by (cbn [atom] in A; atom_split A; reflexivity). rewrite Q. unfold fwt. cbn. lia.
  - (* FCheck2 *)
    match goal with |- _ <= ?r + _ => assert (Nn : 0 <= r) by (apply sumf_nonneg, fwt_nn); revert Nn; generalize r; intros rr Nn end.
    destruct x as [d y]. unfold fwt. cbn [sumf sending checking fst snd].
    destruct d as [d|]; [destruct y as [[j k]|]|]; cbn [actor]; rewrite Nat.eqb_refl; cbn [sumf ed]; unfold b2z; destruct ((pl =? pl0)%nat && (lv =? lv0)%nat); cbn [andb]; try destruct (at_id (h_loc h t) i0); lia.
Qed.

(** ** Checks in progress are at the top of the stack *)
Definition is_top (f : frame) : bool := match f with FRun (TCheck _ _) | FCheck _ _ | FCheck1 _ _ | FCheck2 _ _ => true | _ => false end.
Definition ctop (a : option frame) (f : frame) (r : list frame) : Prop := is_top f = true -> a = None.
Theorem ctop_reachable : forall s, reachable s -> forall t, adj ctop None (stk s t).
Proof.
  apply (adj_rule (fun s t => ctop)); auto.
  - intros t. cbn. destruct t; cbn; unfold ctop; cbn; repeat split; discriminate.
  - intros s t pre rest h n R R' E L Fp. split; [|split].
    + lstep_cases L; cbn [next_frames] in *; sh_; try exact Logic.I; unfold ctop; cbn [is_top]; try discriminate; try reflexivity.
      intros Q. exfalso. destruct x as [d y]. cbn [snd] in Heqo. subst y. cbn [atom] in A.
      destruct (pool_take (h_pools (hp s) pl) lv inp) as [p' r'] eqn:T.
      assert (r' = Some (n, t0)) by (destruct (pool_top _ _ _); destruct r' as [[]|]; try discriminate A; now inversion A). subst r'. destruct (take_closure _ _ _ _ _ _ T) as (y & J & K & _).
      pose proof (tab_inv pl s R) as F. rewrite Forall_forall in F. destruct (F _ J) as (? & ? & ? & ? & _ & _ & [C|(? & ? & C)]); cbn in C; rewrite K in C; rewrite C in Q; discriminate Q.
    + destruct rest as [|g r]; auto. intros Hg. assert (N : lasto None pre <> None).
      { assert (pre <> []) by (intros ->; inversion L). destruct pre as [|f pre]; [congruence|]. cbn. clear. revert f. induction pre; cbn; [discriminate|auto]. }
      intros Q. apply Hg in Q. contradiction.
    + destruct (spawned n) as [[c cfs]|] eqn:Sp; auto. destruct (lstep_spawned _ _ _ _ _ _ _ L Sp) as (_ & _ & b & ->). destruct b; cbn; unfold ctop; cbn; repeat split; discriminate.
Qed.

(** ** The ids of workers *)
Theorem worker_own : forall s, reachable s -> forall t, Forall (fun f => match f with FPWk _ _ n i => own (hp s) i n | _ => True end) (stk s t).
Proof.
  apply (frame_rule reachable (fun h _ f => match f with FPWk _ _ n i => own h i n | _ => True end)); try exact Logic.I; auto.
  - intros s t pre rest h n u f R _ E L _ _ H. destruct f; auto. eapply own_lstep; eauto.
  - intros s t pre rest h n R E L Fp _. pose proof (reg_inv_reachable s R) as RI.
    lstep_cases L; (split; [|try exact Logic.I; cbn [spawned]; try (fl_; exact Logic.I)]); cbn [next_frames]; fl_; try exact Logic.I.
    cbn [atom] in A. destruct (do_reg (hp s) t n0) as [h1 i] eqn:D. inversion A; subst; clear A.
    destruct (do_reg_cases (hp s) t n0 RI) as [(i & X & I & D')|(X & D')]; rewrite D' in D; cbn zeta in D; inversion D; subst; unfold own; hs.
    + split; [now apply (ri_range _ RI)|]. rewrite upd_same. cbn. now apply (ri_map _ RI) in X.
    + split; [lia|]. now rewrite upd_same.
Qed.
Lemma worker_frame : forall u1 pl1 lv1 n1 i1 h t pre h' n, lstep h t pre h' n -> h_tr h' = EvWorker u1 pl1 lv1 n1 i1 :: h_tr h -> pre = [FPWk pl1 lv1 n1 i1].
Proof. intros u1 pl1 lv1 n1 i1 h t pre h' n L X. ev_cases L X. injection X; intros; now subst. Qed.
Lemma worker_new : forall s t pre rest h n pl lv m i, stk s t = pre ++ rest -> lstep (hp s) t pre h n ->
  In (lv, (m, i)) (workers_of pl (tr_of h)) -> In (lv, (m, i)) (workers_of pl (trace s)) \/ pre = [FPWk pl lv m i] /\ h_tr h = EvWorker t pl lv m i :: h_tr (hp s).
Proof.
  intros s t pre rest h n pl lv m i E L J. destruct (lstep_tr _ _ _ _ _ L) as [X|[e X]]; unfold tr_of in J; rewrite X in J; auto.
  cbn [rev] in J. rewrite workers_snoc in J. destruct e; cbn in J; auto.
  - destruct (Nat.eqb_spec pl1 pl); auto. apply in_app_or in J as [J|[J|[]]]; auto. injection J as -> -> ->. subst.
    right. pose proof (worker_frame _ _ _ _ _ _ _ _ _ _ L X). split; auto. destruct (lstep_actor _ _ _ _ _ _ L X) as [A|A]; [injection A as ->; auto|discriminate A].
  - destruct (_ =? _)%nat; auto. destruct J.
Qed.
Theorem worker_ids : forall pl s, reachable s -> forall lv n i, In (lv, (n, i)) (workers_of pl (trace s)) -> own (hp s) i n.
Proof.
  intros pl. apply (reachable_ind'' (fun s => forall lv n i, In (lv, (n, i)) (workers_of pl (trace s)) -> own (hp s) i n)).
  - intros lv n i [].
  - intros s s' R R' IH U Tr lv m i J. destruct Tr as [d|t pre rest u E L|t pre rest h n E L]; auto.
    + change (trace (mkSt _ _ _)) with (trace s ++ [EvTick (Zpos d)]) in J. rewrite workers_snoc in J. exact (own_tick _ d _ _ (IH _ _ _ J)).
    + exact (IH _ _ _ J).
    + apply (own_lstep s t pre h n R L). destruct (worker_new _ _ _ _ _ _ _ _ _ _ E L J) as [J'|[-> _]]; eauto.
      pose proof (worker_own s R t) as F. rewrite E in F. inversion F as [|? ? F1 F2]. exact F1.
Qed.

(** ** Entries and checks *)
Lemma perm_filter : forall A (f : A -> bool) l l', Permutation l l' -> Permutation (filter f l) (filter f l').
Proof.
  intros A f l l' P. induction P; cbn; auto.
  - destruct (f x); auto.
  - destruct (f x), (f y); auto. apply perm_swap.
  - eapply perm_trans; eauto.
Qed.
Definition cnt (tr : list event) : Z := Z.of_nat (length (filter (fun e => (lv0 <=? g_level (snd e))%nat) (entries_of pl0 tr))).
Lemma cnt_event : forall tr e, job_rules tr e -> cnt (tr ++ [e]) <= Z.max 0 (cnt tr + ed e).
Proof.
  intros tr e H. unfold cnt. rewrite entries_snoc. set (l := entries_of pl0 tr) in *. set (ok := fun e : nat * group => (lv0 <=? g_level (snd e))%nat).
  assert (Dr : forall x, In x l -> Z.of_nat (length (filter ok l)) = Z.of_nat (length (filter ok (drop_one x l))) + b2z (ok x)).
  { intros x J. pose proof (drop_perm x l J) as P. apply (perm_filter _ ok) in P. apply Permutation_length in P. rewrite P. cbn [filter]. destruct (ok x); cbn [length b2z]; lia. }
  destruct e; cbn [entries_step ed]; try lia.
  - destruct (pl =? pl0)%nat; cbn [andb b2z]; [|lia]. rewrite filter_app, app_length. cbn [filter]. unfold ok at 2. cbn [snd]. destruct (_ <=? _)%nat; cbn [length b2z]; lia.
  - destruct (pl =? pl0)%nat; cbn [andb b2z]; [|lia]. rewrite filter_app, app_length. cbn [filter]. unfold ok at 2. cbn [snd]. destruct (_ <=? _)%nat; cbn [length b2z]; lia.
  - destruct (Nat.eqb_spec pl pl0) as [->|]; cbn [andb b2z]; [|lia]. destruct H as (_ & (J & K & _) & _). fold l in J. specialize (Dr _ J).
    unfold ok at 3 in Dr. cbn [snd] in Dr. destruct (Nat.eqb_spec lv lv0) as [->|]; cbn [b2z]; [|unfold b2z in Dr; destruct (_ <=? _)%nat; lia].
    apply Nat.leb_le in K. rewrite K in Dr. cbn [b2z] in Dr. lia.
  - destruct x as [[j g]|].
    + destruct (Nat.eqb_spec pl pl0) as [->|]; cbn [andb b2z]; [|lia]. destruct H as ((J & K & _) & _). fold l in J. specialize (Dr _ J).
      unfold ok at 3 in Dr. cbn [snd] in Dr. destruct (Nat.eqb_spec lv lv0) as [->|]; cbn [b2z]; [|unfold b2z in Dr; destruct (_ <=? _)%nat; lia].
      apply Nat.leb_le in K. rewrite K in Dr. cbn [b2z] in Dr. lia.
    + destruct (Nat.eqb_spec pl pl0) as [->|]; cbn [andb b2z]; [|lia]. destruct (Nat.eqb_spec lv lv0) as [->|]; cbn [b2z]; [|lia].
      assert (Q : filter ok l = []); [|rewrite Q; cbn; lia]. cbn in H. fold l in H. clear -H. induction l as [|[j g] r IH]; auto. cbn [filter].
      unfold ok at 1. cbn [snd]. specialize (H j g (or_introl eq_refl)) as K. destruct (Nat.leb_spec lv0 (g_level g)); [lia|]. apply IH. intros j' g' J. apply (H j' g'). now right.
  - destruct (pl =? pl0)%nat; cbn; lia.
Qed.
Definition tot (B : nat) (s : st) : Z := sumN (fun t => sumf (fwt (h_loc (hp s)) t) (stk s t)) B + qc (hp s).
Lemma qc_nn : forall h, 0 <= qc h.
Proof. intros h. unfold qc. apply sumf_nonneg. intros k. apply qk01. Qed.
Lemma tot_mono : forall B B' s, (B <= B')%nat -> tot B s <= tot B' s.
Proof.
  intros B B' s H. unfold tot. pose proof (sumN_nn_mono (fun t => sumf (fwt (h_loc (hp s)) t) (stk s t)) B B' (fun t => sum_nn (h_loc (hp s)) t (stk s t)) H). lia.
Qed.
Lemma tot_nn : forall B s, 0 <= tot B s.
Proof. intros. unfold tot, sumN. pose proof (qc_nn (hp s)). apply Z.add_nonneg_nonneg; auto. apply sumf_nonneg. intros t. apply sum_nn. Qed.
Lemma atom_loc1 : forall h t T (o : op T) inp h' x, atom h t o inp = AOk h' x -> forall u, u <> t ->
  (match o in op T return T -> Prop with OSpawn => fun c => u <> c | _ => fun _ => True end) x -> h_loc h' u = h_loc h u.
Proof.
  intros h t T o inp h' x A u Nu.
  destruct o; cbn [atom] in A; try discriminate A; op_unfold A; brki A; try discriminate A; inversion A; subst; hs; auto; intros Q; rewrite upd_eq; match goal with |- context [(?a =? ?b)%nat] => destruct (Nat.eqb_spec a b) end; congruence.
Qed.
Lemma loc_keep : forall h t pre h' n, lstep h t pre h' n -> forall u, u <> t -> (forall c cfs, spawned n = Some (c, cfs) -> u <> c) -> h_loc h' u = h_loc h u.
Proof.
  intros h t pre h' n L u0 Nu Ns. lstep_cases L; hs; auto; apply (atom_loc1 _ _ _ _ _ _ _ A u0 Nu); cbn; try exact Logic.I.
  all: apply (Ns x (tframes b)); reflexivity.
Qed.
Lemma fwt_loc : forall loc loc' t l, loc' t = loc t -> sumf (fwt loc' t) l = sumf (fwt loc t) l.
Proof. intros loc loc' t l E. induction l as [|f l IH]; auto. cbn [sumf]. rewrite IH. unfold fwt. now rewrite E. Qed.
Lemma below_loc : forall loc loc' t l a, adj ctop (Some a) l -> sumf (fwt loc' t) l = sumf (fwt loc t) l.
Proof.
  intros loc loc' t l. induction l as [|f l IH]; intros a H; auto. destruct H as [H1 H2]. cbn [sumf]. rewrite (IH f H2). unfold fwt.
  assert (Q : is_top f = false) by (unfold ctop in H1; destruct (is_top f); auto; discriminate (H1 eq_refl)).
  assert (C : checking pl0 lv0 f = false) by (destruct f; auto; try discriminate Q; destruct k; auto; discriminate Q). now rewrite C.
Qed.
Lemma new_loc : forall h t pre h' n, lstep h t pre h' n -> h_loc h' t = h_loc h t \/ pre <> [].
Proof. intros h t pre h' n L. lstep_cases L; auto; right; discriminate. Qed.
Lemma lasto_some : forall l a, l <> [] -> exists f, lasto a l = Some f.
Proof.
  intros l. induction l as [|f l IH]; intros a N; [now elim N|]. cbn. destruct l as [|g l]; [cbn; eauto|]. apply IH. discriminate.
Qed.
Theorem checks_match : forall s, reachable s -> forall n, In (lv0, (n, i0)) (workers_of pl0 (trace s)) -> In i0 (h_regd (hp s)) -> cx_exit (h_ctxs (hp s) i0) = false ->
  exists B, cnt (trace s) <= tot B s.
Proof.
  apply (reachable_ind'' (fun s => forall n, In (lv0, (n, i0)) (workers_of pl0 (trace s)) -> In i0 (h_regd (hp s)) -> cx_exit (h_ctxs (hp s) i0) = false -> exists B, cnt (trace s) <= tot B s)).
  - intros n [].
  - intros s s' R R' IH U Tr. destruct Tr as [d|t pre rest u E L|t pre rest h n E L]; auto.
    { intros n W J X. destruct (IH n) as [B K]; auto.
      - change (trace (mkSt _ _ _)) with (trace s ++ [EvTick (Zpos d)]) in W. rewrite workers_snoc in W. exact W.
      - exists B. change (trace (mkSt _ _ _)) with (trace s ++ [EvTick (Zpos d)]). unfold cnt in *. rewrite entries_snoc. exact K. }
    set (s' := mkSt h (set_next (stk s) t n rest) None) in *. intros m W J X.
    assert (Kn : In (lv0, (m, i0)) (workers_of pl0 (trace s)) \/ cnt (trace s') = 0).
    { destruct (worker_new s t pre rest h n pl0 lv0 m i0 E L W) as [K|[-> Q]]; auto. right. unfold cnt, trace, tr_of. cbn [s' hp]. rewrite Q. cbn [rev].
      rewrite entries_snoc. cbn [entries_step]. change (rev (h_tr (hp s))) with (trace s). cbn in E. rewrite (worker_empty _ _ _ _ _ _ _ R E). reflexivity. }
    destruct Kn as [Kn|Kn]; [|exists 0%nat; rewrite Kn; apply tot_nn].
    pose proof (worker_ids _ _ R _ _ _ Kn) as Ow. destruct Ow as [Ow _].
    assert (J0 : In i0 (h_regd (hp s))).
    { apply mem_In. apply (reg_before s t pre rest h n i0 R E L); [exact Ow|]. apply mem_In. exact J. }
    assert (X0 : cx_exit (h_ctxs (hp s) i0) = false).
    { destruct (cx_exit (h_ctxs (hp s) i0)) eqn:Q; auto. apply (exit_dec s i0 R) in Q. exfalso.
      assert (Q' : exit_requested i0 (trace s')).
      { unfold exit_requested in *. destruct (lstep_tr _ _ _ _ _ L) as [Y|[e Y]]; unfold trace, tr_of in *; cbn [s' hp]; rewrite Y; auto. cbn [rev]. destruct Q as [a Q]. exists a. apply in_or_app. now left. }
      apply (exit_dec s' i0 R') in Q'. cbn [s' hp] in Q', X. rewrite Q' in X. discriminate X. }
    destruct (IH m Kn J0 X0) as [B K].
    assert (P : pt (fun u => sumf (fwt (h_loc (hp s)) u) (stk s u)) (fun u => sumf (fwt (h_loc (hp s')) u) (stk s' u))
       (sumf (fwt (h_loc h) t) (next_frames n) - sumf (fwt (h_loc (hp s)) t) pre)).
    { assert (Re : sumf (fwt (h_loc h) t) rest = sumf (fwt (h_loc (hp s)) t) rest).
      { pose proof (ctop_reachable _ R t) as Ct. rewrite E in Ct. apply adj_app in Ct as [_ Ct]. destruct (new_loc _ _ _ _ _ L) as [Q|Q]; [now apply fwt_loc|].
        destruct (lasto_some pre None Q) as [a Ea]. rewrite Ea in Ct. eapply below_loc; eauto. }
      exists t. intros u. cbn [s' stk hp]. destruct (spawned n) as [[c cfs]|] eqn:Sp.
      - destruct (lstep_spawned _ _ _ _ _ _ _ L Sp) as (Fr & Nc & b & ->). pose proof (loc_keep _ _ _ _ _ L u) as Lk.
        destruct n as [fs|c' cfs fs]; [discriminate Sp|]. injection Sp as -> ->. cbn [set_next next_frames].
        rewrite !upd_eq. destruct (Nat.eqb_spec u t) as [->|Nu]; [rewrite E, !sumf_app; lia|].
        destruct (Nat.eqb_spec u c) as [->|Nuc]; [rewrite (fresh_empty _ _ R Fr); destruct b; reflexivity|].
        rewrite Z.add_0_r. apply fwt_loc, Lk; auto. intros c0 cf [= <- <-]. auto.
      - pose proof (loc_keep _ _ _ _ _ L u) as Lk. destruct n as [fs|]; [|discriminate Sp]. cbn [set_next next_frames]. rewrite upd_eq. destruct (Nat.eqb_spec u t) as [->|Nt].
        + rewrite E, !sumf_app. lia.
        + rewrite Z.add_0_r. apply fwt_loc, Lk; auto. discriminate. }
    apply sumN_pt in P as [B0 P]. exists (B + B0)%nat. specialize (P (B + B0)%nat ltac:(lia)).
    pose proof (tot_mono B (B + B0) s ltac:(lia)) as Mo.
    assert (Wf : In (lv0, i0) (workers_for (h_pools (hp s) pl0) lv0)).
    { unfold workers_for. rewrite (replay_workers _ _ R). apply in_map_iff. exists (lv0, (m, i0)). split; auto. apply filter_In. split; auto. cbn [fst]. apply Nat.leb_refl. }
    pose proof (check_step _ _ _ _ _ (reg_inv_reachable _ R) J0 J X0 Wf L) as Cs.
    assert (Ce : cnt (trace s') <= Z.max 0 (cnt (trace s) + sumf ed (new_acts t (hp s) h))).
    { destruct (lstep_tr _ _ _ _ _ L) as [Y|[e Y]].
      - rewrite (new_acts_none _ _ _ Y). unfold trace, tr_of. cbn [s' hp]. rewrite Y. cbn [sumf]. lia.
      - rewrite (new_acts_one _ _ _ _ Y). assert (Te : trace s' = trace s ++ [e]) by (unfold trace, tr_of; cbn [s' hp]; now rewrite Y). rewrite Te.
        assert (Jr : job_rules (trace s) e) by (apply (job_rules_hold s' R' (trace s) e []); exact Te).
        pose proof (cnt_event _ _ Jr) as Ce. destruct (by_thread t e) eqn:Bt; [cbn [sumf]; lia|].
        assert (Z0 : ed e = 0); [|cbn [sumf]; lia].
        destruct (lstep_actor _ _ _ _ _ _ L Y) as [Ac|Ac]; [unfold by_thread in Bt; rewrite Ac, Nat.eqb_refl in Bt; discriminate Bt|destruct e; try reflexivity; discriminate Ac]. }
    pose proof (tot_nn (B + B0) s'). unfold tot in *. cbn [s' hp] in *. lia.
Qed.
End Chk.
