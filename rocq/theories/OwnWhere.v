(** * OwnWhere: a packaged function that was queued for a thread id is begun by the
    thread that takes it out of this queue, and by no other. *)
From Coq Require Import List ZArith Lia. Import ListNotations.
From Verif Require Import Types Core State Ops Code Machine Base Spec SpecPack SpecOwn SpecWhere Rules Events InvCtx InvBound InvStack InvRefs InvEvents InvQueue InvPack Contract Count Replay ReplayObj
  InvCv Own OwnRefs OwnProm OwnRun OwnDead OwnJob ThmSleep.
Local Open Scope Z_scope.

Lemma packs_w : forall q k, packs q k -> 1 <= tw zero (one q) k.
Proof. intros q k [(u & caps & ->)|(p & sh & u & caps & ->)]; cbn [tw]; rewrite one_same; lia. Qed.
Definition runs2 (q : sid) (f : frame) : Prop :=
  match f with FRun k => packs q k | FUStart _ _ (UPack p) => p = q | _ => False end.
Lemma runs2_w : forall q f, runs2 q f -> 1 <= rfw q f.
Proof.
  intros q f H. destruct f; cbn [runs2] in H; try contradiction.
  - destruct fin; try contradiction. subst. cbn [fw]. rewrite zero_0, one_same. lia.
  - cbn [fw]. unfold rn. destruct H as [(u & caps & ->)|(p & sh & u & caps & ->)]; cbn [tw]; rewrite ?zero_0, one_same; lia.
Qed.
Lemma runs2_step : forall p h t pre h' n f, lstep h t pre h' n -> In f pre -> runs2 p f ->
  (exists g, In g (next_frames n) /\ runs2 p g) \/ exists u a, h_tr h' = EvUser t u a (Some p) :: h_tr h.
Proof.
  intros p h t pre h' n f0 L I H. lstep_cases L; cbn [In] in I; repeat destruct I as [I|I]; try contradiction; subst f0; cbn [runs2] in H; try contradiction.
  1: destruct fin; [contradiction|]; subst; right; exists u, a; cbn [atom fin_sid] in A; now injection A as <- _.
  all: destruct H as [(u9 & caps9 & E)|(p9 & sh9 & u9 & caps9 & E)]; try discriminate E; injection E; intros; subst; left; eexists; (split; [left; reflexivity|]); reflexivity.
Qed.
Lemma user2_frame : forall h t pre h' n t' u a p, lstep h t pre h' n -> h_tr h' = EvUser t' u a (Some p) :: h_tr h -> t' = t /\ exists f, In f pre /\ runs2 p f.
Proof.
  intros h t pre h' n t' u0 a0 p L X. ev_cases L X. destruct fin; cbn in X; [discriminate X|]. injection X as <- -> -> ->. split; auto.
  eexists. split; [left; reflexivity|]. reflexivity.
Qed.
Lemma accept_frame : forall h t pre h' n t' i k, lstep h t pre h' n -> h_tr h' = EvAccept t' i k :: h_tr h ->
  alive h i = true /\ exists f, In f pre /\ forall q, packs q k -> 1 <= rfw q f.
Proof.
  intros h t pre h' n t' i0 k9 L X. ev_cases L X.
  injection X; intros; subst. split.
  - cbn [atom] in A. destruct (alive h i0) eqn:Al; [reflexivity|discriminate A].
  - eexists. split; [left; reflexivity|]. intros q Q. apply packs_w in Q. cbn [fw].
    pose proof (lw_nonneg (one q) zero zero (one_nonneg q) zero_nonneg zero_nonneg c). lia.
Qed.
Lemma start_step : forall h t pre h' n t' i k, lstep h t pre h' n -> h_tr h' = EvStart t' i k :: h_tr h -> t' = t /\ In (FRun k) (next_frames n).
Proof.
  intros h t pre h' n t' i0 k9 L X. ev_cases L X.
  all: try (destruct x as [b [tk|]]; cbn [snd] in X; try discriminate X).
  all: try (destruct x; try discriminate X).
  all: injection X; intros; subst; split; auto; cbn; auto.
Qed.
(** The weight of a queue that is alive. *)
Lemma hw_queue : forall p h i k B, alive h i = true -> In k (ctx_pending (h_ctxs h i)) -> (i < B)%nat -> tw zero (one p) k <= hw (one p) (one p) zero zero B h.
Proof.
  intros p h i k B Al J L. unfold hw.
  pose proof (sumN_in (ctxw (one p) zero h) B i ltac:(intros j; unfold ctxw; destruct (alive h j); [apply sumf_nonneg, tw_nn|lia]) L) as A1.
  assert (A2 : 0 <= sumN (fun i => fsw (one p) zero (h_fsts h i)) B) by (apply sumN_nonneg; intros; apply sumf_nonneg, cbw_nn).
  assert (A3 : 0 <= sumN (fun i => ow zero (h_prms h i)) B) by (apply sumN_nonneg; intros; apply ow_nonneg, zero_nonneg).
  assert (A4 : 0 <= sumN (fun i => wcw zero (h_wcs h i)) B) by (apply sumN_nonneg; intros; apply wcw_nonneg, zero_nonneg).
  assert (A5 : 0 <= sumN (fun i => jbw (one p) zero (h_pools h i)) B) by (apply sumN_nonneg; intros; apply sumf_nonneg; intros; apply tw_nn).
  pose proof (sumf_in _ (tw zero (one p)) (ctx_pending (h_ctxs h i)) k ltac:(intros; apply tw_nn) J) as A6.
  unfold ctxw at 1 in A1. rewrite Al in A1. lia.
Qed.
Lemma run_queue : forall s p i k t f, reachable s -> alive (hp s) i = true -> In k (ctx_pending (h_ctxs (hp s) i)) -> 1 <= tw zero (one p) k ->
  In f (stk s t) -> 1 <= rfw p f -> False.
Proof.
  intros s p i k t f R Al J W I F. destruct (run_le1 s p R) as [B0 B]. specialize (B (B0 + S t + S i)%nat ltac:(lia)).
  pose proof (costs_nn p (h_tr (hp s))). pose proof (hw_queue p (hp s) i k (B0 + S t + S i)%nat Al J ltac:(lia)). unfold total in B.
  pose proof (sumN_in (fun t => sumf (rfw p) (stk s t)) (B0 + S t + S i)%nat t (fun t => sumf_nonneg _ _ _ (run_fnn p)) ltac:(lia)).
  pose proof (sumf_in _ (rfw p) (stk s t) f (run_fnn p) I). cbn beta in *. lia.
Qed.
(** A queue that is destroyed. *)
Lemma gone_spent : forall s t pre rest h n i ks k q, reachable s -> stk s t = pre ++ rest -> lstep (hp s) t pre h n ->
  h_tr h = EvCtxGone i ks :: h_tr (hp s) -> alive (hp s) i = true -> In k (ctx_pending (h_ctxs (hp s) i)) -> packs q k ->
  spent q (mkSt h (set_next (stk s) t n rest) None).
Proof.
  intros s t pre rest h n i0 ks0 k9 p R E L X Al J K. apply packs_w in K. destruct (run_le1 s p R) as [B0 B].
  assert (Y : exists d, hd (one p) (one p) zero zero (hp s) h d /\ d <= -1 /\ sumf (rfw p) (next_frames n) = 0 /\ spawned n = None).
  { pose proof (fun T o inp h' x Ok A => atom_w (one p) (one p) zero zero (hp s) t T o inp h' x (reg_inv_reachable s R) (proj1 (proj2 (b_inv_reachable s R))) (xgood_reachable s R) Ok A) as AW.
    ev_cases L X. destruct (alive _ _) eqn:Al2 in X; [discriminate X|]. injection X; intros; subst.
    pose proof (AW _ _ _ _ _ (Al : opa _ (ORelease i0)) A) as AW'. cbn [odelta] in AW'.
    eexists. split; [exact AW'|]. split; [|split; [|reflexivity]].
    - cbn [atom] in A. unfold do_release in A. cbv zeta in A. rewrite Al2 in A. injection A as _ <-.
      pose proof (sumf_in _ (tw zero (one p)) (ctx_pending (h_ctxs (hp s) i0)) k9 ltac:(intros; apply tw_nn) J) as A6. lia.
    - cbn [next_frames]. rewrite ?sumf_app, destroy_w0. reflexivity. }
  destruct Y as (d & D & Dd & F & Sp). destruct (total_exact _ _ _ _ s t pre rest h n d R E L Sp D) as [B1 T].
  exists (B0 + B1)%nat. intros B' HB. rewrite T by lia. rewrite F. specialize (B B' ltac:(lia)).
  pose proof (sumf_nonneg _ _ pre (run_fnn p)). pose proof (costs_nn p (h_tr (hp s))). lia.
Qed.
(** Where the function queued as [k] is. *)
Definition task_place (i : id) (q : sid) (k : task) (s : st) : Prop :=
  (alive (hp s) i = true /\ In k (ctx_pending (h_ctxs (hp s) i))) \/
  (exists t f, In (EvStart t i k) (trace s) /\ In f (stk s t) /\ runs2 q f) \/
  spent q s.
Lemma dead_gone : forall s s' i e, reachable s -> reachable s' -> trace s' = trace s ++ e -> alive (hp s) i = true -> alive (hp s') i = false ->
  Spec.gone i (trace s').
Proof.
  intros s s' i e R R' X A D. apply (al_inv_reachable s' R'). split; [|exact D].
  apply (rv_created _ (r_inv_reachable s' R')). change (tr_of (hp s')) with (trace s'). rewrite X.
  unfold created_ids. rewrite flat_map_app. apply in_or_app. left. exact (proj1 (alive_live s i R A)).
Qed.
Lemma pending_step : forall s s' i k e, reachable s -> reachable s' -> trace s' = trace s ++ [e] -> In k (ctx_pending (h_ctxs (hp s) i)) ->
  In k (ctx_pending (h_ctxs (hp s') i)) \/ exists t, e = EvStart t i k.
Proof.
  intros s s' i k e R R' X J. pose proof (pending_spec s i R) as P. pose proof (pending_spec s' i R') as P'.
  rewrite X, accepted_snoc, started_snoc, P in P'. rewrite <- !app_assoc in P'. apply app_inv_head in P'.
  destruct e; cbn in P'; rewrite ?app_nil_r in P'; try (left; rewrite <- P'; apply in_or_app; auto; fail); try (left; rewrite <- P'; exact J).
  destruct (Nat.eqb_spec i0 i) as [->|N]; cbn in P'; [|left; rewrite <- P'; exact J].
  rewrite P' in J. destruct J as [->|J]; [right; eauto|auto].
Qed.
Lemma pending_quiet : forall s s' i, reachable s -> reachable s' -> trace s' = trace s -> ctx_pending (h_ctxs (hp s') i) = ctx_pending (h_ctxs (hp s) i).
Proof.
  intros s s' i R R' X. pose proof (pending_spec s i R) as P. pose proof (pending_spec s' i R') as P'. rewrite X, P in P'. now apply app_inv_head in P'.
Qed.
Lemma frame_made : forall s t f q, reachable s -> In f (stk s t) -> 1 <= rfw q f -> (q < h_nfs (hp s))%nat.
Proof.
  intros s t f q R J F. destruct (cost_reachable q (one q) (one q) zero (ucost q) (z12 q) (fun _ => eq_refl) (run_step q) s R) as [B H].
  specialize (H (B + S t)%nat ltac:(lia)). pose proof (costs_nn q (h_tr (hp s))).
  pose proof (total_frame (one q) (one q) zero zero (one_nonneg q) zero_nonneg (z12 q) zero_nonneg s t f (B + S t)%nat J ltac:(lia)).
  unfold made in H. destruct (Nat.ltb_spec q (h_nfs (hp s))); [auto|lia].
Qed.
Theorem task_placed : forall s, reachable s -> forall v i k q, packs q k -> In (EvAccept v i k) (trace s) ->
  (q < h_nfs (hp s))%nat /\ task_place i q k s.
Proof.
  apply (reachable_ind'' (fun s => forall v i k q, packs q k -> In (EvAccept v i k) (trace s) -> (q < h_nfs (hp s))%nat /\ task_place i q k s)).
  - intros v i k q _ [].
  - intros s s' R R' IH U Tr v i k q K A. destruct Tr as [d|t pre rest u E L|t pre rest h n E L].
    + unfold trace in A. cbn [hp] in A. hs. cbn [h_tr emit rev] in A. apply in_snoc in A as [A|A]; [|discriminate A]; change (rev (h_tr (hp s))) with (trace s) in A.
      destruct (IH _ _ _ _ K A) as [N [W|[(t & f & T & J & H)|H]]]; (split; [exact N|]).
      * left. exact W.
      * right. left. exists t, f. split; auto. apply in_or_app. auto.
      * right. right. exact H.
    + apply (IH _ _ _ _ K A).
    + set (s' := mkSt h (set_next (stk s) t n rest) None) in *.
      assert (Tr : h_tr h = h_tr (hp s) /\ trace s' = trace s ++ [] \/ exists e, h_tr h = e :: h_tr (hp s) /\ trace s' = trace s ++ [e]).
      { unfold trace. cbn [hp s']. destruct (lstep_tr _ _ _ _ _ L) as [X|[e X]]; [left|right; exists e]; rewrite X; rewrite ?app_nil_r; auto. }
      assert (Mono : forall e, In e (trace s) -> In e (trace s')).
      { intros e I. destruct Tr as [[_ X]|(e0 & _ & X)]; rewrite X; apply in_or_app; auto. }
      assert (Old : In (EvAccept v i k) (trace s) \/ (h_tr h = EvAccept v i k :: h_tr (hp s) /\ trace s' = trace s ++ [EvAccept v i k])).
      { destruct Tr as [[_ X]|(e0 & X0 & X)]; rewrite X in A; [rewrite app_nil_r in A; auto|]. apply in_snoc in A as [A|A]; subst; auto. }
      pose proof (nfs_mono _ _ _ _ _ L) as Nm. cbn [hp s'].
      destruct Old as [Old|[New Nt]].
      * destruct (IH _ _ _ _ K Old) as [N P]. split; [lia|]. destruct P as [[Al W]|[(u & f & T & J & H)|H]].
        -- destruct Tr as [[X0 X]|(e & X0 & X)].
           ++ left. assert (Al' : alive (hp s') i = true).
              { destruct (alive (hp s') i) eqn:D; auto. pose proof (dead_gone s s' i [] R R' X Al D) as G. rewrite X, app_nil_r in G.
                elim (proj2 (alive_live s i R Al) G). }
              split; auto. rewrite app_nil_r in X. now rewrite (pending_quiet s s' i R R' X).
           ++ destruct (alive (hp s') i) eqn:D.
              ** destruct (pending_step s s' i k e R R' X W) as [W'|[t' ->]]; [left; auto|].
                 right. left. destruct (start_step _ _ _ _ _ _ _ _ L X0) as [-> Jf]. exists t, (FRun k). split; [|split; [|exact K]].
                 --- rewrite X. apply in_or_app. cbn. auto.
                 --- cbn [stk s']. rewrite next_own. apply in_or_app. auto.
              ** pose proof (dead_gone s s' i [e] R R' X Al D) as [ks G]. rewrite X in G. apply in_snoc in G as [G|G].
                 --- elim (proj2 (alive_live s i R Al)). now exists ks.
                 --- right. right. subst e. eapply gone_spent; eauto.
        -- destruct (in_rest s t pre rest h n u f R E L J) as [[-> Jp]|Jn]; [|right; left; exists u, f; auto].
           destruct (runs2_step q _ _ _ _ _ f L Jp H) as [(f' & Jf & Hf)|(w & a & X)].
           ++ right. left. exists t, f'. split; auto. split; auto. cbn [stk s']. rewrite next_own. apply in_or_app. auto.
           ++ right. right. apply (spent_begun _ q t w a R'). unfold trace. cbn [hp s']. rewrite X. apply in_or_app. cbn. auto.
        -- right. right. eapply spent_step; eauto.
      * destruct (accept_frame _ _ _ _ _ _ _ _ L New) as (Al & f & Jf & Wf). split.
        -- pose proof (frame_made s t f q R ltac:(rewrite E; apply in_or_app; auto) (Wf q K)). lia.
        -- left. split.
           ++ destruct (alive (hp s') i) eqn:D; auto. pose proof (dead_gone s s' i _ R R' Nt Al D) as [ks G]. rewrite Nt in G. apply in_snoc in G as [G|G]; [|discriminate G].
              elim (proj2 (alive_live s i R Al)). now exists ks.
           ++ pose proof (pending_spec s i R) as P. pose proof (pending_spec s' i R') as P'. rewrite Nt, accepted_snoc, started_snoc, P in P'.
              rewrite <- !app_assoc in P'. apply app_inv_head in P'. cbn in P'. rewrite Nat.eqb_refl in P'. change (h_ctxs (hp s')) with (h_ctxs h). rewrite <- P'. apply in_or_app. cbn. auto.
Qed.
(** Who begins a queued function has taken it out of this queue before. *)
Theorem task_run : forall s, reachable s -> forall v i k q, packs q k -> In (EvAccept v i k) (trace s) ->
  forall tr1 t u a tr2, trace s = tr1 ++ EvUser t u a (Some q) :: tr2 -> In (EvStart t i k) tr1.
Proof.
  intros s R v i k q K. revert s R.
  apply (reachable_ind'' (fun s => In (EvAccept v i k) (trace s) ->
    forall tr1 t u a tr2, trace s = tr1 ++ EvUser t u a (Some q) :: tr2 -> In (EvStart t i k) tr1)).
  - intros [].
  - intros s s' R R' IH U Tr A tr1 w u a tr2 E.
    assert (Step : forall e, trace s' = trace s ++ [e] -> e <> EvAccept v i k ->
      (forall w u a, e = EvUser w u a (Some q) -> In (EvAccept v i k) (trace s) -> In (EvStart w i k) (trace s)) ->
      In (EvStart w i k) tr1).
    { intros e X Na Hu. rewrite X in A, E. apply in_snoc in A as [A|A]; [|congruence].
      destruct tr2 as [|x tr2 _] using rev_ind.
      - apply app_inj_tail in E as [<- ->]. apply (Hu w u a); auto.
      - assert (E' : trace s ++ [e] = (tr1 ++ EvUser w u a (Some q) :: tr2) ++ [x]) by (rewrite <- app_assoc; exact E).
        apply app_inj_tail in E' as [E' _]. eapply IH; eauto. }
    destruct Tr as [d|t pre rest ub Ep L|t pre rest h n Ep L].
    + eapply Step; [reflexivity|discriminate|]. intros ? ? ? X. discriminate X.
    + eapply IH; eauto.
    + destruct (lstep_tr _ _ _ _ _ L) as [X|[e X]].
      * assert (X' : trace (mkSt h (set_next (stk s) t n rest) None) = trace s) by (unfold trace; cbn [hp]; now rewrite X). rewrite X' in *. eapply IH; eauto.
      * assert (X' : trace (mkSt h (set_next (stk s) t n rest) None) = trace s ++ [e]) by (unfold trace; cbn [hp]; now rewrite X).
        apply (Step e X').
        -- intros ->. destruct (accept_frame _ _ _ _ _ _ _ _ L X) as (_ & f & J & F).
           rewrite X' in E. destruct tr2 as [|x tr2 _] using rev_ind; [apply app_inj_tail in E as [_ E]; discriminate E|].
           assert (E' : trace s ++ [EvAccept v i k] = (tr1 ++ EvUser w u a (Some q) :: tr2) ++ [x]) by (rewrite <- app_assoc; exact E).
           apply app_inj_tail in E' as [E' _]. apply (run_begun s q t f R) with (t' := w) (u := u) (a := a); auto.
           ++ rewrite Ep. apply in_or_app. auto.
           ++ rewrite E'. apply in_or_app. cbn. auto.
        -- intros v' u' a' -> Ad. destruct (user2_frame _ _ _ _ _ _ _ _ _ L X) as (-> & f & J & F).
           assert (Jf : In f (stk s t)) by (rewrite Ep; apply in_or_app; auto). apply runs2_w in F.
           destruct (task_placed s R _ _ _ _ K Ad) as [_ [[Al W]|[(t1 & f' & T & J' & H')|Sp]]].
           ++ elim (run_queue s q i k t f R Al W (packs_w _ _ K) Jf F).
           ++ destruct (Nat.eq_dec t1 t) as [->|Nt]; [auto|]. elim (run_two s q t1 f' t f R Nt J' Jf (runs2_w _ _ H') F).
           ++ elim (run_spent s q t f Sp Jf F).
Qed.
(** The thread is the one for which the id was created. *)
Corollary task_where : forall s v i k q, reachable s -> packs q k -> In (EvAccept v i k) (trace s) ->
  forall tr1 t u a tr2, trace s = tr1 ++ EvUser t u a (Some q) :: tr2 -> In (EvStart t i k) tr1 /\ exists r, In (EvReg r t i true) tr1.
Proof.
  intros s v i k q R K A tr1 t u a tr2 E. pose proof (task_run s R v i k q K A _ _ _ _ _ E) as S. split; auto.
  apply in_split in S as (l1 & l2 & ->). rewrite <- app_assoc in E. destruct (affinity s R _ _ _ E) as [[r J] _]. exists r. apply in_or_app. auto.
Qed.
