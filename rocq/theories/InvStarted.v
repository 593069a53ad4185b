(** * InvStarted: a packaged function that was started gets its result. *)
From Verif Require Import Types Core State Ops Code Machine Base Spec SpecKind SpecOwn SpecPack SpecWhere SpecStarted SpecWork SpecServe Rules Events InvCtx InvQueue InvBound InvStack InvRefs InvAff InvSleep Contract Count Replay ReplayObj InvCv InvKind Adj Own OwnRefs OwnProm OwnDead InvPack InvWork InvServe.
From Verif Require OwnWhere ThmRegistry ThmSleep.

Definition runs_on (q : sid) (s : st) (t : tid) : Prop := exists f, In f (stk s t) /\ busy_with q f.
Lemma packs_bound : forall s t k q, reachable s -> In (FRun k) (stk s t) -> packs q k -> q < h_nfs (hp s).
Proof.
  intros s t k q R J K. pose proof (b_inv_reachable s R) as (_ & _ & Fb). specialize (Fb t). rewrite Forall_forall in Fb. specialize (Fb _ J). cbn in Fb.
  destruct K as [(u & c & ->)|(p & sh & u & c & ->)]; cbn in Fb; lia.
Qed.
Theorem started_result : forall s, reachable s -> forall t i k q, packs q k -> In (EvStart t i k) (trace s) ->
  q < h_nfs (hp s) /\ forall u, purpose_is (trace s) q (PuFun u) -> is_ready q (trace s) \/ runs_on q s t.
Proof.
  apply (reachable_ind'' (fun s => forall t i k q, packs q k -> In (EvStart t i k) (trace s) ->
    q < h_nfs (hp s) /\ forall u, purpose_is (trace s) q (PuFun u) -> is_ready q (trace s) \/ runs_on q s t)).
  - intros t i k q _ [].
  - intros s s' R R' IH U Tr t9 i9 k9 p K H. destruct Tr as [d|t pre rest ub E L|t pre rest h n E L].
    + assert (Et : trace (mkSt (emit (put_now (hp s) (h_now (hp s) + Zpos d)) (EvTick (Zpos d))) (stk s) None) = trace s ++ [EvTick (Zpos d)]) by reflexivity.
      rewrite Et in *. apply in_app_or in H as [H|[H|[]]]; [|discriminate H]. destruct (IH _ _ _ _ K H) as [N X]. split; [exact N|].
      intros u Hu. destruct (X u) as [Y|Y]; auto using ready_app.
      destruct Hu as [(t0 & v & J)|(tw0 & aw & w & ins & J & Q)]; [|discriminate Q]. apply in_app_or in J as [J|[J|[]]]; try discriminate J. left; eauto.
    + exact (IH _ _ _ _ K H).
    + set (s' := mkSt h (set_next (stk s) t n rest) None) in *.
      destruct (lstep_tr' _ _ _ _ _ L) as [l Et]. assert (Et' : trace s' = trace s ++ l) by exact Et.
      assert (Old : In (EvStart t9 i9 k9) (trace s) \/ h_tr h = EvStart t9 i9 k9 :: h_tr (hp s)).
      { unfold trace in H. cbn [hp s'] in H. destruct (lstep_tr _ _ _ _ _ L) as [X|[e X]]; rewrite X in H; [now left|]. cbn [rev] in H.
        apply in_app_or in H as [H|[H|[]]]; [now left|right; now rewrite X, H]. }
      destruct Old as [Old|New].
      * destruct (IH _ _ _ _ K Old) as [N X]. split; [pose proof (nfs_mono _ _ _ _ _ L); cbn [hp s']; lia|]. intros w0 Hu.
        assert (Hu' : purpose_is (trace s) p (PuFun w0)) by (eapply purpose_back; eauto).
        destruct (X w0 Hu') as [Y|(f0 & J & Hf)]; [left; rewrite Et'; auto using ready_app|]. clear X.
        assert (Rd : forall q, fs_ready (h_fsts h q) = true -> is_ready q (trace s')) by (intros q; apply (ready_iff s' q R')).
        destruct (Nat.eq_dec t9 t) as [->|Nt].
        2: { right. exists f0. split; auto. cbn [stk s']. destruct n as [fs|c cfs fs]; cbn [set_next]; rewrite upd_other by auto; auto.
             destruct (lstep_spawned _ _ _ _ _ _ _ L eq_refl) as (F & _ & _). destruct (Nat.eq_dec t9 c) as [->|Nc]; [|now rewrite upd_other].
             rewrite (fresh_empty s c R F) in J. destruct J. }
        assert (Own : forall f, In f (next_frames n ++ rest) -> busy_with p f -> is_ready p (trace s') \/ runs_on p s' t).
        { intros f I B. right. exists f. split; auto. cbn [stk s']. now rewrite next_own. }
        pose proof J as J0. rewrite E in J. apply in_app_or in J as [J|J]; [|apply (Own f0); auto; apply in_or_app; auto].
        apply in_split in J as (a & b & Ep).
        pose proof (about_reachable s R t) as Ab. rewrite E, Ep, <- app_assoc in Ab. cbn [app] in Ab. apply adj_in with (a := a) (f := f0) (b := b ++ rest) in Ab; auto.
        assert (Pre1 : forall g, pre = [g] -> a = [] /\ f0 = g /\ b = []).
        { intros g Eg. rewrite Eg in Ep. destruct a as [|x1 a]; [injection Ep as -> <-; auto|]. injection Ep as _ Q. destruct a; discriminate Q. }
        assert (Pre2 : forall g1 g, pre = [g1; g] -> (a = [g1] /\ f0 = g /\ b = []) \/ f0 = g1).
        { intros g1 g Eg. rewrite Eg in Ep. destruct a as [|x1 a]; [injection Ep as -> _; auto|]. injection Ep as <- Q. left. destruct a as [|x2 a]; [injection Q as -> <-; auto|]. injection Q as _ Q. destruct a; discriminate Q. }
        clear Ep J0. lstep_cases L; first [destruct (Pre1 _ eq_refl) as (-> & -> & ->)|destruct (Pre2 _ _ eq_refl) as [(-> & -> & ->)| ->]]; try contradiction Hf; cbn [app lasto next_frames busy_with] in *.
        all: try (exfalso; destruct Hf as [(u7 & c7 & Q)|(p7 & h7 & u7 & c7 & Q)]; discriminate Q).
        all: try (destruct Hf as [(u7 & c7 & Q)|(p7 & h7 & u7 & c7 & Q)]; try discriminate Q; injection Q; intros; subst; eapply Own; [right; left; reflexivity|reflexivity]).
        -- destruct Ab as [_ Ab]. destruct Hf. destruct (Ab w0 Hu') as [X|[]]. left. rewrite Et'. auto using ready_app.
        -- apply (Own (FSet1 p0 o)); auto. now left.
        -- left. subst p0. apply Rd. cbn [atom] in A. destruct (fs_ready (h_fsts (hp s) p)) eqn:Er; [injection A as <- <-; auto|]. unfold fs_set in A. injection A as <- <-. hs. rewrite upd_same. now destruct o.
        -- apply (Own (FSet p0 (OExn e))); auto. now left.
      * destruct (OwnWhere.start_step _ _ _ _ _ _ _ _ L New) as [-> J].
        assert (J' : In (FRun k9) (stk s' t)) by (cbn [stk s']; rewrite next_own; apply in_or_app; auto).
        split; [eapply packs_bound; eauto|]. intros w0 Hu. right. exists (FRun k9). split; auto.
Qed.

Lemma home_free : forall q s t, at_home s t = true -> ~ runs_on q s t.
Proof.
  intros q s t H (f & J & B). unfold at_home in H. destruct (home (stk s t)) eqn:Hk; [clear H|discriminate H]. revert J Hk. generalize (stk s t). intros l J Hk. unfold home in Hk.
  repeat match type of Hk with context [match ?x with _ => _ end] => is_var x; destruct x; try discriminate Hk end;
  cbn [In] in J; repeat destruct J as [<-|J]; cbn in B; auto.
Qed.
Theorem started_home : forall s t i k q u, reachable s -> packs q k -> In (EvStart t i k) (trace s) -> purpose_is (trace s) q (PuFun u) ->
  at_home s t = true -> is_ready q (trace s).
Proof.
  intros s t i k q u R K H P Ho. destruct (proj2 (started_result s R t i k q K H) u P) as [X|X]; auto. elim (home_free q s t Ho X).
Qed.

Lemma creator_one : forall s u n u' n' i, reachable s -> In (EvReg u n i true) (trace s) -> In (EvReg u' n' i true) (trace s) -> n = n'.
Proof.
  intros s u n u' n' i R A B. destruct (ThmRegistry.ids_unique s R) as [N _]. unfold created_ids in N. revert N A B. generalize (trace s). intros l.
  assert (C : forall u n l, In (EvReg u n i true) l -> In i (created_ids l)) by (intros u0 n0 l0 I; unfold created_ids; apply in_flat_map; eexists; split; [exact I|now left]).
  induction l as [|e l IH]; [intros _ []|]. intros N [->|A] [Q|B].
  - injection Q as _ <-. reflexivity.
  - cbn in N. inversion N; subst. exfalso. apply H1. eapply C; eauto.
  - subst e. cbn in N. inversion N; subst. exfalso. apply H1. eapply C; eauto.
  - cbn in N. apply IH; auto. clear - N. induction (match e with EvReg _ _ i true => [i] | _ => [] end) as [|x r IHr]; auto. inversion N; auto.
Qed.
Theorem served_result : forall s t i ls s' v k q u, reachable s -> looping (stk s t) = true -> all_along (serving t i) s ls -> run s ls = Some s' -> ubs s' = None ->
  packs q k -> In (EvAccept v i k) (trace s) -> purpose_is (trace s') q (PuFun u) -> at_home s' t = true ->
  is_ready q (trace s') \/ home_steps t s ls <= 3 * waiting i (trace s) /\ exists s2, step s' (LStep t 0) = Some s2.
Proof.
  intros s t i ls s' v k q u R Lo Q Rn U K Ac P Ho. pose proof (run_reachable' _ _ _ R Rn) as R'.
  destruct (worker_serves s t i ls s' R Lo Q Rn U) as [(r & Sr)|[B M]]; [left|right; auto].
  assert (Ik : In k (started i (trace s'))).
  { rewrite Sr. apply in_or_app. left. unfold accepted. apply in_flat_map. eexists. split; [exact Ac|]. cbn. rewrite Nat.eqb_refl. now left. }
  unfold started in Ik. apply in_flat_map in Ik as (e & Ie & Ik). destruct e; try destruct Ik.
  destruct (i0 =? i) eqn:X; [|destruct Ik]. apply Nat.eqb_eq in X. subst. destruct Ik as [->|[]].
  assert (t0 = t); [|subst; eapply started_home; eauto].
  pose proof Ie as Ie2. apply in_split in Ie as (a & b & Es). destruct (ThmSleep.affinity s' R' _ _ _ Es) as [(u1 & A1) _].
  destruct (all_along_last _ _ _ _ Q Rn) as [At _]. change (trace s') with (tr_of (hp s')) in At.
  rewrite (rv_loc _ (r_inv_reachable s' R')) in At. apply (loc_own_reachable s' R') in At. destruct (own_event s' R' _ _ At) as (u2 & A2).
  apply (creator_one s' u1 t0 u2 t i R'); auto. rewrite Es. apply in_or_app. now left.
Qed.
