(** * InvTook: a job that was taken gets its result. *)
From Verif Require Import Types Core State Ops Code Machine Base Spec SpecKind SpecOwn SpecPack SpecPool SpecWhere SpecStarted SpecTook SpecWork SpecServe Rules Events InvCtx InvQueue InvBound InvStack InvRefs InvAff InvSleep Contract Count Replay ReplayObj InvCv InvKind Adj Own OwnRefs OwnProm OwnDead InvPack InvWork InvTab.
From Verif Require OwnWhere OwnJob InvStarted ThmJob ThmPool ApiPool.

Lemma purpose_mono : forall tr l p u, purpose_is tr p (PuFun u) -> purpose_is (tr ++ l) p (PuFun u).
Proof. intros tr l p u [(t & v & J)|(t & a & w & ins & _ & Q)]; [|discriminate Q]. left. exists t, v. apply in_or_app; auto. Qed.
Lemma job_fun : forall s a pl j g p q, reachable s -> In (EvJobAdd a pl j g p q) (trace s) -> exists u, purpose_is (trace s) p (PuFun u).
Proof.
  intros s a pl j g p q R J. apply in_split in J as (x & y & E). destruct (ThmJob.fun_purpose s R _ _ _ E) as [u H]. exists u. rewrite E. now apply purpose_mono.
Qed.
Lemma taken_added : forall s t pl j lv g', reachable s -> In (EvJobTake t pl j lv g') (trace s) -> exists a g p q, In (EvJobAdd a pl j g p q) (trace s).
Proof.
  intros s t pl j lv g' R J. apply in_split in J as (x & y & E). destruct (ThmPool.taken_once s R _ _ _ E) as [H _]. destruct H as (a & g & p & q & H).
  exists a, g, p, q. rewrite E. apply in_or_app. auto.
Qed.
Lemma take_frames : forall t9 pl9 j9 lv9 g9 h t pre h' n, lstep h t pre h' n -> h_tr h' = EvJobTake t9 pl9 j9 lv9 g9 :: h_tr h ->
  t9 = t /\ exists k x, In (FRun k) (next_frames n) /\ In (j9, x) (pl_jobs (h_pools h pl9)) /\ jb_callable x = k /\ k <> TNull.
Proof.
  intros t9 pl9 j9 lv9 g9 h t pre h' n L X. ev_cases L X. destruct x as [[d|] [[j' k]|]]; try discriminate X. injection X as <- -> -> -> _. split; auto.
  cbn [atom] in A. destruct (pool_take _ _ _) as [p' r] eqn:P. destruct (pool_top _ _ _), r as [[? ?]|]; try discriminate A. injection A as _ _ -> ->.
  apply OwnJob.take_closure in P as (y & J & <- & N). exists (jb_callable y), y. repeat split; auto. cbn [next_frames snd]. right. now left.
Qed.

Definition works (p q : sid) (s : st) (t : tid) : Prop := exists f, In f (stk s t) /\ at_work p q f.
Theorem took_result : forall s, reachable s -> forall t pl j lv g', In (EvJobTake t pl j lv g') (trace s) ->
  forall a g p q, In (EvJobAdd a pl j g p q) (trace s) -> is_ready p (trace s) \/ works p q s t.
Proof.
  apply (reachable_ind'' (fun s => forall t pl j lv g', In (EvJobTake t pl j lv g') (trace s) ->
    forall a g p q, In (EvJobAdd a pl j g p q) (trace s) -> is_ready p (trace s) \/ works p q s t)).
  - intros t pl j lv g' [].
  - intros s s' R R' IH U Tr t9 pl9 j9 lv9 g9 H a9 ga p qq Ha. destruct Tr as [d|t pre rest ub E L|t pre rest h n E L].
    + assert (Et : trace (mkSt (emit (put_now (hp s) (h_now (hp s) + Zpos d)) (EvTick (Zpos d))) (stk s) None) = trace s ++ [EvTick (Zpos d)]) by reflexivity.
      rewrite Et in *. apply in_app_or in H as [H|[H|[]]]; [|discriminate H]. apply in_app_or in Ha as [Ha|[Ha|[]]]; [|discriminate Ha].
      destruct (IH _ _ _ _ _ H _ _ _ _ Ha) as [Y|Y]; auto using ready_app.
    + exact (IH _ _ _ _ _ H _ _ _ _ Ha).
    + set (s' := mkSt h (set_next (stk s) t n rest) None) in *.
      destruct (lstep_tr' _ _ _ _ _ L) as [l Et]. assert (Et' : trace s' = trace s ++ l) by exact Et.
      assert (Old : In (EvJobTake t9 pl9 j9 lv9 g9) (trace s) \/ h_tr h = EvJobTake t9 pl9 j9 lv9 g9 :: h_tr (hp s)).
      { unfold trace in H. cbn [hp s'] in H. destruct (lstep_tr _ _ _ _ _ L) as [X|[e X]]; rewrite X in H; [now left|]. cbn [rev] in H.
        apply in_app_or in H as [H|[H|[]]]; [now left|right; now rewrite X, H]. }
      destruct Old as [Old|New].
      * destruct (taken_added s _ _ _ _ _ R Old) as (a1 & gg1 & p1 & q1 & A1).
        assert (A1' : In (EvJobAdd a1 pl9 j9 gg1 p1 q1) (trace s')) by (rewrite Et'; apply in_or_app; auto).
        destruct (ApiPool.add_unique s' _ _ _ _ _ _ _ _ _ _ R' A1' Ha) as [-> ->]. clear A1'.
        destruct (job_fun s _ _ _ _ _ _ R A1) as [w0 Hu'].
        destruct (IH _ _ _ _ _ Old _ _ _ _ A1) as [Y|(f0 & J & Hf)]; [left; rewrite Et'; auto using ready_app|].
        assert (Rd : forall q, fs_ready (h_fsts h q) = true -> is_ready q (trace s')) by (intros q; apply (ready_iff s' q R')).
        destruct (Nat.eq_dec t9 t) as [->|Nt].
        2: { right. exists f0. split; auto. cbn [stk s']. destruct n as [fs|c cfs fs]; cbn [set_next]; rewrite upd_other by auto; auto.
             destruct (lstep_spawned _ _ _ _ _ _ _ L eq_refl) as (F & _ & _). destruct (Nat.eq_dec t9 c) as [->|Nc]; [|now rewrite upd_other].
             rewrite (fresh_empty s c R F) in J. destruct J. }
        assert (Own' : forall f, In f (next_frames n ++ rest) -> at_work p qq f -> is_ready p (trace s') \/ works p qq s' t).
        { intros f I B. right. exists f. split; auto. cbn [stk s']. now rewrite next_own. }
        assert (Own : forall f, In f (next_frames n ++ rest) -> busy_with p f -> is_ready p (trace s') \/ works p qq s' t).
        { intros f I B. apply (Own' f I). now left. }
        pose proof J as J0. rewrite E in J. apply in_app_or in J as [J|J]; [|apply (Own' f0); auto; apply in_or_app; auto].
        apply in_split in J as (a & b & Ep).
        pose proof (about_reachable s R t) as Ab. rewrite E, Ep, <- app_assoc in Ab. cbn [app] in Ab. apply adj_in with (a := a) (f := f0) (b := b ++ rest) in Ab; auto.
        assert (Pre1 : forall g, pre = [g] -> a = [] /\ f0 = g /\ b = []).
        { intros g Eg. rewrite Eg in Ep. destruct a as [|x1 a]; [injection Ep as -> <-; auto|]. injection Ep as _ Q. destruct a; discriminate Q. }
        assert (Pre2 : forall g1 g, pre = [g1; g] -> (a = [g1] /\ f0 = g /\ b = []) \/ f0 = g1).
        { intros g1 g Eg. rewrite Eg in Ep. destruct a as [|x1 a]; [injection Ep as -> _; auto|]. injection Ep as <- Q. left. destruct a as [|x2 a]; [injection Q as -> <-; auto|]. injection Q as _ Q. destruct a; discriminate Q. }
        clear Ep J0 IH Own' H Old A1 Ha. destruct Hf as [Hf|(k0 & -> & u0 & c0 & ->)].
        -- lstep_cases L; first [destruct (Pre1 _ eq_refl) as (-> & -> & ->)|destruct (Pre2 _ _ eq_refl) as [(-> & -> & ->)| ->]]; try contradiction Hf; cbn [app lasto next_frames busy_with] in *.
           all: try (exfalso; destruct Hf as [(u7 & c7 & Q)|(p7 & h7 & u7 & c7 & Q)]; discriminate Q).
           all: try (destruct Hf as [(u7 & c7 & Q)|(p7 & h7 & u7 & c7 & Q)]; try discriminate Q; injection Q; intros; subst; eapply Own; [right; left; reflexivity|reflexivity]).
           ++ destruct Ab as [_ Ab]. destruct Hf. destruct (Ab w0 Hu') as [X|[]]. left. rewrite Et'. auto using ready_app.
           ++ apply (Own (FSet1 p0 o)); auto. now left.
           ++ left. subst p0. apply Rd. cbn [atom] in A. destruct (fs_ready (h_fsts (hp s) p)) eqn:Er; [injection A as <- <-; auto|]. unfold fs_set in A. injection A as <- <-. hs. rewrite upd_same. now destruct o.
           ++ apply (Own (FSet p0 (OExn e))); auto. now left.
        -- lstep_cases L; first [destruct (Pre1 _ eq_refl) as (-> & Q & ->)|destruct (Pre2 _ _ eq_refl) as [(-> & Q & ->)|Q]]; try discriminate Q; injection Q; intros; subst.
           all: eapply Own; [left; reflexivity|]; left; eauto.
      * destruct (take_frames _ _ _ _ _ _ _ _ _ _ L New) as (-> & k & x & J & Jx & K & N). right.
        pose proof (tab_inv pl9 s R) as T. rewrite Forall_forall in T. destruct (T _ Jx) as (a1 & g1 & p1 & q1 & A1 & _ & [C|C]); cbn [fst snd] in *; [congruence|].
        assert (A1' : In (EvJobAdd a1 pl9 j9 g1 p1 q1) (trace s')) by (rewrite Et'; apply in_or_app; auto).
        destruct (ApiPool.add_unique s' _ _ _ _ _ _ _ _ _ _ R' A1' Ha) as [-> ->].
        exists (FRun k). split; [cbn [stk s']; rewrite next_own; apply in_or_app; auto|]. right. exists k. split; auto. rewrite <- K. exact C.
Qed.

Lemma home_idle : forall p q s t, at_home s t = true -> ~ works p q s t.
Proof.
  intros p q s t H (f & J & [B|(k & -> & _)]); [apply (InvStarted.home_free p s t H); exists f; auto|].
  unfold at_home in H. destruct (home (stk s t)) eqn:Hk; [clear H|discriminate H]. revert J Hk. generalize (stk s t). intros l J Hk. unfold home in Hk.
  repeat match type of Hk with context [match ?x with _ => _ end] => is_var x; destruct x; try discriminate Hk end;
  cbn [In] in J; repeat destruct J as [J|J]; try discriminate J; auto.
Qed.
Theorem took_home : forall s t pl j lv g' a g p q, reachable s -> In (EvJobTake t pl j lv g') (trace s) -> In (EvJobAdd a pl j g p q) (trace s) ->
  at_home s t = true -> is_ready p (trace s).
Proof.
  intros s t pl j lv g' a g p q R T A Ho. destruct (took_result s R _ _ _ _ _ T _ _ _ _ A) as [X|X]; auto. elim (home_idle p q s t Ho X).
Qed.
(** A thread that came to its end worked off every job it had taken, too. *)
Theorem took_end : forall s t pl j lv g' a g p q, reachable s -> In (EvJobTake t pl j lv g') (trace s) -> In (EvJobAdd a pl j g p q) (trace s) ->
  stk s t = [] -> is_ready p (trace s).
Proof.
  intros s t pl j lv g' a g p q R T A Ho. destruct (took_result s R _ _ _ _ _ T _ _ _ _ A) as [X|(f & J & _)]; auto. rewrite Ho in J. destruct J.
Qed.
