(** * InvTookWait: the state that wait looks at is made ready by the thread that took the job. *)
From Verif Require Import Types Core State Ops Code Machine Base Spec SpecKind SpecOwn SpecPack SpecPool SpecWhere SpecStarted SpecTook SpecWork SpecServe Rules Events InvCtx InvQueue InvBound InvStack InvRefs InvAff InvSleep Contract Count Replay ReplayObj InvCv InvKind Adj Own OwnRefs OwnProm OwnDead InvPack InvWork InvTab InvTook.
From Verif Require ApiPool.

Definition guards (f : frame) (b : list frame) : Prop := match f with FPackVal p => exists r, b = FPackGuard p :: r | _ => True end.
Ltac gu_ := repeat first [progress sh_ | match goal with |- guards _ _ => cbn [guards]; try exact Logic.I end].
Theorem guards_reachable : forall s, reachable s -> forall t, adj (fun _ => guards) None (stk s t).
Proof.
  apply (adj_rule (fun s t _ => guards)); auto.
  - intros t. cbn. destruct t; cbn; auto.
  - intros s t pre rest h n R R' E L Fp. split; [|split; [destruct rest; auto|]].
    2: { destruct (spawned n) as [[c cfs]|] eqn:Sp; auto. destruct (lstep_spawned _ _ _ _ _ _ _ L Sp) as (_ & _ & b & ->). destruct b; cbn; auto. }
    lstep_cases L; cbn [next_frames] in *; cbn [adj] in Fp; try destruct Fp as [Fp1 Fp2]; gu_.
    all: cbn [app] in *; eauto.
Qed.

Definition answers (q : sid) (f : frame) : Prop :=
  match f with
  | FRun k => exists p, job_task p q k
  | FPackVal r | FSet r _ | FSet1 r _ => r = q
  | _ => False
  end.
Definition settles (q : sid) (s : st) (t : tid) : Prop :=
  (exists f, In f (stk s t) /\ answers q f) \/ exists e b, stk s t = FThrow e :: FPackGuard q :: b.
Theorem took_answer : forall s, reachable s -> forall t pl j lv g', In (EvJobTake t pl j lv g') (trace s) ->
  forall a g p q, In (EvJobAdd a pl j g p q) (trace s) -> is_ready q (trace s) \/ settles q s t.
Proof.
  apply (reachable_ind'' (fun s => forall t pl j lv g', In (EvJobTake t pl j lv g') (trace s) ->
    forall a g p q, In (EvJobAdd a pl j g p q) (trace s) -> is_ready q (trace s) \/ settles q s t)).
  - intros t pl j lv g' [].
  - intros s s' R R' IH U Tr t9 pl9 j9 lv9 g9 H a9 ga pp qq Ha. destruct Tr as [d|t pre rest ub E L|t pre rest h n E L].
    + assert (Et : trace (mkSt (emit (put_now (hp s) (h_now (hp s) + Zpos d)) (EvTick (Zpos d))) (stk s) None) = trace s ++ [EvTick (Zpos d)]) by reflexivity.
      rewrite Et in *. apply in_app_or in H as [H|[H|[]]]; [|discriminate H]. apply in_app_or in Ha as [Ha|[Ha|[]]]; [|discriminate Ha].
      destruct (IH _ _ _ _ _ H _ _ _ _ Ha) as [Y|Y]; auto using ready_app.
    + exact (IH _ _ _ _ _ H _ _ _ _ Ha).
    + set (s' := mkSt h (set_next (stk s) t n rest) None) in *.
      destruct (lstep_tr' _ _ _ _ _ L) as [l Et]. assert (Et' : trace s' = trace s ++ l) by exact Et.
      assert (Old : In (EvJobTake t9 pl9 j9 lv9 g9) (trace s) \/ h_tr h = EvJobTake t9 pl9 j9 lv9 g9 :: h_tr (hp s)).
      { unfold trace in H. cbn [hp s'] in H. destruct (lstep_tr _ _ _ _ _ L) as [X|[e X]]; rewrite X in H; [now left|]. cbn [rev] in H.
        apply in_app_or in H as [H|[H|[]]]; [now left|right; now rewrite X, H]. }
      destruct Old as [Old|New].
      * destruct (taken_added s _ _ _ _ _ R Old) as (a1 & gg1 & p1 & q1 & A1).
        assert (A1' : In (EvJobAdd a1 pl9 j9 gg1 p1 q1) (trace s')) by (rewrite Et'; apply in_or_app; auto).
        destruct (ApiPool.add_unique s' _ _ _ _ _ _ _ _ _ _ R' A1' Ha) as [-> ->]. clear A1'.
        destruct (IH _ _ _ _ _ Old _ _ _ _ A1) as [Y|Y]; [left; rewrite Et'; auto using ready_app|].
        assert (Rd : forall q, fs_ready (h_fsts h q) = true -> is_ready q (trace s')) by (intros q; apply (ready_iff s' q R')).
        assert (Ne : stk s t9 <> []) by (destruct Y as [(f & J & _)|(e & b & Q)]; [intros N; rewrite N in J; destruct J|congruence]).
        destruct (Nat.eq_dec t9 t) as [->|Nt].
        2: { right. assert (Es : stk s' t9 = stk s t9); [|unfold settles; now rewrite Es]. cbn [stk s']. destruct n as [fs|c cfs fs]; cbn [set_next]; rewrite upd_other by auto; auto.
             destruct (lstep_spawned _ _ _ _ _ _ _ L eq_refl) as (F & _ & _). destruct (Nat.eq_dec t9 c) as [->|Nc]; [|now rewrite upd_other].
             now rewrite (fresh_empty s c R F) in Ne. }
        assert (Sk : stk s' t = next_frames n ++ rest) by (cbn [stk s']; apply next_own).
        assert (Own : forall f, In f (next_frames n ++ rest) -> answers qq f -> is_ready qq (trace s') \/ settles qq s' t).
        { intros f I B. right. left. exists f. rewrite Sk. auto. }
        clear IH H Old A1 Ha Ne. destruct Y as [(f0 & J & Hf)|(e0 & b0 & Q)].
        -- pose proof J as J0. rewrite E in J. apply in_app_or in J as [J|J]; [|apply (Own f0); auto; apply in_or_app; auto].
           apply in_split in J as (a & b & Ep).
           pose proof (guards_reachable s R t) as Ab. rewrite E, Ep, <- app_assoc in Ab. cbn [app] in Ab. apply adj_in with (a := a) (f := f0) (b := b ++ rest) in Ab; auto.
           assert (Pre1 : forall g, pre = [g] -> a = [] /\ f0 = g /\ b = []).
           { intros g Eg. rewrite Eg in Ep. destruct a as [|x1 a]; [injection Ep as -> <-; auto|]. injection Ep as _ Q. destruct a; discriminate Q. }
           assert (Pre2 : forall g1 g, pre = [g1; g] -> (a = [g1] /\ f0 = g /\ b = []) \/ f0 = g1).
           { intros g1 g Eg. rewrite Eg in Ep. destruct a as [|x1 a]; [injection Ep as -> _; auto|]. injection Ep as <- Q. left. destruct a as [|x2 a]; [injection Q as -> <-; auto|]. injection Q as _ Q. destruct a; discriminate Q. }
           clear Ep J0. lstep_cases L; first [destruct (Pre1 _ eq_refl) as (-> & -> & ->)|destruct (Pre2 _ _ eq_refl) as [(-> & -> & ->)| ->]]; try contradiction Hf; cbn [app lasto next_frames answers guards] in *.
           all: try (exfalso; destruct Hf as (p7 & u7 & c7 & Q); discriminate Q).
           all: try (destruct Hf as (p7 & u7 & c7 & Q); injection Q; intros; subst; eapply Own; [right; left; reflexivity|reflexivity]).
           all: try (eapply Own; [left; reflexivity|]; cbn; assumption).
           ++ left. subst p. apply Rd. cbn [atom] in A. destruct (fs_ready (h_fsts (hp s) qq)) eqn:Er; [injection A as <- <-; auto|]. unfold fs_set in A. injection A as <- <-. hs. rewrite upd_same. now destruct o.
           ++ right. right. destruct Ab as (r0 & ->). subst p. exists e, r0. exact Sk.
        -- rewrite Q in E. revert E. lstep_cases L; intros E; try discriminate E.
           injection E; intros; subst. eapply Own; [left; reflexivity|reflexivity].
      * destruct (take_frames _ _ _ _ _ _ _ _ _ _ L New) as (-> & k & x & J & Jx & K & N). right. left.
        pose proof (tab_inv pl9 s R) as T. rewrite Forall_forall in T. destruct (T _ Jx) as (a1 & gg1 & p1 & q1 & A1 & _ & [C|C]); cbn [fst snd] in *; [congruence|].
        assert (A1' : In (EvJobAdd a1 pl9 j9 gg1 p1 q1) (trace s')) by (rewrite Et'; apply in_or_app; auto).
        destruct (ApiPool.add_unique s' _ _ _ _ _ _ _ _ _ _ R' A1' Ha) as [-> ->].
        exists (FRun k). split; [cbn [stk s']; rewrite next_own; apply in_or_app; auto|]. exists pp. rewrite <- K. exact C.
Qed.

Lemma home_settled : forall q s t, at_home s t = true \/ stk s t = [] -> ~ settles q s t.
Proof.
  intros q s t [H|H] Y; [|destruct Y as [(f & J & _)|(e & b & Q)]; [rewrite H in J; destruct J|congruence]].
  unfold at_home in H. destruct (home (stk s t)) eqn:Hk; [clear H|discriminate H]. unfold settles in Y. revert Y Hk. generalize (stk s t). intros l Y Hk. unfold home in Hk.
  repeat match type of Hk with context [match ?x with _ => _ end] => is_var x; destruct x; try discriminate Hk end;
  (destruct Y as [(f & J & B)|(e9 & b9 & Q)]; [|discriminate Q]); cbn [In] in J; repeat destruct J as [<-|J]; cbn in B; auto.
Qed.
Theorem answer_home : forall s t pl j lv g' a g p q, reachable s -> In (EvJobTake t pl j lv g') (trace s) -> In (EvJobAdd a pl j g p q) (trace s) ->
  at_home s t = true \/ stk s t = [] -> is_ready q (trace s).
Proof.
  intros s t pl j lv g' a g p q R T A Ho. destruct (took_answer s R _ _ _ _ _ T _ _ _ _ A) as [X|X]; auto. elim (home_settled q s t Ho X).
Qed.
