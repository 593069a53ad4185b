(** * ThmWhen: what the future of a combinator holds. *)
From Verif Require Import Types Core State Ops Code Machine Base Spec SpecKind SpecOwn SpecWhen SpecFire Rules Events Calls InvCtx InvBound InvStack InvRefs Contract Count Replay ReplayObj InvCv InvKind Adj Own OwnRefs OwnProm OwnRun OwnDead OwnTask InvLock InvPack InvFire InvWhen InvFill InvHook InvComb InvBroken InvArmed.
From Verif Require ThmObj.

Definition not_when (x : purpose) : bool := match x with PuWhen _ => false | _ => true end.
Definition set_ok (s : st) (t : tid) (f : frame) : Prop :=
  match f with
  | FPackGuard p => exists x, purpose_is (trace s) p x /\ not_when x = true
  | FSet p o | FSet1 p o => p < h_nfs (hp s) /\ forall all w ins, combines (trace s) all w p ins -> is_ready p (trace s) \/ when_value all ins (trace s) o \/ (o = OExn XBroken /\ dead p s)
  | _ => True
  end.
Lemma outcome_app : forall all ins tr l o, when_value all ins tr o -> when_value all ins (tr ++ l) o.
Proof.
  intros all ins tr l o H. unfold when_value in *. destruct all.
  - destruct H as [H1 H2]. split; auto. intros q J. apply ready_app. auto.
  - destruct H as (i & q & H1 & H2 & H3). exists i, q. split; auto. split; auto. now apply ready_app.
Qed.
Lemma combines_back : forall h t pre h' n all w p ins, lstep h t pre h' n -> p < h_nfs h -> combines (tr_of h') all w p ins -> combines (tr_of h) all w p ins.
Proof.
  intros h t pre h' n al w1 p1 ins1 L P (t1 & J). destruct (lstep_tr _ _ _ _ _ L) as [Et|[e Et]].
  - exists t1. unfold tr_of in *. now rewrite <- Et.
  - unfold tr_of in J. rewrite Et in J. cbn [rev] in J. apply in_app_or in J as [J|[J|[]]]; [exists t1; exact J|]. subst e. exfalso.
    ev_cases L Et. destruct (all_some _) as [ins|] eqn:As in Et; [|discriminate Et]. injection Et as <- <- <- <- <-. lia.
Qed.
Lemma set_step : forall s t pre rest h n u f, reachable s -> stk s t = pre ++ rest -> lstep (hp s) t pre h n -> set_ok s u f -> set_ok (mkSt h (set_next (stk s) t n rest) None) u f.
Proof.
  intros s t pre rest h n u f R E L H. destruct (lstep_trl _ _ _ _ _ L) as [l Et]. pose proof (nfs_mono _ _ _ _ _ L). set (s' := mkSt h (set_next (stk s) t n rest) None) in *.
  assert (Et' : trace s' = trace s ++ l) by exact Et.
  assert (Dd : forall p, p < h_nfs (hp s) -> dead p s -> dead p s') by (intros p Hp D; exact (dead_step p s t pre rest h n R E L Hp D)).
  destruct f; cbn [set_ok] in *; auto.
  1: { destruct H as (x & H & N). exists x. split; auto. rewrite Et'. now apply pur_app. }
  all: destruct H as [P H]; (split; [cbn [hp s']; lia|]); intros all w ins C; apply (combines_back _ _ _ _ _ _ _ _ _ L P) in C; rewrite Et'.
  all: destruct (H _ _ _ C) as [H1|[H1|[H1 H2]]]; [left; now apply ready_app|right; left; now apply outcome_app|right; right; auto].
Qed.
Lemma set_tick : forall s d u f, set_ok s u f -> set_ok (mkSt (emit (put_now (hp s) (h_now (hp s) + Zpos d)) (EvTick (Zpos d))) (stk s) None) u f.
Proof.
  intros s d u f H. set (s' := mkSt _ _ _).
  assert (Et : trace s' = trace s ++ [EvTick (Zpos d)]) by reflexivity.
  assert (Cb : forall all w p ins, combines (trace s') all w p ins -> combines (trace s) all w p ins).
  { rewrite Et. intros all w p ins [t1 J]. exists t1. apply in_app_or in J as [J|[J|[]]]; [exact J|discriminate J]. }
  assert (Dd : forall p, dead p s -> dead p s') by (intros p D; exact D).
  destruct f; cbn [set_ok] in *; auto.
  1: { destruct H as (x & H & N). exists x. split; auto. rewrite Et. now apply pur_app. }
  all: destruct H as [P H]; (split; [exact P|]); intros all w ins C; apply Cb in C; rewrite Et.
  all: destruct (H _ _ _ C) as [H1|[H1|[H1 H2]]]; [left; now apply ready_app|right; left; now apply outcome_app|right; right; auto].
Qed.
Lemma combines_purpose : forall tr all w p ins, combines tr all w p ins -> purpose_is tr p (PuWhen w).
Proof. intros tr all w p ins [t J]. right. exists t, all, w, ins. auto. Qed.
Theorem set_adj : forall s, reachable s -> forall t, adj (fun _ f _ => set_ok s t f) None (stk s t).
Proof.
  apply (adj_rule (fun s t _ f _ => set_ok s t f)).
  - intros. now apply set_tick.
  - auto.
  - intros t. cbn. destruct t; cbn; auto.
  - intros. eapply set_step; eauto.
  - intros s t pre rest h n R R' E L Fp. split; [|split].
    2: { destruct rest as [|g r]; auto. intros Hg. eapply set_step; eauto. }
    2: { destruct (spawned n) as [[c cfs]|] eqn:Sp; auto. destruct (lstep_spawned _ _ _ _ _ _ _ L Sp) as (_ & _ & b & ->). destruct b; cbn; auto. }
    cbn [hp] in *.
    destruct (k_inv_reachable s R) as (K & Kf). specialize (Kf t). rewrite E in Kf. apply Forall_app in Kf as [Kf _].
    pose proof (b_inv_reachable s R) as (_ & _ & Fb). specialize (Fb t). rewrite E in Fb. apply Forall_app in Fb as [Fb _].
    assert (Nm : forall f, In f (next_frames n) -> fb (bof h) f).
    { intros f J. destruct (b_inv_reachable _ R') as (_ & _ & F). specialize (F t). eapply Forall_forall in F; [exact F|]. cbn [stk]. rewrite next_own. apply in_or_app; auto. }
    pose proof L as L0. destruct (lstep_trl _ _ _ _ _ L) as [l Et].
    assert (Ns : forall p x o, purpose_is (trace s) p x -> not_when x = true -> forall all w ins, combines (tr_of h) all w p ins -> is_ready p (tr_of h) \/ when_value all ins (tr_of h) o \/ (o = OExn XBroken /\ dead p (mkSt h (set_next (stk s) t n rest) None))).
    { intros p x o P N all w ins C. exfalso. apply combines_purpose in C. assert (P' : purpose_is (tr_of h) p x) by (rewrite Et; now apply pur_app).
      rewrite (purpose_inj _ p _ _ R' P' C) in N. discriminate N. }
    lstep_cases L; cbn [next_frames] in *; cbn [adj] in Fp; inversion Kf as [|? ? Kf1 Kf2]; subst; inversion Fb as [|? ? Fb1 Fb2]; subst; clear Kf Fb; sh_; try exact Logic.I; cbn [set_ok]; unfold trace; cbn [hp]; try match goal with |- context [rev (h_tr ?z)] => change (rev (h_tr z)) with (tr_of z) end.
    all: try (split; [first [exact (Nm _ (or_introl eq_refl))|exact (Nm _ (or_intror (or_introl eq_refl)))]|]).
    all: cbn [fk tk] in Kf1; cbn [fb] in Fb1.
    all: try (eapply Ns; [eassumption || apply Kf1|reflexivity]; fail).
    all: try (eexists; split; [rewrite Et; apply pur_app; apply Kf1|reflexivity]; fail).
    all: try match goal with A : atom _ _ (OWAll _ _ _ _) _ = _ |- _ => apply w_set_prom in A as W | A : atom _ _ (OWAny _ _ _ _) _ = _ |- _ => apply w_set_prom in A as W | A : atom _ _ (OWFinal _) _ = _ |- _ => apply w_set_prom in A as W end.
    all: try (cbn in W; intros al w1 ins1 C; match type of W with _ = w_prom (h_wcs _ ?w0) => assert (W0 : w0 < h_nw (hp s)) by apply Fb1; pose proof (hk_w _ _ K w0 W0) as Pw end;
      rewrite <- W in Pw; assert (Pl : s0 < h_nfs (hp s)) by exact (proj1 (purpose_one s R) _ _ Pw);
      apply (combines_back _ _ _ _ _ _ _ _ _ L0 Pl) in C; pose proof (purpose_inj _ _ _ _ R (combines_purpose _ _ _ _ _ C) Pw) as Q; injection Q as ->;
      assert (C1 : comb (hp s) al w ins1) by (exists s0; exact C)).
    + intros all w ins _. right. right. split; [reflexivity|]. eapply dtor_dead; eauto.
    + pose proof (set_step _ _ _ _ _ _ _ _ R E L0 (proj1 Fp)) as X. apply X.
    + apply (hk_prm) with (n := pr) in K. assert (Q : h_prms (hp s) pr = Some s0) by (cbn [atom] in A; now injection A as _ ->). rewrite Q in K. eapply Ns; [exact K|reflexivity].
    + (* final block of when_any *)
      assert (al = false) as -> by (pose proof (fst_reachable s R t) as F; rewrite E in F; inversion F as [|? ? F0 _]; subst; cbn [fst_] in F0; now destruct (comb_one _ _ _ _ _ _ R C1 F0)).
      assert (V : snd (wany_final (h_wcs (hp s) w)) = Some v) by (cbn [atom] in A; destruct (wany_final _) as [W' [v'|]]; injection A as _ A; cbn; congruence).
      rewrite Et. destruct (any_final_done s t rest w ins1 v R E C1 V) as [X|(i & q & X1 & X2 & X3)].
      * left. apply ready_app. rewrite W. exact X.
      * right. left. apply outcome_app. exists i, q. subst. auto.
    + (* when_all *)
      destruct (hook_kind s t true w idx par q al ins1 R) as [<- _]; [rewrite E; left; reflexivity|exact C1|].
      assert (V : snd (wall_step (h_wcs (hp s) w) idx par) = Some v) by (cbn [atom] in A; destruct (wall_step _ _ _) as [W' [v'|]]; injection A as _ A; cbn; congruence).
      destruct (all_done s t rest _ _ w idx par q ins1 v R R' E L0 C1 V) as [-> X]. right. left. split; auto.
    + destruct (hook_kind s t false w idx par q al ins1 R) as [<- _]; [rewrite E; left; reflexivity|exact C1|].
      assert (V : snd (wany_step (h_wcs (hp s) w) idx par) = Some v) by (cbn [atom] in A; destruct (wany_step _ _ _) as [W' [v'|]]; injection A as _ A; cbn; congruence).
      destruct (any_hook_done s t rest w idx par q ins1 v R E C1 V) as (-> & X1 & X2). right. left. rewrite Et. apply outcome_app. exists idx, par. auto.
    + destruct Kf1 as (aw & idx & pw & Kf1). eapply Ns; [exact Kf1|reflexivity].
    + destruct Fp as (_ & (xp & P & N) & _). eapply Ns; [exact P|exact N].
Qed.
(** The future of a combinator holds what it should. *)
Theorem when_holds : forall s, reachable s -> at_each (fun tr e => match e with
  | EvReady _ p o => forall all w ins, combines tr all w p ins -> when_outcome all w ins tr o | _ => True end) (trace s).
Proof.
  apply (event_rule reachable); auto.
  intros s t pre rest h n e R U E L X. destruct e; auto.
  pose proof (set_adj s R t) as F. rewrite E in F.
  ev_cases L X.
  destruct x as [cbs|]; [|discriminate X]. injection X as <- <- <-. intros al w1 ins1 C. cbn [adj app] in F. destruct F as [[_ F] _].
  assert (Nr : ~ is_ready p0 (trace s)) by (intros Rd; apply (ready_iff s p0 R) in Rd; cbn [atom] in A; rewrite Rd in A; discriminate A).
  destruct (F _ _ _ C) as [Rd|[H|[H D]]]; [contradiction (Nr Rd)|left; exact H|right]. split; [exact H|]. destruct al; [eapply all_abandoned; eauto|eapply any_abandoned; eauto].
Qed.
Corollary when_all_holds : forall s, reachable s -> at_each (fun tr e => match e with
  | EvReady _ p o => forall w ins, combines tr true w p ins ->
      ~ is_ready p tr /\
      (o = OVal (VFuts (map Some ins)) /\ (forall q, In q ins -> is_ready q tr) \/
       o = OExn XBroken /\ exists i, i < length ins /\ ~ hooked tr w i)
  | _ => True end) (trace s).
Proof.
  intros s R a e b E. pose proof (when_holds s R a e b E) as H. pose proof (ThmObj.ready_once' s R a e b E) as N. destruct e; auto. intros w ins C. split; [intros Rd; apply Rd; exact N|].
  destruct (H _ _ _ C) as [X|[X1 X2]]; auto.
Qed.
Corollary when_any_holds : forall s, reachable s -> at_each (fun tr e => match e with
  | EvReady _ p o => forall w ins, combines tr false w p ins ->
      ~ is_ready p tr /\
      ((exists i q, o = OVal (VAny (Some i) (map Some ins)) /\ nth_error ins i = Some q /\ is_ready q tr) \/
       o = OExn XBroken /\ forall i, ~ hooked tr w i)
  | _ => True end) (trace s).
Proof.
  intros s R a e b E. pose proof (when_holds s R a e b E) as H. pose proof (ThmObj.ready_once' s R a e b E) as N. destruct e; auto. intros w ins C. split; [intros Rd; apply Rd; exact N|].
  destruct (H _ _ _ C) as [X|[X1 X2]]; auto.
Qed.
