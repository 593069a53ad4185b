(** * InvArmed: a when_any whose first hook has run is satisfied once it is built. *)
From Verif Require Import Types Core State Ops Code Machine Base Spec SpecKind SpecOwn SpecWhen SpecFire Rules Events Calls InvCtx InvBound InvStack InvRefs Contract Count Replay ReplayObj InvCv InvKind Adj Own OwnRefs OwnProm OwnRun OwnDead OwnTask InvLock InvPack InvFire InvWhen InvFill InvHook InvComb InvBroken InvThrow InvGuard ThmLaunch.

(** ** How many inputs a when_any has counted *)
Definition pk (h : heap) (w : nat) (kd : wkind) (idx : nat) : Prop := match kd with KAny _ => w_processed (h_wcs h w) = idx | KAll => True end.
Definition pst (h : heap) (t : tid) (f : frame) : Prop :=
  match f with
  | FWEach w kd _ idx _ => pk h w kd idx /\ idx <= length (w_states (h_wcs h w))
  | FWThen w kd _ idx _ _ _ | FWPack w kd _ idx _ _ | FWAtt w kd _ idx _ _ _ | FWProc w kd _ idx _ => pk h w kd idx
  | FInvoke _ _ c | FPush _ _ c | FDisp _ _ c | FLaunch _ _ _ c | FLaunch1 _ _ _ c | FFire1 _ _ c =>
      match c with LkWhen w kd _ idx _ => pk h w kd idx | _ => True end
  | FWFin w | FWFin1 w => w_processed (h_wcs h w) = length (w_states (h_wcs h w))
  | _ => True
  end.
Lemma pk_mono : forall h h' w kd idx, wsame h h' w -> pk h w kd idx -> pk h' w kd idx.
Proof. intros h h' w kd idx [_ S] H. destruct kd; cbn [pk] in *; auto. now rewrite S. Qed.
Lemma pst_mono : forall h h' t f, (forall w k, stage f = Some (w, k) -> wsame h h' w) -> (forall w, f = FWFin w \/ f = FWFin1 w -> wsame h h' w) -> pst h t f -> pst h' t f.
Proof.
  intros h h' t f S1 S2 H. destruct f; cbn [pst stage] in *; auto.
  all: try (destruct c; auto; cbn [lk_stage] in S1; eapply pk_mono; eauto; fail).
  all: try (eapply pk_mono; eauto; fail).
  - destruct H as [H1 H2]. split; [eapply pk_mono; eauto|]. destruct (S1 _ _ eq_refl) as [-> _]. auto.
  - destruct (S2 w (or_introl eq_refl)) as [-> ->]. auto.
  - destruct (S2 w (or_intror eq_refl)) as [-> ->]. auto.
Qed.
Theorem pst_reachable : forall s, reachable s -> forall t, Forall (pst (hp s) t) (stk s t).
Proof.
  apply (frame_rule reachable pst); try exact Logic.I; auto.
  - intros s t pre rest h n u f R Fa E L Hu Jf H. pose proof (fst_reachable s R) as Fs. pose proof (Fs u) as Fu. eapply Forall_forall in Fu; [|exact Jf].
    eapply pst_mono; [| |exact H].
    + intros w k Sg. destruct (stage_comb _ _ _ _ _ Fu Sg) as (a & ins & C).
      destruct (lstep_wsame _ _ _ _ _ w L (comb_lt _ _ _ _ R C)) as [X|(f0 & -> & X)]; auto. exfalso.
      destruct (fills_stage _ _ X) as [k0 S0]. eapply (one_builder s t [f0] rest f0 u f w); eauto. now left.
    + intros w Ef. assert (C : comb (hp s) false w (w_states (h_wcs (hp s) w))) by (destruct Ef; subst; exact Fu).
      assert (Pw : w_processed (h_wcs (hp s) w) = length (w_states (h_wcs (hp s) w))) by (destruct Ef; subst; exact H).
      destruct (lstep_wsame _ _ _ _ _ w L (comb_lt _ _ _ _ R C)) as [X|(f0 & -> & [X|X])]; [exact X| |].
      * exfalso. specialize (Fs t). rewrite E in Fs. inversion Fs as [|? ? F0 _]; subst.
        destruct (fills_more _ _ _ _ F0 X) as (a & ins & p & r & C' & Ei). destruct (comb_one _ _ _ _ _ _ R C C') as [_ Q].
        rewrite Ei in Q. apply (f_equal (@length _)) in Q. rewrite app_length in Q. cbn in Q. lia.
      * exfalso. specialize (Fs t). rewrite E in Fs. inversion Fs as [|? ? F0 _]; subst. destruct f0; cbn in X; try contradiction. destruct kd; [contradiction|]. subst.
        destruct F0 as (F1 & ins & _ & F2 & _). lia.
  - intros s t pre rest h n R E L Fp _. pose proof (fst_reachable s R t) as Fs. rewrite E in Fs. apply Forall_app in Fs as [Fs _].
    assert (K : (forall w, w < h_nw (hp s) -> wsame (hp s) h w) -> Forall (pst h t) pre).
    { intros W. apply Forall_forall. intros f J. eapply Forall_forall in Fp; [|exact J]. eapply Forall_forall in Fs; [|exact J].
      eapply pst_mono; [| |exact Fp].
      - intros w k Sg. destruct (stage_comb _ _ _ _ _ Fs Sg) as (a & ins & C). apply W. eapply comb_lt; eauto.
      - intros w Ef. apply W. eapply comb_lt; eauto. destruct Ef; subst; exact Fs. }
    lstep_cases L; (split; [|try exact Logic.I; cbn [spawned]; try (fl_; exact Logic.I)]); cbn [next_frames];
      try (specialize (K ltac:(intros; split; reflexivity)));
      try (assert (Kw : forall w, w < h_nw (hp s) -> wsame (hp s) h' w) by
         (intros w1 W1; destruct (atom_wsame _ _ _ _ _ _ _ _ A W1) as [Sm|Sm]; [exact Sm|contradiction Sm]); specialize (K Kw));
      inversion Fp as [|? ? Fp1 Fp2]; subst; inversion Fs as [|? ? Fs1 _]; subst; try (inversion K as [|? ? K1 _]; subst; clear K); fl_; try exact Logic.I; cbn [pst fst_ lkst] in *; auto.
    + destruct Fs1 as (ins & C & S1 & S2 & _). destruct (Kw w (comb_lt _ _ _ _ R C)) as [Q1 Q2]. split; [exact Logic.I|lia].
    + destruct Fs1 as (ins & C & S1 & S2 & _). destruct (Kw w (comb_lt _ _ _ _ R C)) as [Q1 Q2]. cbn [pk]. rewrite Q2. split; [auto|lia].
    + destruct Fs1 as (ins & rst0 & C & S1 & S2 & S3 & _). destruct (Kw w (comb_lt _ _ _ _ R C)) as [Q1 Q2]. split; [|lia]. destruct kd; cbn [pk]; auto. now rewrite Q2.
    + destruct Fs1 as (ins & C & P & S1 & _). destruct (Kw w (comb_lt _ _ _ _ R C)) as [Q1 Q2]. destruct Fp1 as [Fp1 _]. cbn [pk] in Fp1. rewrite Q1, Q2. congruence.
    + destruct Fp1 as [Fp1 _]. cbn [atom] in A. destruct (h_hnds (hp s) n0) as [sh [p0|]]; [|discriminate A]. injection A as <- <-. destruct kd; cbn [pk] in *; auto. hs. rewrite upd_same. exact Fp1.
    + destruct Fs1 as (ins & C & P & S1 & S2). destruct (Kw w (comb_lt _ _ _ _ R C)) as [Q1 Q2]. destruct Fp1 as [Fp1 Fp3]. cbn [pk] in Fp1. rewrite Q1, Q2, Fp1.
      cbn [map] in S2. symmetry in S2. apply (f_equal (@length _)) in S2. rewrite skipn_length in S2. cbn in S2. rewrite S1 in *. lia.
    + destruct K1 as [K1 _]. exact K1.
    + split; [exact Logic.I|]. destruct Fs1 as (Fs1 & ins & C & _). destruct (Kw w (comb_lt _ _ _ _ R C)) as [Q1 Q2]. rewrite Q1. lia.
    + cbn [atom] in A. injection A as <- <-. cbn [pk] in *. hs. rewrite upd_same. cbn [w_process w_processed w_states] in *. destruct Fs1 as (Fs1 & _). split; [congruence|lia].
Qed.
(** ** Being built *)
Definition bf (w : nat) (f : frame) : Prop := (exists k, stage f = Some (w, k)) \/ f = FWFin w \/ f = FWFin1 w.
Definition building (s : st) (w : nat) : Prop := exists t f, In f (stk s t) /\ bf w f.
Lemma bf_next : forall h t pre h' n w0 f0, lstep h t pre h' n -> In f0 pre -> bf w0 f0 ->
  (exists g0, In g0 (next_frames n) /\ bf w0 g0) \/ pre = [FWFin1 w0] \/ exists i idx r, pre = [FWEach w0 KAll i idx r].
Proof.
  intros h t pre h' n w0 f0 L J B. unfold bf in B.
  lstep_cases L; cbn [In] in J; repeat destruct J as [J|J]; try contradiction J; subst f0; cbn [stage] in B.
  all: destruct B as [[kk B]|[B|B]]; try discriminate B.
  all: try (match type of B with lk_stage ?c = _ => destruct c; try discriminate B end; cbn [lk_stage] in B).
  all: try (injection B; intros; subst; eauto 6; fail).
  all: left; cbn [next_frames lresume]; try (injection B; intros; subst).
  all: repeat match goal with |- context [if ?b then _ else _] => destruct b end; cbn [destroy app].
  all: try (eexists; split; [left; reflexivity|]; unfold bf; cbn [stage lk_stage]; eauto; fail).
  all: try (eexists; split; [right; left; reflexivity|]; unfold bf; cbn [stage lk_stage]; eauto; fail).
  all: try (eexists; split; [right; right; left; reflexivity|]; unfold bf; cbn [stage lk_stage]; eauto; fail).
  all: try (eexists; split; [right; right; right; left; reflexivity|]; unfold bf; cbn [stage lk_stage]; eauto; fail).
Qed.
Lemma building_step : forall s t pre rest h n w ins, reachable s -> stk s t = pre ++ rest -> lstep (hp s) t pre h n -> comb (hp s) false w ins ->
  building s w -> building (mkSt h (set_next (stk s) t n rest) None) w \/ pre = [FWFin1 w].
Proof.
  intros s t pre rest h n w ins R E L C (t1 & f & J & B). destruct (Nat.eq_dec t1 t) as [->|Nt].
  - rewrite E in J. apply in_app_or in J as [J|J].
    + destruct (bf_next _ _ _ _ _ _ _ L J B) as [(g & Jg & Bg)|[X|(i & idx & r & X)]]; auto.
      * left. exists t, g. cbn [stk]. rewrite next_own. split; auto. apply in_or_app; auto.
      * exfalso. pose proof (fst_reachable s R t) as F. rewrite E, X in F. inversion F as [|? ? F0 _]; subst. destruct F0 as (ins' & C' & _).
        destruct (comb_one _ _ _ _ _ _ R C C'). discriminate.
    + left. exists t, f. cbn [stk]. rewrite next_own. split; auto. apply in_or_app; auto.
  - left. exists t1, f. cbn [stk]. split; auto. unfold set_next. destruct n as [fs|c cfs fs]; rewrite upd_other by auto; auto.
    destruct (Nat.eq_dec t1 c) as [->|Nc]; [|rewrite upd_other by auto; auto]. exfalso. destruct (lstep_spawned _ _ _ _ _ _ _ L eq_refl) as (Fr & _). rewrite (fresh_empty s c R Fr) in J. exact J.
Qed.
Lemma create_next : forall h t kd hs h' n, lstep h t [FWhen kd hs] h' n ->
  h_nw h' = h_nw h \/ w_set (h_wcs h' (h_nw h)) = false /\ next_frames n = [FWId (h_nw h) kd hs].
Proof.
  intros h t kd0 hs0 h' n L. remember [FWhen kd0 hs0] as pre eqn:Ep. lstep_cases L; try discriminate Ep; injection Ep; intros; subst.
  all: cbn [atom] in A; try (destruct (all_some _) as [ins|]; [|discriminate A]); injection A as <- <-; hs; auto.
  right. rewrite upd_same. auto.
Qed.
Definition armed (s : st) (w : nat) : Prop :=
  (forall t i q, In (EvHook t w i q) (trace s) -> w_ready (h_wcs (hp s) w) = true) /\
  (w_set (h_wcs (hp s) w) = true -> is_ready (w_prom (h_wcs (hp s) w)) (trace s)) /\
  (w_ready (h_wcs (hp s) w) = true -> fired_or_marking s w \/ building s w) /\
  (building s w \/ w_processed (h_wcs (hp s) w) = w_total (h_wcs (hp s) w)).
Theorem armed_reachable : forall s, reachable s -> forall w ins, comb (hp s) false w ins -> armed s w.
Proof.
  apply (reachable_ind'' (fun s => forall w ins, comb (hp s) false w ins -> armed s w)).
  - intros w ins (p & t & []).
  - intros s s' R R' IH U Tr w ins C. destruct Tr as [d|t0 pre rest u E L|t0 pre rest h n E L].
    + apply tick_comb in C. destruct (IH w ins C) as (H1 & H2 & H3 & H4). assert (Tk : forall p, is_ready p (trace s) -> is_ready p (trace s ++ [EvTick (Zpos d)])) by (intros; now apply ready_app). split; [|split; [|split]].
      * intros t i q J. change (In (EvHook t w i q) (trace s ++ [EvTick (Zpos d)])) in J. apply in_app_or in J as [J|[J|[]]]; [exact (H1 _ _ _ J)|discriminate J].
      * intros X. apply Tk. exact (H2 X).
      * intros X. destruct (H3 X) as [[Y|Y]|Y]; [left; left; apply Tk; exact Y|left; right; exact Y|right; exact Y].
      * exact H4.
    + exact (IH w ins C).
    + cbn [hp] in *. pose proof (comb_total _ _ _ _ R' C) as T'. cbn [hp] in T'. set (s' := mkSt h (set_next (stk s) t0 n rest) None) in *.
      destruct (comb_back _ _ _ _ _ _ _ _ _ R E L C) as [C0|(kd & hs & -> & -> & E1 & E2 & E3 & E4 & E5)].
      2: { destruct (create_next _ _ _ _ _ _ L) as [X|[X Y]]; [exfalso; apply (comb_lt s' false _ ins R') in C; cbn [hp s'] in C; lia|].
        split; [|split; [|split]]; cbn [hp s'].
        - intros t1 i q J. exfalso. destruct (hook_from _ _ _ _ _ R' J) as (t' & v & a & par & J' & _).
          destruct (hook_input _ R' _ _ _ _ _ _ _ J') as [Z _]. cbn [hp s'] in Z. rewrite E1 in Z. destruct i; discriminate Z.
        - congruence.
        - congruence.
        - left. exists t0, (FWId (h_nw (hp s)) kd hs). cbn [stk s']. rewrite next_own, Y. split; [left; reflexivity|]. left. cbn. eauto. }
      specialize (IH w ins C0). pose proof (comb_lt _ _ _ _ R C0) as W. pose proof (comb_total _ _ _ _ R C0) as T0.
      pose proof (marking_step s t0 pre rest h n w R E L W) as Mk. fold s' in Mk. pose proof (building_step _ _ _ _ _ _ _ _ R E L C0) as Bd. fold s' in Bd.
      assert (Rd : forall q, is_ready q (trace s) -> is_ready q (trace s')).
      { intros q X. destruct (lstep_trl _ _ _ _ _ L) as [l Et]. change (is_ready q (tr_of h)). rewrite Et. now apply ready_app. }
      pose proof (prom_same _ _ _ _ _ _ L W) as Pm.
      destruct IH as (I1 & I2 & I3 & I4).
      assert (Fin : pre = [FWFin1 w] -> armed s' w).
      { intros ->. destruct (touch_effect _ _ _ _ _ w L eq_refl) as [Ef Et]. assert (Nx := fun v => any_next _ _ _ _ _ w v L).
        pose proof (pst_reachable s R t0) as Ps. rewrite E in Ps. inversion Ps as [|? ? P0 _]; subst. cbn [pst] in P0. clear Ps.
        pose proof (fst_reachable s R t0) as Fs. rewrite E in Fs. inversion Fs as [|? ? F0 _]; subst. cbn [fst_] in F0. clear Fs.
        destruct (comb_one _ _ _ _ _ _ R C0 F0) as [_ Ei].
        assert (Sm : w_ready (h_wcs h w) = w_ready (h_wcs (hp s) w) /\ w_set (h_wcs h w) = w_set (h_wcs (hp s) w) /\ w_processed (h_wcs h w) = w_processed (h_wcs (hp s) w)).
        { rewrite Ef. unfold wany_final. destruct (_ && _); auto. }
        destruct Sm as (S1 & S2 & S3). unfold armed. cbn [hp s']. rewrite S1, S2, S3, Pm, T'. split; [|split; [|split]].
        - intros t1 i q J. apply (I1 t1 i q). unfold trace, tr_of in *. cbn [hp s'] in J. now rewrite Et in J.
        - auto.
        - intros Rw. left. destruct (w_set (h_wcs (hp s) w)) eqn:Sw; [apply Mk; left; auto|]. right. edestruct Nx as [a Ea]; [split; [reflexivity|]; unfold wany_final; rewrite Rw, Sw; reflexivity|].
          exists t0, a. cbn [stk s']. rewrite next_own, Ea. right. left. reflexivity.
        - right. congruence. }
      assert (Keep : w_ready (h_wcs h w) = w_ready (h_wcs (hp s) w) -> w_set (h_wcs h w) = w_set (h_wcs (hp s) w) ->
        (forall t0 i q, In (EvHook t0 w i q) (h_tr h) -> In (EvHook t0 w i q) (h_tr (hp s))) -> (building s' w \/ w_processed (h_wcs h w) = w_total (h_wcs h w)) -> (building s w -> building s' w) -> armed s' w).
      { intros K1 K2 K3 K4 K5. unfold armed. cbn [hp s']. rewrite K1, K2, Pm. split; [|split; [|split]]; auto.
        - intros t1 i q J. apply (I1 t1 i q). unfold trace in *. rewrite <- in_rev in *. auto.
        - intros Rw. destruct (I3 Rw); auto. }
      destruct (lstep_weq _ _ _ _ _ w L W) as [[(_ & W0 & W1 & W2 & _) Nh]|(f & -> & Tf)].
      { destruct I4 as [I4|I4].
        - destruct (Bd I4) as [B|B]; [|exact (Fin B)]. apply Keep; auto.
        - assert (X : (building s w -> building s' w) \/ pre = [FWFin1 w]).
          { destruct pre as [|f0 [|? ?]]; [left; intros B; destruct (Bd B); [auto|discriminate]| |left; intros B; destruct (Bd B); [auto|discriminate]].
            destruct f0; try (left; intros B; destruct (Bd B) as [?|Q]; [auto|discriminate Q]).
            destruct (Nat.eq_dec w0 w) as [->|Nw]; [right; reflexivity|left; intros B; destruct (Bd B) as [?|Q]; [auto|congruence]]. }
          destruct X as [X|X]; [|exact (Fin X)]. apply Keep; auto. right. rewrite T'. congruence. }
      assert (Bd' : f <> FWFin1 w -> building s w -> building s' w) by (intros N B; destruct (Bd B) as [|Q]; [auto|congruence]).
      pose proof (touch_effect _ _ _ _ _ _ L Tf) as Ef.
      destruct f; cbn [touches] in Tf; try contradiction Tf; cbn [effect] in Ef.
      * destruct Ef as (p & Ef & Nh). apply Keep; auto; try (rewrite Ef; reflexivity); [|apply Bd'; discriminate]. destruct I4 as [I4|I4]; [left; apply Bd'; [discriminate|auto]|right]. rewrite T', Ef. cbn. congruence.
      * destruct Ef as (p & Ef & Nh). apply Keep; auto; try (rewrite Ef; reflexivity); [|apply Bd'; discriminate]. destruct I4 as [I4|I4]; [left; apply Bd'; [discriminate|auto]|right]. rewrite T', Ef. cbn. congruence.
      * destruct Ef as (Ef & Nh). apply Keep; try (rewrite Ef; reflexivity); [rewrite Nh; auto| |apply Bd'; discriminate]. destruct I4 as [I4|I4]; [left; apply Bd'; [discriminate|auto]|right]. rewrite T', Ef. cbn. congruence.
      * destruct Ef as (Ef & Nh). apply Keep; try (rewrite Ef; reflexivity); [rewrite Nh; auto| |apply Bd'; discriminate]. left. apply Bd'; [discriminate|].
        exists t0, (FWProc w0 kd i idx r). rewrite E. split; [left; reflexivity|]. left. cbn [stage]. destruct kd; [contradiction|]. subst. eauto.
      * subst. now apply Fin.
      * subst. destruct (hook_kind s t0 all w idx par q false ins R) as [-> Hp]; [rewrite E; left; reflexivity|exact C0|]. destruct Ef as (Ef & Et).
        assert (Nx := fun v => any_next _ _ _ _ _ w v L). 
        assert (Rw : w_ready (h_wcs h w) = true) by (rewrite Ef; unfold wany_step; destruct (w_ready (h_wcs (hp s) w)) eqn:?; auto; destruct (_ && _); auto).
        assert (Sw : w_set (h_wcs h w) = w_set (h_wcs (hp s) w)) by (rewrite Ef; unfold wany_step; destruct (w_ready (h_wcs (hp s) w)) eqn:?; auto; destruct (_ && _); auto).
        assert (Sp : w_processed (h_wcs h w) = w_processed (h_wcs (hp s) w)) by (rewrite Ef; unfold wany_step; destruct (w_ready (h_wcs (hp s) w)) eqn:?; auto; destruct (_ && _); auto).
        assert (I4' : building s' w \/ w_processed (h_wcs (hp s) w) = length ins) by (destruct I4 as [I4|I4]; [left; apply Bd'; [discriminate|auto]|right; congruence]).
        unfold armed. cbn [hp s']. rewrite Rw, Sw, Sp, Pm, T'. split; [auto|]. split; [auto|]. split; [intros _|auto].
        destruct (w_ready (h_wcs (hp s) w)) eqn:Rs; [destruct (I3 eq_refl); [left; auto|right; apply Bd'; [discriminate|auto]]|].
        destruct I4' as [B|Eq]; [right; auto|]. left. destruct (w_set (h_wcs (hp s) w)) eqn:Ss; [apply Mk; left; auto|]. right.
        edestruct Nx as [a Ea]; [split; [reflexivity|]; unfold wany_step; rewrite Rs, Ss, T0, Eq, Nat.eqb_refl; reflexivity|].
        exists t0, a. cbn [stk s']. rewrite next_own, Ea. right. left. reflexivity.
      * subst. destruct Ef as (Ef & Nh). pose proof (mark_reachable s R t0) as M. rewrite E in M. cbn [app adj mark_ok] in M. destruct M as [(_ & [M|[]]) _].
        unfold armed. cbn [hp s']. rewrite Pm, T', Ef. cbn [w_mark w_ready w_set w_processed]. split; [|split; [|split]].
        -- intros t1 i q J. apply (I1 t1 i q). unfold trace in *. cbn [hp s'] in J. now rewrite Nh in J.
        -- auto.
        -- intros _. left. left. cbn [hp s']. rewrite Pm. auto.
        -- destruct I4 as [I4|I4]; [left; apply Bd'; [discriminate|auto]|right; congruence].
Qed.
(** ** The call that builds a combinator *)
Definition okb (h h' : heap) (t : tid) (pre : list frame) (g : frame) : Prop := forall w, bf w g ->
  (exists f, In f pre /\ bf w f) \/ exists a p ins, h_tr h' = EvWhen t a w p ins :: h_tr h.
Lemma bf_prev : forall h t pre h' n, lstep h t pre h' n -> Forall (okb h h' t pre) (next_frames n).
Proof.
  intros h t pre h' n L.
  assert (No : forall h h' t pre f, stage f = None -> match f with FWFin _ | FWFin1 _ => False | _ => True end -> okb h h' t pre f).
  { intros h0 h1 t0 pre0 f0 S F w0 [[kk B]|[B|B]]; [congruence| |]; subst; contradiction. }
  lstep_cases L; cbn [next_frames]; fl_.
  all: try (apply No; [reflexivity|exact Logic.I]).
  all: try (intros w0 B; left; eexists; split; [left; reflexivity|]; destruct B as [[kk B]|[B|B]]; try discriminate B; cbn [stage lk_stage] in B; try (injection B; intros; subst); unfold bf; cbn [stage lk_stage]; eauto; fail).
  intros w0 B. right. destruct B as [[kk B]|[B|B]]; try discriminate B. injection B as -> _. cbn [atom] in A. destruct (all_some _) as [ins|]; [|discriminate A]. injection A as <- <-. eexists _, _, _. reflexivity.
Qed.
Lemma lnk_in : forall S fs cs, lnk S fs cs -> forall a f c b, fs = a ++ f :: FApi c :: b -> exists cl seg, In cl cs /\ S cl seg /\ In f seg.
Proof.
  intros S fs cs L. induction L as [fs N|seg cl u fin below cs N H L IH]; intros a f c b E.
  - exfalso. subst. rewrite no_api_app in N. apply andb_true_iff in N as [_ N]. cbn in N. destruct f; discriminate N.
  - assert (X : In f seg \/ exists a', FUser u fin :: below = a' ++ f :: FApi c :: b).
    { clear - E. revert a E. induction seg as [|g seg IH]; intros [|x a] E; cbn in E.
      - injection E as _ E _. discriminate E.
      - injection E as _ E. right. eauto.
      - injection E as -> _. left. now left.
      - injection E as _ E. destruct (IH _ E) as [X|X]; [left; now right|now right]. }
    destruct X as [X|(a' & X)]; [exists cl, seg; split; [now left|auto]|]. destruct (IH _ _ _ _ X) as (cl' & seg' & J & Q). exists cl', seg'. split; [now right|auto].
Qed.
Lemma bf_rs : forall w f, bf w f -> rs f = true.
Proof.
  intros w f [[k B]|[B|B]]; [|now subst|now subst]. destruct f; cbn [stage] in B; try discriminate B; auto; cbn [rs]; destruct c; try discriminate B; auto.
Qed.
Lemma by_self_when : forall t a w p ins, by_thread t (EvWhen t a w p ins) = true.
Proof. intros. cbn. apply Nat.eqb_refl. Qed.
Theorem building_call : forall s w, reachable s -> building s w ->
  exists t cl a p ins, In cl (open_calls t (trace s)) /\ In (EvWhen t a w p ins) (cl_acts cl).
Proof.
  intros s w0 R0 (t0 & f0 & J0 & B0).
  assert (K : forall s, reachable s -> forall t, lnk (fun cl seg => incall t cl (trace s) /\
    forall w f, In f seg -> bf w f -> exists a p ins, In (EvWhen t a w p ins) (cl_acts cl)) (stk s t) (open_calls t (trace s))).
  { apply (bot_rule (fun t cl tr seg => forall w f, In f seg -> bf w f -> exists a p ins, In (EvWhen t a w p ins) (cl_acts cl))).
    - intros sx t c pre R E w f J B. exfalso. destruct B as [[k B]|[B|B]]; destruct c; cbn in J; destruct J as [<-|[]]; discriminate B.
    - auto.
    - auto.
    - intros sx s' t cl pre r rest h n R R' Eh U E L N _ _ _ P w f J B. cbn [cl_acts add_acts].
      assert (Old : (exists f, In f (pre ++ r) /\ bf w f) -> exists a p ins, In (EvWhen t a w p ins) (cl_acts cl ++ new_acts t (hp sx) h)).
      { intros (g & Jg & Bg). destruct (P w g Jg Bg) as (a & p & ins & H). exists a, p, ins. apply in_or_app; auto. }
      apply in_app_or in J as [J|J]; [|apply Old; exists f; split; auto; apply in_or_app; auto].
      pose proof (bf_prev _ _ _ _ _ L) as F. eapply Forall_forall in F; [|exact J]. destruct (F w B) as [(g & Jg & Bg)|(a & p & ins & H)]; [apply Old; exists g; split; auto; apply in_or_app; auto|].
      exists a, p, ins. apply in_or_app. right. rewrite (new_acts_one _ _ _ _ H). cbn [filter]. rewrite by_self_when. now left. }
  pose proof (flow_reachable s R0 t0) as Fl. apply in_split in J0 as (x & y & E0). pose proof (adj_in _ _ _ _ _ _ Fl E0) as (H & _).
  specialize (H (bf_rs _ _ B0)). destruct y as [|g y]; [contradiction|]. destruct g; try contradiction.
  destruct (lnk_in _ _ _ (K s R0 t0) _ _ _ _ E0) as (cl & seg & J & (_ & P) & Jf). destruct (P _ _ Jf B0) as (a & p & ins & Q). exists t0, cl, a, p, ins. auto.
Qed.
(** ** What is left when nobody works on the combinator *)
Theorem any_completes : forall s w p ins i, reachable s -> combines (trace s) false w p ins -> hooked (trace s) w i ->
  is_ready p (trace s) \/ when_locked (trace s) w \/ combining (trace s) false w p ins.
Proof.
  intros s w p ins i R C (t1 & q & J). assert (C1 : comb (hp s) false w ins) by (exists p; exact C).
  destruct (armed_reachable s R w ins C1) as (H1 & _ & H3 & _).
  assert (Pm : w < h_nw (hp s) /\ w_prom (h_wcs (hp s) w) = p) by (destruct C as [u Jc]; apply (when_heap_reachable s R) in Jc; tauto). destruct Pm as [W Pm].
  destruct (H3 (H1 _ _ _ J)) as [[X|(t2 & a & X)]|X].
  - left. congruence.
  - right. left. exists t2. eapply hold_in; eauto. cbn. apply Nat.eqb_refl.
  - right. right. destruct (building_call s w R X) as (t2 & cl & a & p' & ins' & Jc & Je). exists t2, cl. split; auto.
    assert (Je' : In (EvWhen t2 a w p' ins') (trace s)).
    { destruct (acts_in _ _ _ Jc) as (z & Ez & Iz). rewrite <- (rev_involutive (trace s)), Ez. apply in_or_app. right. now apply Iz. }
    destruct C as [u Jc']. destruct (when_one s w _ _ _ _ _ _ _ _ R Jc' Je') as (E1 & E2 & E3). subst. exact Je.
Qed.
Theorem all_completes : forall s w p ins, reachable s -> combines (trace s) true w p ins -> (forall i, i < length ins -> hooked (trace s) w i) ->
  is_ready p (trace s) \/ when_locked (trace s) w.
Proof.
  intros s w p ins R C Hk. assert (C1 : comb (hp s) true w ins) by (exists p; exact C).
  destruct (all_count_reachable s R w ins C1) as [H1 H2]. rewrite (comb_total _ _ _ _ R C1) in H2.
  assert (Pm : w < h_nw (hp s) /\ w_prom (h_wcs (hp s) w) = p) by (destruct C as [u J]; apply (when_heap_reachable s R) in J; tauto). destruct Pm as [W Pm].
  assert (Le : length ins <= length (hidx w (trace s))).
  { rewrite <- (seq_length (length ins) 0). apply NoDup_incl_length; [apply seq_NoDup|]. intros i J. apply in_seq in J. apply hidx_in. apply Hk. lia. }
  destruct (H2 ltac:(lia)) as [X|(t1 & f & q & b & E1 & _)]; [left; congruence|]. right. exists t1. apply (hold_in _ s t1 (FWUnl w (WaPack q))); auto; [rewrite E1; right; left; reflexivity|cbn; apply Nat.eqb_refl].
Qed.
(** The promise of a when_any is only abandoned when no hook has run. *)
Theorem any_abandoned : forall s p w ins, reachable s -> dead p s -> combines (trace s) false w p ins -> ~ is_ready p (trace s) ->
  forall i, ~ hooked (trace s) w i.
Proof.
  intros s p w ins R D C N i (t1 & q & J). assert (C1 : comb (hp s) false w ins) by (exists p; exact C).
  destruct (armed_reachable s R w ins C1) as (H1 & _ & H3 & _).
  assert (Pm : w < h_nw (hp s) /\ w_prom (h_wcs (hp s) w) = p) by (destruct C as [u Jc]; apply (when_heap_reachable s R) in Jc; tauto). destruct Pm as [W Pm].
  assert (Z0 : w_refs (h_wcs (hp s) w) = 0) by (eapply dead_wctx; eauto).
  assert (Nn : forall l, (0 <= sumf (cbw zero (one w)) l)%Z) by (intros; apply sumf_nonneg; intros; apply ctw_nn).
  assert (N2 : forall l, (0 <= sumf (tw (one w) zero) l)%Z) by (intros; apply sumf_nonneg; intros; apply ctw_nn).
  destruct (H3 (H1 _ _ _ J)) as [[X|(t2 & a & X)]|(t2 & f & Jf & B)].
  - apply N. now rewrite <- Pm.
  - destruct a.
    + apply (wrefs_frame s t2 (FWMark w WaRet) w R X); auto. cbn [fw]. rewrite one_same. lia.
    + apply in_split in X as (x & y & E). pose proof (adj_in _ _ _ _ _ _ (cshape_reachable s R t2) E) as (g & Jg & G).
      apply (wrefs_frame s t2 g w R); auto. rewrite E. apply in_or_app. right. now right.
  - apply (wrefs_frame s t2 f w R Jf); auto. destruct B as [[k B]|[B|B]]; [|subst; cbn [fw]; rewrite one_same; lia|subst; cbn [fw]; rewrite one_same; lia].
    destruct f; cbn [stage] in B; try discriminate B; try (destruct c; try discriminate B); injection B as -> _; cbn [fw lw]; rewrite ?one_same.
    all: unfold cbw; try match goal with |- context [tw ?a ?b ?k] => pose proof (ctw_nn w k) end; unfold zero in *; lia.
Qed.
