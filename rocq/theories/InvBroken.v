(** * InvBroken: when the promise of a when_all is abandoned. *)
From Verif Require Import Types Core State Ops Code Machine Base Spec SpecKind SpecOwn SpecWhen SpecFire Rules Events Calls InvCtx InvBound InvStack InvRefs Contract Count Replay ReplayObj InvCv InvKind Adj Own OwnRefs OwnProm OwnRun OwnDead OwnTask InvLock InvPack InvFire InvWhen InvFill InvHook InvComb.

(** ** A running hook keeps its combinator *)
Notation cwt w := (fw zero zero zero (one w)).
Definition cbelow (w : nat) (b : list frame) : Prop := exists g, In g b /\ (0 < cwt w g)%Z.
Lemma cbelow_app : forall q a b, cbelow q b -> cbelow q (a ++ b).
Proof. intros q a b (g & J & H). exists g. split; auto. apply in_or_app; auto. Qed.
Lemma cbelow_cons : forall q f b, (0 < cwt q f)%Z \/ cbelow q b -> cbelow q (f :: b).
Proof. intros q f b [H|(g & J & H)]; [exists f|exists g]; cbn; auto. Qed.
Lemma ctw_nn : forall w k, (0 <= tw (one w) zero k)%Z.
Proof. intros. apply tw_nonneg; [apply one_nonneg|apply zero_nonneg]. Qed.
Definition cshape (f : frame) (b : list frame) : Prop :=
  match f with
  | FRun k => forall w, (0 < tw (one w) zero k)%Z -> cbelow w b
  | FWIn _ w _ _ _ | FWMark w (WaPack _) | FWUnl w (WaPack _) => cbelow w b
  | _ => True
  end.
Lemma cw_destroy : forall w k r, (0 < tw (one w) zero k)%Z -> cbelow w (destroy [k] ++ r).
Proof. intros q k r H. apply cbelow_cons. left. cbn. lia. Qed.
Lemma cw_lresume : forall w k c ok r, (0 < tw (one w) zero k)%Z -> cbelow w (lresume c ok (Some k) ++ r).
Proof.
  intros q k c ok r H. destruct c; unfold lresume; rewrite <- ?app_assoc; try (now apply cw_destroy).
  apply cbelow_cons. left. cbn [fw]. rewrite sumf_app. cbn [sumf].
  assert (A1 : forall l, (0 <= sumf (cbw zero (one q)) l)%Z) by (intros; apply sumf_nonneg; intros; apply ctw_nn). assert (A2 : forall l, (0 <= sumf (tw (one q) zero) l)%Z) by (intros; apply sumf_nonneg; intros; apply ctw_nn).
  match goal with |- context [sumf (cbw zero (one q)) ?l] => pose proof (A1 l) end. match goal with |- context [sumf (tw (one q) zero) ?l] => pose proof (A2 l) end. lia.
Qed.
Theorem cshape_reachable : forall s, reachable s -> forall t, adj (fun _ => cshape) None (stk s t).
Proof.
  apply (adj_rule (fun s t _ => cshape)); auto.
  - intros t. cbn. destruct t; cbn; auto.
  - intros s t pre rest h n R R' E L Fp. split; [|split; [destruct rest; auto|]].
    2: { destruct (spawned n) as [[c cfs]|] eqn:Sp; auto. destruct (lstep_spawned _ _ _ _ _ _ _ L Sp) as (_ & _ & b & ->). destruct b; cbn; auto. }
    lstep_cases L; cbn [next_frames] in *; cbn [adj] in Fp; try destruct Fp as [Fp1 Fp2]; sh_; try exact Logic.I.
  all: cbn [cshape app] in *; try exact Fp1; eauto.
  all: try (apply (cbelow_app w [_]); apply Fp1; cbn [tw]; rewrite one_same; unfold zero; lia).
  all: intros w Hw; try (apply cw_lresume; exact Hw); try (apply cbelow_cons; left; cbn; lia).
  apply (cbelow_app w [_; _]). apply Fp1. change (0 < 0 + tw (one w) zero k0)%Z. lia.
Qed.
(** ** A when_all whose hooks have all run is satisfied or about to be *)
Definition last_set (s : st) (w : nat) : Prop := is_ready (w_prom (h_wcs (hp s) w)) (trace s) \/
  exists t f q b, stk s t = f :: FWUnl w (WaPack q) :: b /\ match f with FSet p _ | FSet1 p _ => p = w_prom (h_wcs (hp s) w) | _ => False end.
Lemma last_step : forall s t pre rest h n w, reachable s -> reachable (mkSt h (set_next (stk s) t n rest) None) -> stk s t = pre ++ rest -> lstep (hp s) t pre h n -> w < h_nw (hp s) ->
  last_set s w -> last_set (mkSt h (set_next (stk s) t n rest) None) w.
Proof.
  intros s t pre rest h n w R R' E L W H. unfold last_set. cbn [hp stk]. rewrite (prom_same _ _ _ _ _ _ L W).
  destruct H as [H|(t1 & fr & sq & bb & E1 & F)].
  { left. destruct (lstep_trl _ _ _ _ _ L) as [l Et]. change (is_ready (w_prom (h_wcs (hp s) w)) (tr_of h)). rewrite Et. now apply ready_app. }
  destruct (Nat.eq_dec t1 t) as [->|Nt].
  - assert (Pr : pre = [fr] /\ rest = FWUnl w (WaPack sq) :: bb).
    { rewrite E1 in E. remember (FWUnl w (WaPack sq) :: bb) as tl eqn:Et; clear -E L F. lstep_cases L; cbn in E; injection E; intros; subst; try contradiction F; auto. }
    destruct Pr as [-> ->]. 
    assert (Rd : forall q, fs_ready (h_fsts h q) = true -> is_ready q (trace (mkSt h (set_next (stk s) t n (FWUnl w (WaPack sq) :: bb)) None))) by (intros q0; apply (ready_iff (mkSt h (set_next (stk s) t n (FWUnl w (WaPack sq) :: bb)) None) q0 R')).
    remember [fr] as pre eqn:Ep. lstep_cases L; try discriminate Ep; injection Ep as <-; try contradiction F; subst.
    + right. exists t, (FSet1 (w_prom (h_wcs (hp s) w)) o), sq, bb. cbn [stk]. rewrite next_own. auto.
    + left. apply Rd. cbn [atom] in A. destruct (fs_ready (h_fsts (hp s) _)) eqn:Er; [injection A as <- <-; auto|]. unfold fs_set in A. injection A as <- <-. hs. rewrite upd_same. now destruct o.
  - right. exists t1, fr, sq, bb. split; auto. unfold set_next. destruct n as [fs|c cfs fs]; rewrite upd_other by auto; auto.
    destruct (Nat.eq_dec t1 c) as [->|Nc]; [|rewrite upd_other by auto; auto]. exfalso. destruct (lstep_spawned _ _ _ _ _ _ _ L eq_refl) as (Fr & _). rewrite (fresh_empty s c R Fr) in E1. discriminate E1.
Qed.
Lemma comb_nonempty : forall s, reachable s -> at_each (fun tr e => match e with EvWhen _ _ _ _ ins => ins <> [] | _ => True end) (trace s).
Proof.
  apply (event_rule reachable); auto. intros s t pre rest h n e R U E L X. destruct e; auto. ev_cases L X.
  destruct (all_some _) as [ins|] eqn:As in X; [|discriminate X]. injection X as <- <- <- <- <-. apply all_some_length in As. intros ->. discriminate As.
Qed.
Definition all_count (s : st) (w : nat) : Prop :=
  length (hidx w (trace s)) <= w_nready (h_wcs (hp s) w) /\ (w_total (h_wcs (hp s) w) <= w_nready (h_wcs (hp s) w) -> last_set s w).
Lemma hidx_old : forall s h w, (exists e, (h_tr h = h_tr (hp s) \/ h_tr h = e :: h_tr (hp s))) -> (forall t0 i q, In (EvHook t0 w i q) (h_tr h) -> In (EvHook t0 w i q) (h_tr (hp s))) ->
  NoDup (hidx w (tr_of h)) -> hidx w (tr_of h) = hidx w (trace s).
Proof.
  intros s h w [e [E|E]] H N; [unfold trace, tr_of; now rewrite E|]. unfold trace, tr_of in *. rewrite E in *. cbn [rev] in *. rewrite hidx_app in *.
  assert (hidx w [e] = []) as ->; [|apply app_nil_r]. destruct e; cbn [hidx]; auto. destruct (Nat.eqb_spec w0 w); auto. subst. exfalso.
  cbn [hidx] in N. rewrite Nat.eqb_refl in N. apply NoDup_remove_2 in N. apply N. rewrite app_nil_r. apply hidx_in. exists t, q. rewrite <- in_rev. apply (H t idx q). now left.
Qed.
Theorem all_count_reachable : forall s, reachable s -> forall w ins, comb (hp s) true w ins -> all_count s w.
Proof.
  apply (reachable_ind'' (fun s => forall w ins, comb (hp s) true w ins -> all_count s w)).
  - intros w ins (p & t & []).
  - intros s s' R R' IH U Tr w ins C. destruct Tr as [d|t0 pre rest u E L|t0 pre rest h n E L].
    + apply tick_comb in C. destruct (IH w ins C) as [H1 H2]. split.
      * change (length (hidx w (trace s ++ [EvTick (Zpos d)])) <= w_nready (h_wcs (hp s) w)). rewrite hidx_app. cbn [hidx]. rewrite app_nil_r. exact H1.
      * intros X. destruct (H2 X) as [Y|Y]; [left|right; exact Y]. change (is_ready (w_prom (h_wcs (hp s) w)) (trace s ++ [EvTick (Zpos d)])). now apply ready_app.
    + exact (IH w ins C).
    + cbn [hp] in *. pose proof (comb_total _ _ _ _ R' C) as T'. cbn [hp] in T'.
      destruct (comb_back _ _ _ _ _ _ _ _ _ R E L C) as [C0|(kd & hs & -> & -> & E1 & E2 & E3 & _)].
      2: { assert (Hn : hidx (h_nw (hp s)) (trace (mkSt h (set_next (stk s) t0 n rest) None)) = []).
        { destruct (hidx _ _) as [|i l] eqn:Eh; auto. exfalso. assert (J : In i (hidx (h_nw (hp s)) (trace (mkSt h (set_next (stk s) t0 n rest) None)))) by (rewrite Eh; left; reflexivity).
          apply hidx_in in J as (t1 & q & J). destruct (hook_from _ _ _ _ _ R' J) as (t' & v & a & par & J' & _).
          destruct (hook_input _ R' _ _ _ _ _ _ _ J') as [X _]. cbn [hp] in X. rewrite E1 in X. destruct i; discriminate X. }
        split; cbn [hp]; [rewrite Hn; cbn; lia|]. rewrite E3, T'. intros X. exfalso. destruct C as (p & t1 & J). apply in_split in J as (l1 & l2 & J).
        pose proof (comb_nonempty _ R' _ _ _ J) as N. cbn in N. destruct ins; [now apply N|cbn in X; lia]. }
      specialize (IH w ins C0). pose proof (comb_lt _ _ _ _ R C0) as W. pose proof (last_step s t0 pre rest h n w R R' E L W) as Ls.
      unfold all_count in *. cbn [hp] in *. rewrite T'. rewrite (comb_total _ _ _ _ R C0) in IH. destruct IH as [I1 I2].
      assert (Same : w_nready (h_wcs h w) = w_nready (h_wcs (hp s) w) -> (forall t0 i q, In (EvHook t0 w i q) (h_tr h) -> In (EvHook t0 w i q) (h_tr (hp s))) ->
        length (hidx w (trace (mkSt h (set_next (stk s) t0 n rest) None))) <= w_nready (h_wcs h w) /\ (length ins <= w_nready (h_wcs h w) -> last_set (mkSt h (set_next (stk s) t0 n rest) None) w)).
      { intros Q1 Q2. rewrite Q1. split; [|auto]. pose proof (hidx_nodup _ w R') as N. change (trace (mkSt h (set_next (stk s) t0 n rest) None)) with (tr_of h) in *.
        rewrite (hidx_old s h w); auto. destruct (lstep_tr _ _ _ _ _ L) as [Q|[e Q]]; [exists (EvTick 0)|exists e]; auto. }
      destruct (lstep_weq _ _ _ _ _ w L W) as [[(W1 & _) Nh]|(f & -> & Tf)]; [apply Same; auto|].
      pose proof (touch_effect _ _ _ _ _ _ L Tf) as Ef. pose proof (fst_reachable s R t0) as F. rewrite E in F. inversion F as [|? ? F0 _]; subst. clear F.
      destruct f; cbn [touches] in Tf; try contradiction Tf; cbn [effect] in Ef.
      * destruct Ef as (p & Ef & Nh). apply Same; [rewrite Ef; reflexivity|exact Nh].
      * destruct Ef as (p & Ef & Nh). apply Same; [rewrite Ef; reflexivity|exact Nh].
      * destruct Ef as (Ef & Nh). apply Same; [rewrite Ef; reflexivity|now rewrite Nh].
      * destruct Ef as (Ef & Nh). apply Same; [rewrite Ef; reflexivity|now rewrite Nh].
      * subst. exfalso. cbn [fst_] in F0. destruct (comb_one _ _ _ _ _ _ R C0 F0). discriminate.
      * subst. destruct (hook_kind s t0 all w idx par q true ins R) as [-> Hp]; [rewrite E; left; reflexivity|exact C0|]. destruct Ef as [Ef Et].
        assert (Ht : w_total (h_wcs (hp s) w) = length ins) by exact (comb_total _ _ _ _ R C0).
        assert (Nr : w_nready (h_wcs h w) = S (w_nready (h_wcs (hp s) w))) by (rewrite Ef; unfold wall_step; destruct (_ =? _); reflexivity). rewrite Nr. split.
        -- unfold trace, tr_of in *. cbn [hp]. rewrite Et. cbn [rev]. rewrite hidx_app, app_length. cbn [hidx]. rewrite Nat.eqb_refl. cbn. lia.
        -- intros Ge. destruct (Nat.eq_dec (S (w_nready (h_wcs (hp s) w))) (length ins)) as [Eq|Ne]; [|apply Ls, I2; lia].
           right. clear - L E Eq Ht W. pose proof (prom_same _ _ _ _ _ _ L W) as Pm. remember [FWIn true w idx par q] as pre eqn:Ep. lstep_cases L; try discriminate Ep; injection Ep; intros; subst.
           cbn [atom] in A. unfold wall_step in A. rewrite Eq, Ht, Nat.eqb_refl in A. cbn in A. injection A as <- <-.
           exists t0, (FSet (w_prom (h_wcs (hp s) w)) (OVal (VFuts (set_nth idx (Some par) (w_result (h_wcs (hp s) w)))))), q, rest. cbn [stk hp]. rewrite next_own, Pm. auto.
      * destruct Ef as (Ef & Nh). apply Same; [rewrite Ef; reflexivity|now rewrite Nh].
Qed.
Lemma dead_wctx : forall s p w, reachable s -> dead p s -> w_prom (h_wcs (hp s) w) = p -> w_refs (h_wcs (hp s) w) = 0.
Proof.
  intros s p w R [B0 B] P. specialize (B (B0 + S w) ltac:(lia)). set (N := B0 + S w) in *.
  destruct (w_refs (h_wcs (hp s) w)) as [|k] eqn:Er; auto. exfalso.
  assert (X1 : (0 <= sumN (fun t => sumf (fw (one p) (one p) (one p) zero) (stk s t)) N)%Z) by (apply sumN_nonneg; intros i; apply sumf_nonneg, own_fnn).
  assert (X2 : (1 <= sumN (fun i => wcw (one p) (h_wcs (hp s) i)) N)%Z).
  { etransitivity; [|apply (sumN_in (fun i => wcw (one p) (h_wcs (hp s) i)) N w); [|unfold N; lia]].
    - cbn. unfold wcw. rewrite Er, P. cbn. rewrite one_same. lia.
    - intros i. apply wcw_nonneg; apply one_nonneg. }
  assert (X3 : (0 <= sumN (ctxw (one p) zero (hp s)) N)%Z) by (apply sumN_nonneg; intros; unfold ctxw; destruct (alive _ _); [apply sumf_nonneg; intros; apply tw_nn|lia]).
  assert (X4 : (0 <= sumN (fun i => fsw (one p) zero (h_fsts (hp s) i)) N)%Z) by (apply sumN_nonneg; intros; apply sumf_nonneg; intros; apply cbw_nn).
  assert (X5 : (0 <= sumN (fun i => ow (one p) (h_prms (hp s) i)) N)%Z) by (apply sumN_nonneg; intros i; unfold ow; destruct (h_prms (hp s) i); [apply one_nonneg|lia]).
  assert (X6 : (0 <= sumN (fun i => jbw (one p) zero (h_pools (hp s) i)) N)%Z) by (apply sumN_nonneg; intros; apply sumf_nonneg; intros; apply tw_nn).
  unfold own_total, total, Own.hw in B. match type of B with (?a + (?b + ?c + ?d + ?e + ?f) = 0)%Z => assert (0 <= a)%Z by exact X1; assert (0 <= b)%Z by exact X3; assert (0 <= c)%Z by exact X4; assert (0 <= d)%Z by exact X5; assert (1 <= e)%Z by exact X2; assert (0 <= f)%Z by exact X6 end. lia.
Qed.
(** The promise of a when_all is only abandoned when the hook of some input has not run. *)
Theorem all_abandoned : forall s p w ins, reachable s -> dead p s -> combines (trace s) true w p ins -> ~ is_ready p (trace s) ->
  exists i, i < length ins /\ ~ hooked (trace s) w i.
Proof.
  intros s p w ins R D C N. assert (C1 : comb (hp s) true w ins) by (exists p; exact C).
  destruct (all_count_reachable s R w ins C1) as [H1 H2]. rewrite (comb_total _ _ _ _ R C1) in H2.
  assert (Pm : w < h_nw (hp s) /\ w_prom (h_wcs (hp s) w) = p) by (destruct C as [u J]; apply (when_heap_reachable s R) in J; tauto). destruct Pm as [W Pm].
  destruct (Forall_Exists_dec (fun i => In i (hidx w (trace s))) (fun i => in_dec Nat.eq_dec i _) (seq 0 (length ins))) as [F|F].
  - exfalso. assert (Le : length ins <= length (hidx w (trace s))).
    { rewrite <- (seq_length (length ins) 0). apply NoDup_incl_length; [apply seq_NoDup|]. intros i J. eapply Forall_forall in F; eauto. }
    destruct (H2 ltac:(lia)) as [X|(t1 & f & q & b & E1 & _)]; [rewrite Pm in X; auto|].
    pose proof (cshape_reachable s R t1) as Sh. rewrite E1 in Sh. cbn in Sh. destruct Sh as (_ & (g & J & G) & _).
    apply (wrefs_frame s t1 g w R); [rewrite E1; right; right; exact J|exact G|]. eapply dead_wctx; eauto.
  - apply Exists_exists in F as (i & J & Ni). exists i. split; [apply in_seq in J; lia|]. intros H. apply Ni, hidx_in, H.
Qed.
