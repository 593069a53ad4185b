(** * InvFill: how the inputs get into a combinator. *)
From Verif Require Import Types Core State Ops Code Machine Base Spec SpecKind SpecOwn SpecWhen Rules Events Calls InvCtx InvBound InvStack InvRefs Contract Count Replay ReplayObj InvCv InvKind Adj InvWhen.

(** ** Handles are never redirected *)
Lemma hnd_fresh : forall s, reachable s -> forall n, h_nhnd (hp s) <= n -> snd (h_hnds (hp s) n) = None.
Proof.
  apply (replay_rule (fun h _ => forall n, h_nhnd h <= n -> snd (h_hnds h n) = None)).
  - auto.
  - auto.
  - auto.
  - intros h t T o inp h' x G O H At N. destruct o; try contradiction; atom_split At; auto; intros m M; rewrite ?upd_eq;
    repeat match goal with |- context [?a =? ?b] => destruct (Nat.eqb_spec a b) end; try lia;
    repeat match goal with |- context [if ?b then _ else _] => destruct b end; rewrite ?upd_eq;
    repeat match goal with |- context [?a =? ?b] => destruct (Nat.eqb_spec a b) end; cbn; auto; try lia; apply H; lia.
Qed.
Definition hnd_le (h h' : heap) : Prop := forall n, n < h_nhnd h -> n < h_nhnd h' /\ (snd (h_hnds h' n) = None \/ snd (h_hnds h' n) = snd (h_hnds h n)).
Lemma lstep_hnd : forall h t pre h' n, lstep h t pre h' n -> hnd_le h h'.
Proof.
  intros h t pre h' n L. apply lstep_hstep in L. destruct L as [e Ok|T o inp h' x Ok A]; [intros m M; auto|].
  intros m M. destruct o; atom_split A; auto; rewrite ?upd_eq;
    repeat match goal with |- context [?a =? ?b] => destruct (Nat.eqb_spec a b) end; try lia;
    repeat match goal with |- context [if ?b then _ else _] => destruct b end; rewrite ?upd_eq;
    repeat match goal with |- context [?a =? ?b] => destruct (Nat.eqb_spec a b) end; subst; cbn; auto; try lia.
Qed.

(** ** The stages *)
Definition comb (h : heap) (a : bool) (w : nat) (ins : list sid) : Prop := exists p, combines (tr_of h) a w p ins.
Definition hrem (h : heap) : list nat -> list sid -> Prop :=
  Forall2 (fun n p => n < h_nhnd h /\ (snd (h_hnds h n) = None \/ snd (h_hnds h n) = Some p)).
Definition rst (h : heap) (w : nat) (kd : wkind) (m idx : nat) (r : wrest) : Prop :=
  exists ins, comb h (is_all kd) w ins /\ w_processed (h_wcs h w) <= m /\
  match r with
  | WrH hs => length (w_states (h_wcs h w)) = idx /\ exists rest, ins = w_states (h_wcs h w) ++ rest /\ hrem h hs rest
  | WrT acc => w_states (h_wcs h w) = ins /\ map snd acc = skipn idx ins
  end.
Definition lkst (h : heap) (c : lk) : Prop :=
  match c with LkWhen w kd _ idx r => idx < length (w_states (h_wcs h w)) /\ rst h w kd idx (S idx) r | _ => True end.
Definition fst_ (h : heap) (t : tid) (f : frame) : Prop :=
  match f with
  | FWId w kd hs => exists ins, comb h (is_all kd) w ins /\ w_states (h_wcs h w) = [] /\ w_processed (h_wcs h w) = 0 /\ hrem h hs ins
  | FWFillAll w kd _ todo acc => exists ins rest, comb h (is_all kd) w ins /\ ins = w_states (h_wcs h w) ++ rest /\
      map snd acc = w_states (h_wcs h w) /\ w_processed (h_wcs h w) = 0 /\ hrem h todo rest
  | FWEach w kd _ idx r => rst h w kd idx idx r
  | FWThen w kd _ idx _ p r | FWPack w kd _ idx p r | FWAtt w kd _ idx p _ r =>
      nth_error (w_states (h_wcs h w)) idx = Some p /\ rst h w kd idx (S idx) r
  | FWProc w kd _ idx r => idx < length (w_states (h_wcs h w)) /\ rst h w kd idx (S idx) r
  | FInvoke _ _ c | FPush _ _ c | FDisp _ _ c | FLaunch _ _ _ c | FLaunch1 _ _ _ c | FFire1 _ _ c => lkst h c
  | FWFin w | FWFin1 w => comb h false w (w_states (h_wcs h w))
  | _ => True
  end.
Definition wsame (h h' : heap) (w : nat) : Prop :=
  w_states (h_wcs h' w) = w_states (h_wcs h w) /\ w_processed (h_wcs h' w) = w_processed (h_wcs h w).
Lemma comb_mono : forall h h' a w ins, (exists l, tr_of h' = tr_of h ++ l) -> comb h a w ins -> comb h' a w ins.
Proof. intros h h' a w ins [l E] (p & t & J). exists p, t. rewrite E. apply in_or_app; auto. Qed.
Lemma hrem_mono : forall h h' hs l, hnd_le h h' -> hrem h hs l -> hrem h' hs l.
Proof. intros h h' hs l H F. induction F as [|n p hs l [N F] _ IH]; constructor; auto. destruct (H n N) as [N' [E|E]]; split; auto. rewrite E. auto. Qed.
Lemma rst_mono : forall h h' w kd m idx r, (exists l, tr_of h' = tr_of h ++ l) -> hnd_le h h' -> wsame h h' w -> rst h w kd m idx r -> rst h' w kd m idx r.
Proof.
  intros h h' w kd m idx r T H [S1 S2] (ins & C & P & M). exists ins. rewrite S1, S2. split; [eapply comb_mono; eauto|]. split; auto.
  destruct r; auto. destruct M as (M1 & rest & M2 & M3). split; auto. exists rest. split; auto. eapply hrem_mono; eauto.
Qed.
Lemma fst_mono : forall h h' t f, (exists l, tr_of h' = tr_of h ++ l) -> hnd_le h h' ->
  (forall w k, stage f = Some (w, k) -> wsame h h' w) -> (forall w, f = FWFin w \/ f = FWFin1 w -> w_states (h_wcs h' w) = w_states (h_wcs h w)) -> fst_ h t f -> fst_ h' t f.
Proof.
  intros h h' t f T H S1 S2 F.
  assert (Lk : forall c, (forall w k, lk_stage c = Some (w, k) -> wsame h h' w) -> lkst h c -> lkst h' c).
  { intros [] S F'; cbn in *; auto. specialize (S _ _ eq_refl). destruct F' as [F1 F2]. split; [now rewrite (proj1 S)|eapply rst_mono; eauto]. }
  destruct f; cbn [fst_ stage] in *; auto; try (apply Lk; auto; fail).
  all: try (specialize (S1 _ _ eq_refl) as S; pose proof S as [Sa Sb]).
  - destruct F as (ins & F1 & F2 & F3 & F4). exists ins. rewrite Sa, Sb. split; [eapply comb_mono; eauto|]. split; [auto|split; auto]. eapply hrem_mono; eauto.
  - destruct F as (ins & rest & F1 & F2 & F3 & F4 & F5). exists ins, rest. rewrite Sa, Sb. split; [eapply comb_mono; eauto|]. repeat (split; [auto|]). eapply hrem_mono; eauto.
  - eapply rst_mono; eauto.
  - rewrite Sa. destruct F. split; auto. eapply rst_mono; eauto.
  - rewrite Sa. destruct F. split; auto. eapply rst_mono; eauto.
  - rewrite Sa. destruct F. split; auto. eapply rst_mono; eauto.
  - rewrite Sa. destruct F. split; auto. eapply rst_mono; eauto.
  - rewrite (S2 w (or_introl eq_refl)). eapply comb_mono; eauto.
  - rewrite (S2 w (or_intror eq_refl)). eapply comb_mono; eauto.
Qed.
(** The steps that change the states of a combinator or count an input. *)
Definition fills (w : nat) (f : frame) : Prop :=
  match f with
  | FWFillAll w' _ _ (_ :: _) _ | FWEach w' _ _ _ (WrH (_ :: _)) => w' = w
  | _ => False
  end.
Definition counts (w : nat) (f : frame) : Prop := match f with FWProc w' (KAny _) _ _ _ => w' = w | _ => False end.
Lemma wall_same : forall w i p w' v, wall_step w i p = (w', v) -> w_states w' = w_states w /\ w_processed w' = w_processed w.
Proof. intros w i p w' v E. unfold wall_step in E. brki E; inversion E; auto. Qed.
Lemma wany_same : forall w i p w' v, wany_step w i p = (w', v) -> w_states w' = w_states w /\ w_processed w' = w_processed w.
Proof. intros w i p w' v E. unfold wany_step in E. brki E; inversion E; auto. Qed.
Lemma wfin_same : forall w w' v, wany_final w = (w', v) -> w_states w' = w_states w /\ w_processed w' = w_processed w.
Proof. intros w w' v E. unfold wany_final in E. brki E; inversion E; auto. Qed.
Lemma atom_wsame : forall h t T (o : op T) inp h' x w, atom h t o inp = AOk h' x -> w < h_nw h ->
  wsame h h' w \/ match o with OWFill w' _ | OWProcess w' => w' = w | _ => False end.
Proof.
  intros h t T o inp h' x w A W. unfold wsame. destruct o; atom_split A; auto; try (left; rewrite !upd_other by lia; auto; fail);
    repeat match goal with
        | E : wall_step _ _ _ = _ |- _ => apply wall_same in E as [? ?]
        | E : wany_step _ _ _ = _ |- _ => apply wany_same in E as [? ?]
        | E : wany_final _ = _ |- _ => apply wfin_same in E as [? ?]
        end; rewrite ?upd_eq; match goal with |- context [?a =? ?b] => destruct (Nat.eqb_spec a b); subst end; cbn; auto.
Qed.
Lemma lstep_wsame : forall h t pre h' n w0, lstep h t pre h' n -> w0 < h_nw h ->
  wsame h h' w0 \/ exists f, pre = [f] /\ (fills w0 f \/ counts w0 f).
Proof.
  intros h t pre h' n w1 L W. lstep_cases L; try (left; split; reflexivity).
  all: match goal with A : atom _ _ _ _ = AOk _ _ |- _ => destruct (atom_wsame _ _ _ _ _ _ _ _ A W) as [Sm|Sm]; auto; try contradiction Sm end.
  all: right; eexists; split; [reflexivity|]; cbn; subst; auto.
Qed.
Lemma stage_comb : forall h t f w k, fst_ h t f -> stage f = Some (w, k) -> exists a ins, comb h a w ins.
Proof.
  intros h t f w k F S.
  assert (Lk : forall c, lkst h c -> lk_stage c = Some (w, k) -> exists a ins, comb h a w ins).
  { intros [] F' S'; try discriminate S'. injection S' as -> _. destruct F' as (_ & ins & C & _). eauto. }
  destruct f; cbn [stage] in S; try discriminate S; cbn [fst_] in F; eauto; injection S as -> _.
  - destruct F as (ins & C & _). eauto.
  - destruct F as (ins & rest & C & _). eauto.
  - destruct F as (ins & C & _). eauto.
  - destruct F as (_ & ins & C & _). eauto.
  - destruct F as (_ & ins & C & _). eauto.
  - destruct F as (_ & ins & C & _). eauto.
  - destruct F as (_ & ins & C & _). eauto.
Qed.
Lemma fills_stage : forall w f, fills w f \/ counts w f -> exists k, stage f = Some (w, k).
Proof.
  intros w f [H|H]; destruct f; cbn in H; try contradiction; cbn [stage]; eauto.
  - destruct todo; [contradiction|]. subst. eauto.
  - destruct r as [[]|]; try contradiction. subst. eauto.
  - destruct kd; [contradiction|]. subst. eauto.
Qed.
Lemma fills_more : forall h t w f, fst_ h t f -> fills w f -> exists a ins p rest, comb h a w ins /\ ins = w_states (h_wcs h w) ++ p :: rest.
Proof.
  intros h t w f F H. destruct f; cbn in H; try contradiction; cbn [fst_] in F.
  - destruct todo as [|n todo]; [contradiction|]. subst. destruct F as (ins & rest & C & E & _ & _ & Hr). inversion Hr; subst. eauto 8.
  - destruct r as [[|n hs]|]; try contradiction. subst. destruct F as (ins & C & _ & _ & rest & E & Hr). inversion Hr; subst. eauto 8.
Qed.
Lemma comb_one : forall s a w ins a' ins', reachable s -> comb (hp s) a w ins -> comb (hp s) a' w ins' -> a = a' /\ ins = ins'.
Proof. intros s a w ins a' ins' R (p & t & J) (p' & t' & K). destruct (when_one s w _ _ _ _ _ _ _ _ R J K) as (E1 & _ & E2). auto. Qed.
Lemma comb_lt : forall s a w ins, reachable s -> comb (hp s) a w ins -> w < h_nw (hp s).
Proof. intros s a w ins R (p & t & J). apply (when_heap_reachable s R) in J. tauto. Qed.
Lemma all_some_map : forall A B (f : A -> option B) l r, all_some (map f l) = Some r -> Forall2 (fun n p => f n = Some p) l r.
Proof.
  induction l as [|x l IH]; cbn; intros r H; [injection H as <-; constructor|].
  destruct (f x) eqn:E; [|discriminate H]. destruct (all_some (map f l)) as [r'|]; [|discriminate H]. injection H as <-. constructor; auto.
Qed.
Lemma lstep_trl : forall h t pre h' n, lstep h t pre h' n -> exists l, tr_of h' = tr_of h ++ l.
Proof. intros h t pre h' n L. unfold tr_of. destruct (lstep_tr _ _ _ _ _ L) as [->|[e ->]]; [exists []; now rewrite app_nil_r|exists [e]; reflexivity]. Qed.
Lemma counts_states : forall w0 h t f0 h' n, lstep h t [f0] h' n -> counts w0 f0 -> w_states (h_wcs h' w0) = w_states (h_wcs h w0).
Proof.
  intros w0 h t f0 h' n L C. remember [f0] as pre eqn:E.
  lstep_cases L; try discriminate E; injection E as <-; cbn in C; try contradiction; subst; cbn [atom] in A; injection A as <- <-; hs; rewrite upd_same; reflexivity.
Qed.
Theorem fst_reachable : forall s, reachable s -> forall t, Forall (fst_ (hp s) t) (stk s t).
Proof.
  apply (frame_rule reachable fst_); try exact Logic.I; auto.
  - intros s d u f R _ H. eapply fst_mono; [| | | |exact H].
    + eexists. unfold tr_of. hs. reflexivity.
    + intros m M. auto.
    + intros. split; reflexivity.
    + reflexivity.
  - intros s t pre rest h n u f R Fa E L Hu Jf H. eapply fst_mono; [eapply lstep_trl; eauto|eapply lstep_hnd; eauto| | |exact H].
    + intros w k Sg. destruct (stage_comb _ _ _ _ _ H Sg) as (a & ins & C).
      destruct (lstep_wsame _ _ _ _ _ w L (comb_lt _ _ _ _ R C)) as [X|(f0 & -> & X)]; auto. exfalso.
      destruct (fills_stage _ _ X) as [k0 S0]. eapply (one_builder s t [f0] rest f0 u f w); eauto. now left.
    + intros w Ef. assert (C : comb (hp s) false w (w_states (h_wcs (hp s) w))) by (destruct Ef; subst; exact H).
      destruct (lstep_wsame _ _ _ _ _ w L (comb_lt _ _ _ _ R C)) as [X|(f0 & -> & [X|X])]; [apply X| |].
      * exfalso. specialize (Fa t). rewrite E in Fa. inversion Fa as [|? ? F0 _]; subst.
        destruct (fills_more _ _ _ _ F0 X) as (a & ins & p & r & C' & Ei). destruct (comb_one _ _ _ _ _ _ R C C') as [_ Q].
        rewrite Ei in Q. apply (f_equal (@length _)) in Q. rewrite app_length in Q. cbn in Q. lia.
      * eapply counts_states; eauto.
  - intros s t pre rest h n R E L Fp _.
    assert (K : (forall w, w < h_nw (hp s) -> wsame (hp s) h w) -> Forall (fst_ h t) pre).
    { intros W. apply Forall_forall. intros f J. eapply Forall_forall in Fp; [|exact J]. 
      eapply fst_mono; [eapply lstep_trl; eauto|eapply lstep_hnd; eauto| | |exact Fp].
      - intros w k Sg. destruct (stage_comb _ _ _ _ _ Fp Sg) as (a & ins & C). apply W. eapply comb_lt; eauto.
      - intros w Ef. apply W. eapply comb_lt; eauto. destruct Ef; subst; exact Fp. }
    pose proof (lstep_trl _ _ _ _ _ L) as Tr. pose proof (lstep_hnd _ _ _ _ _ L) as Hh.
    lstep_cases L; (split; [|try exact Logic.I; cbn [spawned]; try (fl_; exact Logic.I)]); cbn [next_frames];
      try (specialize (K ltac:(intros; split; reflexivity)));
      try (assert (Kw : forall w, w < h_nw (hp s) -> wsame (hp s) h' w) by
         (intros w1 W1; destruct (atom_wsame _ _ _ _ _ _ _ _ A W1) as [Sm|Sm]; [exact Sm|contradiction Sm]); specialize (K Kw); clear Kw);
      inversion Fp as [|? ? Fp1 Fp2]; subst; try (inversion K as [|? ? K1 _]; subst; clear K); fl_; try exact Logic.I; cbn [fst_ lkst] in *; auto.

    + (* creation *)
      cbn [atom] in A. destruct (all_some _) as [ins|] eqn:As; [|discriminate A]. injection A as <- <-. exists ins. hs. rewrite !upd_same. cbn [w_states w_processed].
      split; [|split; [auto|split; auto]].
      * eexists. exists t. unfold tr_of. hs. cbn [rev]. apply in_or_app. right. left. reflexivity.
      * apply all_some_map in As. pose proof (hnd_fresh s R) as Fr. unfold hrem. hs. clear -As Fr.
        induction As as [|a b hs1 ins1 Hs _ IH]; constructor; auto. split; auto. destruct (Nat.lt_ge_cases a (h_nhnd (hp s))) as [|G]; auto.
        apply Fr in G. congruence.
    + destruct K1 as (ins & C & S1 & S2 & Hr). exists ins. split; auto. split; [lia|]. rewrite S1. split; auto. exists ins. auto.
    + destruct K1 as (ins & C & S1 & S2 & Hr). exists ins. split; auto. split; [lia|]. rewrite S1. split; auto. exists ins. auto.
    + destruct K1 as (ins & C & S1 & S2 & Hr). exists ins, ins. rewrite S1. auto.
    + destruct K1 as (ins & rst0 & C & S1 & S2 & S3 & Hr). inversion Hr; subst. rewrite app_nil_r in C. eexists. split; [exact C|]. split; [lia|]. auto.
    + (* fill all *)
      destruct Fp1 as (ins & rst0 & C & S1 & S2 & S3 & Hr). inversion Hr as [|? p ? rst1 [N1 N2] Hr1]; subst.
      apply (hrem_mono _ _ _ _ Hh) in Hr1. apply (comb_mono _ _ _ _ _ Tr) in C.
      cbn [atom] in A. destruct (h_hnds (hp s) n0) as [sh [p0|]]; [|discriminate A]. cbn [snd] in N2. destruct N2 as [N2|N2]; [discriminate N2|]. injection N2 as ->.
      injection A as <- <-. exists (w_states (h_wcs (hp s) w) ++ p :: rst1), rst1. hs. rewrite upd_same. cbn [w_fill w_states w_processed].
      split; [exact C|]. rewrite <- app_assoc. split; auto. rewrite map_app. cbn. rewrite S2. auto.
    + destruct K1 as (ins & C & P & S1 & rst0 & S2 & Hr). inversion Hr; subst. rewrite app_nil_r in C. exact C.
    + destruct Fp1 as (ins & C & P & S1 & rst0 & S2 & Hr). inversion Hr as [|? p ? rst1 [N1 N2] Hr1]; subst.
      apply (hrem_mono _ _ _ _ Hh) in Hr1. apply (comb_mono _ _ _ _ _ Tr) in C.
      cbn [atom] in A. destruct (h_hnds (hp s) n0) as [sh [p0|]]; [|discriminate A]. cbn [snd] in N2. destruct N2 as [N2|N2]; [discriminate N2|]. injection N2 as ->.
      injection A as <- <-. unfold rst. hs. rewrite upd_same. cbn [w_fill w_states w_processed snd]. split.
      * rewrite nth_error_app2 by lia. now rewrite Nat.sub_diag.
      * exists (w_states (h_wcs (hp s) w) ++ p :: rst1). split; [exact C|]. split; auto. rewrite app_length. cbn [length]. split; [lia|].
        exists rst1. rewrite <- app_assoc. auto.
    + destruct K1 as (ins & C & P & S1 & S2). rewrite S1. exact C.
    + destruct K1 as (ins & C & P & S1 & S2). cbn [map snd] in S2.
      assert (Q : nth_error ins idx = Some s0 /\ map snd l0 = skipn (S idx) ins).
      { clear -S2. revert idx S2. induction ins as [|a ins IH]; intros [|idx] S2; cbn in S2; try discriminate S2.
        - injection S2 as <- <-. auto.
        - cbn [nth_error]. destruct (IH _ S2). auto. }
      destruct Q as [Q1 Q2]. rewrite S1. split; auto. exists ins. auto.
    + destruct K1 as [K1 K2]. split; auto. apply nth_error_Some. congruence.
    + destruct K1 as [K1 K2]. split; auto. apply nth_error_Some. congruence.
    + destruct K1 as (_ & ins & C & P & M). exists ins. split; auto.
    + destruct Fp1 as (_ & ins & C & P & M). exists ins. apply (comb_mono _ _ _ _ _ Tr) in C. split; auto.
      cbn [atom] in A. injection A as <- <-. hs. rewrite upd_same. cbn [w_process w_states w_processed]. split; [lia|].
      destruct r; auto.
Qed.
