(** * OwnRefs: the use count of a combinator context is the number of references to
    it, and every shared state has at most one promise. *)
From Verif Require Import Types Core State Ops Code Machine Base Spec Rules Events InvCtx InvBound InvStack InvRefs Contract Count Replay ReplayObj Own.
Local Open Scope Z_scope.

Definition zero (n : nat) : Z := 0.
Definition one (q n : nat) : Z := if (n =? q)%nat then 1 else 0.
Lemma one_nonneg : forall q n, 0 <= one q n.
Proof. intros. unfold one. destruct (_ =? _)%nat; lia. Qed.
Lemma one_same : forall q, one q q = 1.
Proof. intros. unfold one. now rewrite Nat.eqb_refl. Qed.
Lemma one_other : forall q n, n <> q -> one q n = 0.
Proof. intros. unfold one. now destruct (Nat.eqb_spec n q). Qed.

(** ** Sums of non-negative weights *)
Lemma sumf_in : forall A (w : A -> Z) l x, (forall y, 0 <= w y) -> In x l -> w x <= sumf w l.
Proof.
  intros A w l x H. induction l as [|y l IH]; [intros []|]. intros [->|J]; cbn.
  - pose proof (sumf_nonneg _ w l H). lia.
  - specialize (IH J). pose proof (H y). lia.
Qed.
Lemma sumf_pos : forall A (w : A -> Z) l, (forall y, 0 <= w y) -> 0 < sumf w l -> exists x, In x l /\ 0 < w x.
Proof.
  intros A w l H. induction l as [|y l IH]; cbn; [lia|]. intros P. destruct (Z.eq_dec (w y) 0) as [E|E].
  - destruct IH as (x & J & Q); [lia|]. exists x. auto.
  - exists y. pose proof (H y). split; auto. lia.
Qed.
Lemma sumN_in : forall f n k, (forall i, 0 <= f i) -> (k < n)%nat -> f k <= sumN f n.
Proof. intros f n k H L. apply sumf_in; auto. apply in_seq. lia. Qed.
Lemma sumN_pos : forall f n, (forall i, 0 <= f i) -> 0 < sumN f n -> exists k, 0 < f k.
Proof. intros f n H P. apply sumf_pos in P as (x & _ & P); eauto. Qed.
Lemma sumN_nonneg : forall f n, (forall i, 0 <= f i) -> 0 <= sumN f n.
Proof. intros. now apply sumf_nonneg. Qed.

Section NN.
Variables (s0 s1 s2 : sid -> Z) (cw : nat -> Z).
Hypothesis N0 : forall p, 0 <= s0 p.
Hypothesis N2 : forall p, 0 <= s2 p.
Hypothesis S12 : forall p, s2 p <= s1 p.
Hypothesis NC : forall w, 0 <= cw w.
Lemma tw_nonneg : forall s, (forall p, 0 <= s p) -> forall k, 0 <= tw cw s k.
Proof.
  intros s H. fix IH 1. intros k. destruct k; cbn [tw]; try lia. pose proof (H p). destruct b; try lia; [specialize (IH k); lia| |].
  all: pose proof (NC w); lia.
Qed.
Lemma N1 : forall p, 0 <= s1 p.
Proof. intros p. pose proof (N2 p). pose proof (S12 p). lia. Qed.
Lemma cbw_nonneg : forall cb, 0 <= cbw s0 cw cb.
Proof. intros. unfold cbw. now apply tw_nonneg. Qed.
Lemma lw_nonneg : forall c, 0 <= lw s0 s2 cw c.
Proof.
  intros []; cbn [lw]; try lia; auto.
  pose proof (sumf_nonneg _ _ rest cbw_nonneg). pose proof (sumf_nonneg _ _ lft (tw_nonneg s2 N2)). lia.
Qed.
Lemma dw_nonneg : forall d, 0 <= dw s2 cw d.
Proof.
  intros []; cbn [dw]; auto; try lia; [now apply tw_nonneg|]. destruct b; cbn [bw]; auto; try lia. now apply tw_nonneg.
Qed.
Lemma ow_nonneg : forall x, 0 <= ow s2 x.
Proof. intros []; cbn [ow]; auto; lia. Qed.
Lemma fw_nonneg : forall f, 0 <= fw s0 s1 s2 cw f.
Proof.
  intros f.
  destruct f; cbn [fw]; try lia; auto using tw_nonneg, dw_nonneg, cbw_nonneg, lw_nonneg, ow_nonneg, sumf_nonneg, N1.
  all: try (destruct fin; try lia; pose proof (S12 p); lia).
  all: try (unfold rn; pose proof (tw_le s1 s2 cw S12 k); lia).
  all: try (pose proof (tw_nonneg s1 N1 k)).
  all: try (pose proof (lw_nonneg c)).
  all: try (pose proof (cbw_nonneg cb)); try (pose proof (NC w)); try (pose proof (N0 q)); try (pose proof (N1 p)); try (pose proof (N1 q)); try lia.
  all: try (destruct a; lia).
  2: (pose proof (S12 q); lia).
  pose proof (sumf_nonneg _ _ cbs cbw_nonneg). pose proof (sumf_nonneg _ _ lft (tw_nonneg s2 N2)). lia.
Qed.
Lemma ctxw_nonneg : forall h i, 0 <= ctxw s1 cw h i.
Proof. intros h i. unfold ctxw. destruct (alive h i); [|lia]. apply sumf_nonneg, tw_nonneg, N1. Qed.
Lemma fsw_nonneg : forall f, 0 <= fsw s0 cw f.
Proof. intros f. apply sumf_nonneg, cbw_nonneg. Qed.
Lemma wcw_nonneg : forall w, 0 <= wcw s2 w.
Proof. intros w. unfold wcw. destruct (_ =? _)%nat; auto; lia. Qed.
Lemma jbw_nonneg : forall p, 0 <= jbw s1 cw p.
Proof. intros p. apply sumf_nonneg. intros. apply tw_nonneg, N1. Qed.
Lemma hw_nonneg : forall B h, 0 <= hw s0 s1 s2 cw B h.
Proof.
  intros B h. unfold hw.
  pose proof (sumN_nonneg (ctxw s1 cw h) B (ctxw_nonneg h)). pose proof (sumN_nonneg (fun i => fsw s0 cw (h_fsts h i)) B (fun i => fsw_nonneg _)).
  pose proof (sumN_nonneg (fun i => ow s2 (h_prms h i)) B (fun i => ow_nonneg _)). pose proof (sumN_nonneg (fun i => wcw s2 (h_wcs h i)) B (fun i => wcw_nonneg _)).
  pose proof (sumN_nonneg (fun i => jbw s1 cw (h_pools h i)) B (fun i => jbw_nonneg _)). lia.
Qed.
Lemma total_nonneg : forall B s, 0 <= total s0 s1 s2 cw B s.
Proof.
  intros B s. unfold total. pose proof (hw_nonneg B (hp s)).
  pose proof (sumN_nonneg (fun t => sumf (fw s0 s1 s2 cw) (stk s t)) B (fun t => sumf_nonneg _ _ _ fw_nonneg)). lia.
Qed.
Lemma total_frame : forall s t f B, In f (stk s t) -> (t < B)%nat -> fw s0 s1 s2 cw f <= total s0 s1 s2 cw B s.
Proof.
  intros s t f B J L. unfold total. pose proof (hw_nonneg B (hp s)).
  pose proof (sumN_in (fun t => sumf (fw s0 s1 s2 cw) (stk s t)) B t (fun t => sumf_nonneg _ _ _ fw_nonneg) L).
  pose proof (sumf_in _ (fw s0 s1 s2 cw) (stk s t) f fw_nonneg J). cbn beta in *. lia.
Qed.
Lemma total_pos : forall s B, 0 < total s0 s1 s2 cw B s ->
  (exists t f, In f (stk s t) /\ 0 < fw s0 s1 s2 cw f) \/
  (exists i k, alive (hp s) i = true /\ In k (ctx_pending (h_ctxs (hp s) i)) /\ 0 < tw cw s1 k) \/
  (exists p cb, In cb (fs_cbs (h_fsts (hp s) p)) /\ 0 < tw cw s0 (cb_task cb)) \/
  (exists pr q, h_prms (hp s) pr = Some q /\ 0 < s2 q) \/
  (exists w, w_refs (h_wcs (hp s) w) <> 0%nat /\ 0 < s2 (w_prom (h_wcs (hp s) w))) \/
  (exists pl j, In j (pl_jobs (h_pools (hp s) pl)) /\ 0 < tw cw s1 (jb_callable (snd j))).
Proof.
  intros s B P. unfold total, hw in P.
  pose proof (sumN_nonneg (fun t => sumf (fw s0 s1 s2 cw) (stk s t)) B (fun t => sumf_nonneg _ _ _ fw_nonneg)) as P1.
  pose proof (sumN_nonneg (ctxw s1 cw (hp s)) B (ctxw_nonneg (hp s))) as P2. pose proof (sumN_nonneg (fun i => fsw s0 cw (h_fsts (hp s) i)) B (fun i => fsw_nonneg _)) as P3.
  pose proof (sumN_nonneg (fun i => ow s2 (h_prms (hp s) i)) B (fun i => ow_nonneg _)) as P4. pose proof (sumN_nonneg (fun i => wcw s2 (h_wcs (hp s) i)) B (fun i => wcw_nonneg _)) as P5.
  pose proof (sumN_nonneg (fun i => jbw s1 cw (h_pools (hp s) i)) B (fun i => jbw_nonneg _)) as P6.
  destruct (Z_lt_le_dec 0 (sumN (fun t => sumf (fw s0 s1 s2 cw) (stk s t)) B)) as [Q|Q1].
  { apply sumN_pos in Q as (t & Q); [|intros; apply sumf_nonneg, fw_nonneg]. apply sumf_pos in Q as (f & J & Q); [|apply fw_nonneg]. eauto. }
  destruct (Z_lt_le_dec 0 (sumN (ctxw s1 cw (hp s)) B)) as [Q|Q2].
  { apply sumN_pos in Q as (t & Q); [|apply ctxw_nonneg]. right. left. unfold ctxw in Q. destruct (alive (hp s) t) eqn:A; [|lia].
    apply sumf_pos in Q as (f & J & Q); [|apply tw_nonneg, N1]. eauto. }
  destruct (Z_lt_le_dec 0 (sumN (fun i => fsw s0 cw (h_fsts (hp s) i)) B)) as [Q|Q3].
  { apply sumN_pos in Q as (t & Q); [|intros; apply fsw_nonneg]. apply sumf_pos in Q as (f & J & Q); [|apply cbw_nonneg]. right. right. left. eauto. }
  destruct (Z_lt_le_dec 0 (sumN (fun i => ow s2 (h_prms (hp s) i)) B)) as [Q|Q4].
  { apply sumN_pos in Q as (t & Q); [|intros; apply ow_nonneg]. right. right. right. left. destruct (h_prms (hp s) t) eqn:E; cbn [ow] in Q; [eauto|lia]. }
  destruct (Z_lt_le_dec 0 (sumN (fun i => wcw s2 (h_wcs (hp s) i)) B)) as [Q|Q5].
  { apply sumN_pos in Q as (t & Q); [|intros; apply wcw_nonneg]. do 4 right. left. unfold wcw in Q. destruct (Nat.eqb_spec (w_refs (h_wcs (hp s) t)) 0); [lia|eauto]. }
  { assert (Q : 0 < sumN (fun i => jbw s1 cw (h_pools (hp s) i)) B) by lia.
    apply sumN_pos in Q as (t & Q); [|intros; apply jbw_nonneg]. apply sumf_pos in Q as (f & J & Q); [|intros; apply tw_nonneg, N1]. do 5 right. eauto. }
Qed.
End NN.

(** ** Combinator contexts *)
Definition wdelta (w : nat) (h : heap) {T} (o : op T) : T -> Z :=
  match o in op T return T -> Z with
  | OWNew _ _ => fun x => one w x
  | OWThen w' _ _ => fun _ => one w w'
  | OWRel w' => fun _ => - one w w'
  | _ => fun _ => 0
  end.
Definition opw (h : heap) {T} (o : op T) : Prop := match o with OWRel w => w_refs (h_wcs h w) <> 0%nat | _ => True end.
Lemma atom_wrefs : forall w h t T (o : op T) inp h' x, virgin h -> opw h o -> atom h t o inp = AOk h' x ->
  Z.of_nat (w_refs (h_wcs h' w)) = Z.of_nat (w_refs (h_wcs h w)) + wdelta w h o x.
Proof.
  intros w h t T o inp h' x V Ok At. destruct o; cbn [wdelta opw] in *; try solve [atom_split At; lia].
  - atom_split At. rewrite upd_eq. unfold one. destruct V as (_ & V & _). rewrite (Nat.eqb_sym (h_nw h)).
    destruct (Nat.eqb_spec w (h_nw h)); subst; [|lia]. rewrite V by lia. reflexivity.
  - atom_split At; rewrite upd_eq; destruct (Nat.eqb_spec w n); subst; cbn; lia.
  - atom_split At; rewrite upd_eq; unfold one; rewrite (Nat.eqb_sym n); destruct (Nat.eqb_spec w n); subst; cbn [w_then w_refs]; lia.
  - atom_split At; rewrite upd_eq; destruct (Nat.eqb_spec w n); subst; cbn; lia.
  - atom_split At; rewrite upd_eq. unfold wall_step in *. brki Heqp; injection Heqp as <- <-; destruct (Nat.eqb_spec w n); subst; cbn [w_refs]; lia.
  - atom_split At; rewrite upd_eq. unfold wany_step in *. brki Heqp; injection Heqp as <- <-; destruct (Nat.eqb_spec w n); subst; cbn [w_refs]; lia.
  - atom_split At; rewrite upd_eq. unfold wany_final in *. brki Heqp; injection Heqp as <- <-; destruct (Nat.eqb_spec w n); subst; cbn [w_refs]; lia.
  - atom_split At; rewrite upd_eq; destruct (Nat.eqb_spec w n); subst; cbn; lia.
  - atom_split At; rewrite upd_eq; unfold one; rewrite (Nat.eqb_sym n); destruct (Nat.eqb_spec w n); subst; cbn [w_setrefs w_refs]; lia.
Qed.
Lemma lstep_wrefs : forall w h t pre h' n, virgin h -> lstep h t pre h' n ->
  (forall w', In (FWRel w') pre -> w_refs (h_wcs h w') <> 0%nat) ->
  Z.of_nat (w_refs (h_wcs h' w)) = Z.of_nat (w_refs (h_wcs h w)) + gain zero zero zero (one w) h pre.
Proof.
  intros w h t pre h' n V L F.
  assert (Z0 : forall k, tw (one w) zero k - tw (one w) zero k = 0) by (intros; lia).
  lstep_cases L; try (cbn [gain]; hs; lia).
  all: match goal with A : atom _ _ _ _ = AOk _ _ |- _ => pose proof (fun Ok => atom_wrefs w _ _ _ _ _ _ _ V Ok A) as D end;
    cbn [opw wdelta] in D; first [specialize (D Logic.I) | specialize (D (F _ (or_introl eq_refl)))]; rewrite D; cbn [gain]; unfold zero; try lia.
  all: try (destruct fin; lia).
  all: try match goal with A : atom _ _ (OWNew _ _) _ = AOk _ ?x |- _ =>
    cbn [atom] in A; destruct (all_some _); [|discriminate A]; assert (x = h_nw h) by congruence; subst x end; try lia.
  - destruct (h_prms h d); cbn; unfold zero; lia.
  - destruct (_ =? _)%nat; lia.
Qed.

Theorem wrefs_reachable : forall s, reachable s -> forall w,
  exists B0, forall B, (B0 <= B)%nat -> total zero zero zero (one w) B s = Z.of_nat (w_refs (h_wcs (hp s) w)).
Proof.
  apply (reachable_ind'' (fun s => forall w, exists B0, forall B, (B0 <= B)%nat -> total zero zero zero (one w) B s = Z.of_nat (w_refs (h_wcs (hp s) w)))).
  - intros w. exists 0%nat. intros B _. unfold total, hw, sumN.
    rewrite !sumf_zero; auto. intros t _. cbn. destruct t; reflexivity.
  - intros s s' R R' IH U Tr w. destruct Tr as [d0|t pre rest u E L|t pre rest h n E L]; cbn [hp]; [exact (IH w)|exact (IH w)|].
    destruct (lstep_total zero zero zero (one w) (fun p => Z.le_refl _) s t pre rest h n R E L) as (d & B2 & D & _ & G).
    specialize (G (fun p => eq_refl)). destruct (IH w) as [B1 IHw].
    exists (B1 + B2)%nat. intros B HB. rewrite D, IHw, G by lia. symmetry. eapply lstep_wrefs; [apply (b_inv_reachable s R)|exact L|].
    intros w' J Z0. destruct (IH w') as [B3 IH3]. specialize (IH3 (B3 + S t)%nat ltac:(lia)). rewrite Z0 in IH3.
    pose proof (total_frame zero zero zero (one w') (fun _ => Z.le_refl _) (fun _ => Z.le_refl _) (fun _ => Z.le_refl _) (one_nonneg w') s t (FWRel w') (B3 + S t)%nat) as X.
    rewrite E in X. specialize (X ltac:(apply in_or_app; now left) ltac:(lia)). cbn [fw] in X. rewrite one_same in X. lia.
Qed.
Corollary wrefs_frame : forall s t f w, reachable s -> In f (stk s t) -> 0 < fw zero zero zero (one w) f -> w_refs (h_wcs (hp s) w) <> 0%nat.
Proof.
  intros s t f w R J P Z0. destruct (wrefs_reachable s R w) as [B H]. specialize (H (B + S t)%nat ltac:(lia)). rewrite Z0 in H.
  pose proof (total_frame zero zero zero (one w) (fun _ => Z.le_refl _) (fun _ => Z.le_refl _) (fun _ => Z.le_refl _) (one_nonneg w) s t f (B + S t)%nat J ltac:(lia)). lia.
Qed.
