(** * OwnDead: a state has at most one owner, and a state without owner never gets one. *)
From Verif Require Import Types Core State Ops Code Machine Base Spec SpecOwn Rules Events InvCtx InvBound InvStack InvRefs Contract Count Replay ReplayObj InvCv Own OwnRefs OwnProm.
Local Open Scope Z_scope.

Lemma has_tw : forall q k, has q k = true -> 1 <= tw zero (one q) k.
Proof.
  intros q. fix IH 1. intros k. destruct k; cbn [tw has]; try discriminate. intros H. apply orb_true_iff in H as [H|H].
  - apply Nat.eqb_eq in H as ->. rewrite one_same. destruct b; unfold zero; try lia. pose proof (tw_nn q k). unfold zero in *. lia.
  - destruct b; try discriminate. apply IH in H. pose proof (one_nonneg q p). lia.
Qed.
Lemma has_sum : forall A (w : A -> Z) (p : A -> bool) l, (forall x, 0 <= w x) -> (forall x, p x = true -> 1 <= w x) -> existsb p l = true -> 1 <= sumf w l.
Proof. intros A w p l N H P. apply existsb_exists in P as (x & J & P). pose proof (sumf_in _ w l x N J). apply H in P. lia. Qed.
Lemma has_one : forall q p, (p =? q)%nat = true -> 1 <= one q p.
Proof. intros q p. unfold one. intros ->. lia. Qed.
Lemma has_dw : forall q d, has_item q d = true -> 1 <= dw (one q) zero d.
Proof.
  intros q [k|b|p|pr|w]; cbn [dw has_item]; try discriminate; auto using has_tw, has_one. destruct b; try discriminate. apply has_tw.
Qed.
Lemma has_or : forall a b x y, 0 <= a -> 0 <= b -> (x = true -> 1 <= a) -> (y = true -> 1 <= b) -> x || y = true -> 1 <= a + b.
Proof. intros a b x y Ha Hb X Y H. apply orb_true_iff in H as [H|H]; [apply X in H|apply Y in H]; lia. Qed.
Lemma has_cbw : forall q cb, has_cb q cb = true -> 1 <= cbw (one q) zero cb.
Proof. intros q cb P. now apply has_tw. Qed.
Lemma has_lw : forall q c, has_lk q c = true -> 1 <= lw (one q) (one q) zero c.
Proof.
  intros q []; cbn [lw has_lk]; try discriminate. apply has_or; auto using sumf_nonneg, cbw_nn, tw_nn.
  all: intros P'; eapply has_sum; [|..|exact P']; eauto using cbw_nn, tw_nn, has_cbw, has_tw.
Qed.
Lemma has_fw : forall q f, frame_has q f = true -> 1 <= fw (one q) (one q) (one q) zero f.
Proof.
  intros q f. destruct f; cbn [fw frame_has]; try discriminate; auto using has_tw, has_one, has_cbw.
  all: try (apply has_or; auto using lw_nn, tw_nn, cbw_nn, has_tw, has_lw, has_cbw, one_nonneg, has_one; fail).
  all: try (intros P; eapply has_sum; [|..|exact P]; auto using cbw_nn, has_cbw; fail).
  - intros P. eapply has_sum; [|apply has_dw|exact P]. intros. apply dw_nonneg; auto using one_nonneg, zero_nonneg.
  - apply has_or; auto using sumf_nonneg, cbw_nn, tw_nn.
    all: intros P'; eapply has_sum; [|..|exact P']; eauto using cbw_nn, tw_nn, has_cbw, has_tw.
  - destruct x; cbn; [apply has_one|discriminate].
  - intros P. apply has_one in P. unfold zero. lia.
Qed.

Notation own_total p := (total (one p) (one p) (one p) zero).
Definition dead (p : sid) (s : st) : Prop := exists B0, forall B, (B0 <= B)%nat -> own_total p B s = 0.
Lemma own_nn : forall p B s, 0 <= own_total p B s.
Proof. intros. exact (total_nonneg _ _ _ _ (one_nonneg p) (one_nonneg p) (fun _ => Z.le_refl _) zero_nonneg _ _). Qed.
Lemma own_fnn : forall p f, 0 <= fw (one p) (one p) (one p) zero f.
Proof. intros. exact (fw_nonneg _ _ _ _ (one_nonneg p) (one_nonneg p) (fun _ => Z.le_refl _) zero_nonneg _). Qed.
Lemma wthen_refs : forall s t pre rest, reachable s -> stk s t = pre ++ rest ->
  forall w kd i idx u p r, In (FWThen w kd i idx u p r) pre -> w_refs (h_wcs (hp s) w) <> 0%nat.
Proof.
  intros s t pre rest R E w kd i idx u p r J. apply (wrefs_frame s t (FWThen w kd i idx u p r)); auto; [rewrite E; apply in_or_app; auto|].
  cbn [fw]. rewrite one_same. unfold zero. lia.
Qed.
Lemma dead_step : forall p s t pre rest h n, reachable s -> stk s t = pre ++ rest -> lstep (hp s) t pre h n ->
  (p < h_nfs (hp s))%nat -> dead p s -> dead p (mkSt h (set_next (stk s) t n rest) None).
Proof.
  intros p s t pre rest h n R E L N [B1 D].
  destruct (lstep_total (one p) (one p) (one p) zero (fun _ => Z.le_refl _) s t pre rest h n R E L) as (d & B2 & T & _ & G). specialize (G (fun p => eq_refl)).
  exists (B1 + B2)%nat. intros B HB. pose proof (own_nn p B (mkSt h (set_next (stk s) t n rest) None)) as P. rewrite T, D in * by lia.
  pose proof (made_mono p _ _ _ _ _ L) as M. assert (M1 : made p (hp s) = 1) by (unfold made; destruct (Nat.ltb_spec p (h_nfs (hp s))); lia).
  assert (M2 : made p h <= 1) by (unfold made; destruct (_ <? _)%nat; lia).
  destruct (gain_own p _ _ _ _ _ L (wthen_refs s t pre rest R E)) as [X|(X & Y & _)]; lia.
Qed.
Lemma dead_no_frame : forall p s t f, dead p s -> In f (stk s t) -> frame_has p f = true -> False.
Proof.
  intros p s t f [B D] J H. apply has_fw in H.
  pose proof (total_frame (one p) (one p) (one p) zero (one_nonneg p) (one_nonneg p) (fun _ => Z.le_refl _) zero_nonneg s t f (B + S t)%nat J ltac:(lia)) as X.
  rewrite D in X by lia. lia.
Qed.
Lemma sumf_two : forall A (w : A -> Z) l a b, (forall x, 0 <= w x) -> a <> b -> In a l -> In b l -> w a + w b <= sumf w l.
Proof.
  intros A w l a b N D Ja Jb. induction l as [|x l IH]; [contradiction|]. cbn [sumf].
  destruct Ja as [->|Ja], Jb as [->|Jb]; [congruence| | |specialize (IH Ja Jb); pose proof (N x); lia].
  - pose proof (sumf_in _ w l b N Jb). lia.
  - pose proof (sumf_in _ w l a N Ja). lia.
Qed.
Lemma own_le1 : forall s p, reachable s -> exists B0, forall B, (B0 <= B)%nat -> own_total p B s <= 1.
Proof.
  intros s p R. destruct (own_reachable s R p) as (z & (B & T) & G). exists B. intros B' HB. rewrite T by auto.
  assert (made p (hp s) <= 1) by (unfold made; destruct (_ <? _)%nat; lia). lia.
Qed.
(** Two owners at different places. *)
Lemma own_two : forall s p t pre rest f u g, reachable s -> stk s t = pre ++ rest -> In f pre -> frame_has p f = true ->
  frame_has p g = true -> (if (u =? t)%nat then In g rest else In g (stk s u)) -> False.
Proof.
  intros s p t pre rest f u g R E Jf Hf Hg Jg. destruct (own_le1 s p R) as [B0 B]. specialize (B (B0 + S t + S u)%nat ltac:(lia)).
  apply has_fw in Hf, Hg. unfold total in B. set (B' := (B0 + S t + S u)%nat) in *.
  pose proof (hw_nonneg (one p) (one p) (one p) zero (one_nonneg p) (one_nonneg p) (fun _ => Z.le_refl _) zero_nonneg B' (hp s)) as N.
  set (w := fun v : nat => sumf (fw (one p) (one p) (one p) zero) (stk s v)) in *.
  assert (B2 : sumN w B' + hw (one p) (one p) (one p) zero B' (hp s) <= 1) by exact B. clear B.
  assert (NN : forall v, 0 <= w v) by (intros v; apply sumf_nonneg, own_fnn).
  assert (Wt : fw (one p) (one p) (one p) zero f + sumf (fw (one p) (one p) (one p) zero) rest <= w t).
  { unfold w. rewrite E, sumf_app. pose proof (sumf_in _ (fw (one p) (one p) (one p) zero) pre f (own_fnn p) Jf). lia. }
  assert (Nr : 0 <= sumf (fw (one p) (one p) (one p) zero) rest) by apply sumf_nonneg, own_fnn.
  destruct (Nat.eqb_spec u t) as [->|D].
  - pose proof (sumf_in _ (fw (one p) (one p) (one p) zero) rest g (own_fnn p) Jg). pose proof (sumN_in w B' t NN ltac:(unfold B'; lia)). lia.
  - assert (Wu : fw (one p) (one p) (one p) zero g <= w u) by (apply sumf_in; auto; apply own_fnn).
    pose proof (sumf_two nat w (seq 0 B') t u NN ltac:(congruence)) as X. unfold sumN in B2.
    specialize (X ltac:(apply in_seq; unfold B'; lia) ltac:(apply in_seq; unfold B'; lia)). lia.
Qed.
