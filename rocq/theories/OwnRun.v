(** * OwnRun: a packaged function is begun at most once and a continuation launched at most once. *)
From Coq Require Import List ZArith Lia. Import ListNotations.
From Verif Require Import Types Core State Ops Code Machine Base Spec SpecOwn Rules Events InvCtx InvBound InvStack InvRefs Contract Count Replay ReplayObj InvCv Own OwnRefs OwnProm.
Local Open Scope Z_scope.

Section Cost.
Variables (q : sid) (s0 s1 s2 : sid -> Z) (cost : event -> Z).
Hypothesis N0 : forall p, 0 <= s0 p.
Hypothesis N2 : forall p, 0 <= s2 p.
Hypothesis S12 : forall p, s2 p <= s1 p.
Hypothesis Tick : forall d, cost (EvTick d) = 0.
Definition costs (l : list event) : Z := sumf cost l.
Hypothesis Step : forall h t pre h' n, lstep h t pre h' n ->
  costs (h_tr h') + gain s0 s1 s2 zero h pre <= costs (h_tr h) + made q h' - made q h.
Theorem cost_reachable : forall s, reachable s ->
  exists B0, forall B, (B0 <= B)%nat -> total s0 s1 s2 zero B s + costs (h_tr (hp s)) <= made q (hp s).
Proof.
  apply (reachable_ind'' (fun s => exists B0, forall B, (B0 <= B)%nat -> total s0 s1 s2 zero B s + costs (h_tr (hp s)) <= made q (hp s))).
  - exists 0%nat. intros B _. unfold total, hw, sumN.
    rewrite !sumf_zero; auto; cbn; try lia. intros t _. cbn. destruct t; reflexivity.
  - intros s s' R R' [B1 IH] U Tr. destruct Tr as [d0|t pre rest u E L|t pre rest h n E L].
    + exists B1. intros B HB. specialize (IH B HB). cbn [hp]. hs. unfold costs in *. cbn [sumf]. rewrite Tick. exact IH.
    + exists B1. exact IH.
    + cbn [hp]. destruct (lstep_total s0 s1 s2 zero S12 s t pre rest h n R E L) as (d & B2 & D & G & _).
      exists (B1 + B2)%nat. intros B HB. rewrite D by lia. specialize (IH B ltac:(lia)). pose proof (Step _ _ _ _ _ L). lia.
Qed.
Theorem cost_le : forall s, reachable s -> costs (h_tr (hp s)) <= 1.
Proof.
  intros s R. destruct (cost_reachable s R) as [B H]. specialize (H B (le_n _)).
  pose proof (total_nonneg s0 s1 s2 zero N0 N2 S12 zero_nonneg B s). assert (made q (hp s) <= 1) by (unfold made; destruct (_ <? _)%nat; lia). lia.
Qed.
End Cost.

Lemma costs_split : forall (cost : event -> Z) a e b f c, (forall e, 0 <= cost e) -> sumf cost (rev (a ++ e :: b ++ f :: c)) >= cost e + cost f.
Proof.
  intros cost a e b f c N. rewrite rev_app_distr. cbn [rev]. rewrite rev_app_distr. cbn [rev]. rewrite !sumf_app. cbn [sumf].
  pose proof (sumf_nonneg _ cost (rev a) N). pose proof (sumf_nonneg _ cost (rev b) N). pose proof (sumf_nonneg _ cost (rev c) N). lia.
Qed.

Definition ucost (q : sid) (e : event) : Z := match e with EvUser _ _ _ (Some p) => one q p | _ => 0 end.
Definition fcost (q : sid) (e : event) : Z := match e with EvFire _ _ cb => tw zero (one q) (cb_task cb) | _ => 0 end.
Lemma ucost_nn : forall q e, 0 <= ucost q e.
Proof. intros q []; cbn; try lia. destruct q0; try lia. apply one_nonneg. Qed.
Lemma fcost_nn : forall q e, 0 <= fcost q e.
Proof. intros q []; cbn; try lia. apply tw_nn. Qed.

Lemma atom_ucost : forall q h t T (o : op T) inp h' x, atom h t o inp = AOk h' x -> match o with OLog _ => False | _ => True end ->
  sumf (ucost q) (h_tr h') = sumf (ucost q) (h_tr h).
Proof.
  intros q h t T o inp h' x A N. rewrite (atom_event _ _ _ _ _ _ _ A). destruct o; try contradiction; cbn [op_event];
    repeat match goal with |- context [match ?x with _ => _ end] => lazymatch x with context [match _ with _ => _ end] => fail | _ => destruct x end end; reflexivity.
Qed.
Lemma atom_fcost : forall q h t T (o : op T) inp h' x, atom h t o inp = AOk h' x -> match o with OLog _ => False | _ => True end ->
  sumf (fcost q) (h_tr h') = sumf (fcost q) (h_tr h).
Proof.
  intros q h t T o inp h' x A N. rewrite (atom_event _ _ _ _ _ _ _ A). destruct o; try contradiction; cbn [op_event];
    repeat match goal with |- context [match ?x with _ => _ end] => lazymatch x with context [match _ with _ => _ end] => fail | _ => destruct x end end; reflexivity.
Qed.
Lemma zero_0 : forall p, zero p = 0.
Proof. reflexivity. Qed.
Lemma tw_zero : forall k, tw zero zero k = 0.
Proof. fix IH 1. intros []; cbn [tw]; auto. destruct b; cbn [tw]; rewrite ?zero_0, ?IH; reflexivity. Qed.
Ltac fin_ := cbn [ow]; rewrite ?zero_0, ?tw_zero;
  repeat match goal with |- context [one ?q ?p] => lazymatch goal with _ : 0 <= one q p |- _ => fail | _ => pose proof (one_nonneg q p) end end; lia.
Lemma run_step : forall q h t pre h' n, lstep h t pre h' n ->
  costs (ucost q) (h_tr h') + gain (one q) (one q) zero zero h pre <= costs (ucost q) (h_tr h) + made q h' - made q h.
Proof.
  intros q h t pre h' n L. unfold made, costs.
  lstep_cases L; try (cbn [gain]; hs; cbn [sumf ucost]; lia).
  all: match goal with A : atom _ _ _ _ = AOk _ _ |- _ => pose proof (atom_nfs _ _ _ _ _ _ _ A) as D;
      first [rewrite (atom_ucost q _ _ _ _ _ _ _ A Logic.I) | cbn [atom] in A; injection A as <- <-; hs; cbn [sumf ucost fin_sid] | idtac] end;
    cbn iota in D; try rewrite D; rewrite ?made_S; cbn [gain].
  all: try fin_.
  all: try (destruct fin; cbn [ucost fin_sid]; fin_).
  all: try (match goal with |- context [ow zero ?x] => destruct x end; fin_).
  all: try (match goal with |- context [if ?x then zero ?y else 0] => destruct x end; fin_).
Qed.
Lemma fire_step : forall q h t pre h' n, lstep h t pre h' n ->
  costs (fcost q) (h_tr h') + gain (one q) zero zero zero h pre <= costs (fcost q) (h_tr h) + made q h' - made q h.
Proof.
  intros q h t pre h' n L. unfold made, costs.
  lstep_cases L; try (cbn [gain]; hs; cbn [sumf fcost]; lia).
  all: match goal with A : atom _ _ _ _ = AOk _ _ |- _ => pose proof (atom_nfs _ _ _ _ _ _ _ A) as D;
      first [rewrite (atom_fcost q _ _ _ _ _ _ _ A Logic.I) | cbn [atom] in A; injection A as <- <-; hs; cbn [sumf fcost fin_sid] | idtac] end;
    cbn iota in D; try rewrite D; rewrite ?made_S; cbn [gain].
  all: try fin_.
  all: try (destruct fin; cbn [fcost fin_sid]; fin_).
  all: try (match goal with |- context [ow zero ?x] => destruct x end; fin_).
  all: try (match goal with |- context [if ?x then zero ?y else 0] => destruct x end; fin_).
Qed.

Theorem run_once : forall s, reachable s -> forall tr1 t u a q tr2 t' u' a' tr3,
  trace s = tr1 ++ EvUser t u a (Some q) :: tr2 ++ EvUser t' u' a' (Some q) :: tr3 -> False.
Proof.
  intros s R tr1 t u a q tr2 t' u' a' tr3 E.
  pose proof (cost_le q (one q) (one q) zero (ucost q) (one_nonneg q) zero_nonneg (one_nonneg q) (fun _ => eq_refl) (run_step q) s R) as C.
  unfold costs in C. rewrite <- (rev_involutive (h_tr (hp s))) in C. change (rev (h_tr (hp s))) with (trace s) in C. rewrite E in C.
  pose proof (costs_split (ucost q) tr1 (EvUser t u a (Some q)) tr2 (EvUser t' u' a' (Some q)) tr3 (ucost_nn q)) as X. cbn [ucost] in X. rewrite !one_same in X. lia.
Qed.
Lemma tw_pack : forall q b, 1 <= tw zero (one q) (TPack q b).
Proof. intros q b. cbn [tw]. rewrite one_same. destruct b; rewrite ?zero_0; try lia. pose proof (tw_nn q k). lia. Qed.
Theorem fire_once : forall s, reachable s -> forall tr1 t p cb tr2 t' p' cb' tr3 q b b',
  trace s = tr1 ++ EvFire t p cb :: tr2 ++ EvFire t' p' cb' :: tr3 -> cb_task cb = TPack q b -> cb_task cb' = TPack q b' -> False.
Proof.
  intros s R tr1 t p cb tr2 t' p' cb' tr3 q b b' E K K'.
  pose proof (cost_le q (one q) zero zero (fcost q) (one_nonneg q) zero_nonneg zero_nonneg (fun _ => eq_refl) (fire_step q) s R) as C.
  unfold costs in C. rewrite <- (rev_involutive (h_tr (hp s))) in C. change (rev (h_tr (hp s))) with (trace s) in C. rewrite E in C.
  pose proof (costs_split (fcost q) tr1 (EvFire t p cb) tr2 (EvFire t' p' cb') tr3 (fcost_nn q)) as X. cbn [fcost] in X. rewrite K, K' in X.
  pose proof (tw_pack q b). pose proof (tw_pack q b'). lia.
Qed.
