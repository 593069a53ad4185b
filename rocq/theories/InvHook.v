(** * InvHook: the continuation of an input takes effect once, after the input is ready. *)
From Verif Require Import Types Core State Ops Code Machine Base Spec SpecKind SpecOwn SpecWhen SpecFire Rules Events Calls InvCtx InvBound InvStack InvRefs Contract Count Replay ReplayObj InvCv InvKind Adj Own OwnRefs OwnProm OwnRun OwnDead InvPack InvFire InvAttach InvWhen.
Local Open Scope Z_scope.

(** ** What is attached *)
Definition att_body (p : sid) (b : body) : Prop := (exists sh u caps, b = BThen p sh u caps) \/ exists kd w idx, b = wbody kd w idx p.
Definition then_ok (t : tid) (f : frame) : Prop := match f with FThen2 p cb _ => exists q b, cb_task cb = TPack q b /\ att_body p b | _ => True end.
Lemma then_reachable : forall s, reachable s -> forall t, Forall (then_ok t) (stk s t).
Proof.
  apply (frame_rule reachable (fun _ => then_ok)); try exact Logic.I; auto.
  intros s t pre rest h n R E L Fp _.
  lstep_cases L; (split; [|try exact Logic.I; cbn [spawned]; try (fl_; exact Logic.I)]); cbn [next_frames]; fl_; try exact Logic.I.
  cbn. eexists _, _. split; [reflexivity|]. left. eauto.
Qed.
Theorem attached_body : forall s, reachable s -> at_each (fun tr e => match e with
  | EvAttach _ p cb => exists q b, cb_task cb = TPack q b /\ att_body p b /\ purpose_is tr q (bpur b) | _ => True end) (trace s).
Proof.
  apply (event_rule reachable); auto.
  intros s t pre rest h n e R U E L X. destruct e; auto.
  destruct (attach_frame _ _ _ _ _ _ _ _ L X) as (_ & f & -> & M).
  pose proof (then_reachable s R t) as H. rewrite E in H. inversion H as [|? ? F _]; subst.
  destruct (k_inv_reachable s R) as [_ K]. specialize (K t). rewrite E in K. inversion K as [|? ? Kf _]; subst.
  destruct f; try contradiction; cbn [made_for then_ok fk] in *; destruct M as [-> M]; subst.
  - destruct F as (q0 & b & Ec & B). exists q0, b. split; auto. split; auto. unfold cbk in Kf. rewrite Ec in Kf. cbn in Kf. tauto.
  - eexists _, _. split; [reflexivity|]. split; [right; eauto|]. destruct kd; exact Kf.
Qed.
Lemma pur_app' : forall tr l p x, purpose_is tr p x -> purpose_is (tr ++ l) p x.
Proof. intros. now apply pur_app. Qed.
Lemma fired_body : forall s t p cb, reachable s -> In (EvFire t p cb) (trace s) ->
  is_ready p (trace s) /\ exists q b, cb_task cb = TPack q b /\ att_body p b /\ purpose_is (trace s) q (bpur b).
Proof.
  intros s t p cb R J. apply in_split in J as (l1 & l2 & E). pose proof (fire_after s R _ _ _ E) as [Rd (u & A)].
  split; [rewrite E; now apply ready_app|]. apply in_split in A as (a1 & a2 & Ea). subst l1. rewrite <- app_assoc in E. cbn [app] in E.
  pose proof (attached_body s R _ _ _ E) as (q & b & B1 & B2 & B3). exists q, b. split; auto. split; auto. rewrite E. now apply pur_app'.
Qed.

(** ** A closure that runs was launched *)
Definition not_hook (u : purpose) : bool := match u with PuHook _ _ _ _ => false | _ => true end.
Definition lcost (q : sid) (e : event) : Z :=
  match e with EvFire _ _ cb => tw zero (one q) (cb_task cb) | EvState _ p _ u => if not_hook u then one q p else 0 | _ => 0 end.
Lemma lcost_nn : forall q e, 0 <= lcost q e.
Proof. intros q []; cbn; try lia; try apply tw_nn. destruct (not_hook _); [apply one_nonneg|lia]. Qed.
Lemma lcost_mono : forall q h t pre h' n, lstep h t pre h' n -> sumf (lcost q) (h_tr h) <= sumf (lcost q) (h_tr h').
Proof. intros q h t pre h' n L. destruct (lstep_tr _ _ _ _ _ L) as [->|[e ->]]; cbn [sumf]; [lia|]. pose proof (lcost_nn q e). lia. Qed.
Lemma launch_step : forall q h t pre h' n, lstep h t pre h' n ->
  sumf (lcost q) (h_tr h) + gain zero (one q) zero zero h pre <= sumf (lcost q) (h_tr h').
Proof.
  intros q h t pre h' n L. pose proof (lcost_mono q _ _ _ _ _ L) as M.
  lstep_cases L; try (cbn [gain]; hs; cbn [sumf lcost]; lia).
  all: cbn [gain]; rewrite ?zero_0, ?tw_zero; repeat match goal with |- context [one ?q ?p] => lazymatch goal with _ : 0 <= one q p |- _ => fail | _ => pose proof (one_nonneg q p) end end; try lia.
  all: try (match goal with |- context [ow zero ?x] => destruct x end; fin_).
  all: try (match goal with |- context [if ?x then zero ?y else 0] => destruct x end; fin_).
  all: try (destruct fin; fin_; fail).
  all: try (cbn [atom] in A; injection A as <- <-; hs; cbn [sumf lcost not_hook]; lia).
  all: destruct (_ =? _)%nat; lia.
Qed.
Theorem launch_total : forall q s, reachable s -> exists B0, forall B, (B0 <= B)%nat -> total zero (one q) zero zero B s <= sumf (lcost q) (h_tr (hp s)).
Proof.
  intros q. apply (reachable_ind'' (fun s => exists B0, forall B, (B0 <= B)%nat -> total zero (one q) zero zero B s <= sumf (lcost q) (h_tr (hp s)))).
  - exists 0%nat. intros B _. unfold total, hw, sumN. rewrite !sumf_zero; auto; cbn; try lia. intros t _. cbn. destruct t; reflexivity.
  - intros s s' R R' [B1 IH] U Tr. destruct Tr as [d0|t pre rest u E L|t pre rest h n E L].
    + exists B1. intros B HB. specialize (IH B HB). cbn [hp]. hs. cbn [sumf lcost]. exact IH.
    + exists B1. exact IH.
    + cbn [hp]. destruct (lstep_total zero (one q) zero zero (one_nonneg q) s t pre rest h n R E L) as (d & B2 & D & G & _).
      exists (B1 + B2)%nat. intros B HB. rewrite D by lia. specialize (IH B ltac:(lia)). pose proof (launch_step q _ _ _ _ _ L). lia.
Qed.
Lemma sumf_pos : forall A (w : A -> Z) l, 0 < sumf w l -> exists x, In x l /\ 0 < w x.
Proof.
  induction l as [|x l IH]; cbn; intros H; [lia|]. destruct (Z.lt_ge_cases 0 (w x)); [exists x; auto|]. destruct IH as (y & J & Y); [lia|]. eauto.
Qed.
(** The input is ready when its continuation runs. *)
Theorem hook_ready : forall s t a w idx par q, reachable s -> In (FWIn a w idx par q) (stk s t) -> is_ready par (trace s) /\ purpose_is (trace s) q (PuHook a w idx par).
Proof.
  intros s t a w idx par q R J.
  destruct (k_inv_reachable s R) as [_ K]. specialize (K t). eapply Forall_forall in K; [|exact J]. cbn [fk] in K. split; auto.
  destruct (launch_total q s R) as [B H].
  pose proof (total_frame zero (one q) zero zero zero_nonneg zero_nonneg (one_nonneg q) zero_nonneg s t _ (B + S t)%nat J ltac:(lia)) as X.
  cbn [fw] in X. rewrite one_same, zero_0 in X. specialize (H (B + S t)%nat ltac:(lia)).
  destruct (sumf_pos _ (lcost q) (h_tr (hp s)) ltac:(lia)) as (e & Je & Pe).
  assert (Je' : In e (trace s)) by (unfold trace, tr_of; rewrite <- in_rev; exact Je).
  destruct e; cbn [lcost] in Pe; try lia.
  - destruct (fired_body s _ _ _ R Je') as [Rd (q' & b & Ec & Ab & Pu)]. rewrite Ec in Pe. cbn [tw] in Pe.
    assert (Z0 : match b with BTask k' => tw zero (one q) k' | BAll w _ _ | BAny w _ _ => zero w | _ => 0 end = 0).
    { destruct Ab as [(sh & u & caps & ->)|(kd & w' & i' & ->)]; [reflexivity|]. destruct kd; reflexivity. }
    rewrite Z0 in Pe. unfold one in Pe. destruct (Nat.eqb_spec q' q); [|lia]. subst.
    pose proof (purpose_inj s q _ _ R Pu K) as Ep. destruct Ab as [(sh & u & caps & ->)|(kd & w' & i' & ->)]; [discriminate Ep|].
    destruct kd; cbn in Ep; injection Ep; intros; subst; auto.
  - match type of Pe with context [not_hook ?u] => destruct (not_hook u) eqn:Nh; [|lia]; assert (P : purpose_is (trace s) q u) by (unfold one in Pe; destruct (Nat.eqb_spec p q); [subst; unfold purpose_is; eauto|lia]) end. rewrite (purpose_inj s q _ _ R P K) in Nh. discriminate Nh.
Qed.

(** ** It takes effect once *)
Definition hcost (q : sid) (e : event) : Z := match e with EvHook _ _ _ p => one q p | _ => 0 end.
Lemma hcost_nn : forall q e, 0 <= hcost q e.
Proof. intros q []; cbn; try lia. apply one_nonneg. Qed.
Lemma atom_hcost : forall q h t T (o : op T) inp h' x, atom h t o inp = AOk h' x -> match o with OLog _ | OWAll _ _ _ _ | OWAny _ _ _ _ => False | _ => True end ->
  sumf (hcost q) (h_tr h') = sumf (hcost q) (h_tr h).
Proof.
  intros q h t T o inp h' x A N. rewrite (atom_event _ _ _ _ _ _ _ A). destruct o; try contradiction; cbn [op_event];
    repeat match goal with |- context [match ?x with _ => _ end] => lazymatch x with context [match _ with _ => _ end] => fail | _ => destruct x end end; reflexivity.
Qed.
Lemma hook_step : forall q h t pre h' n, lstep h t pre h' n ->
  costs (hcost q) (h_tr h') + gain (one q) (one q) zero zero h pre <= costs (hcost q) (h_tr h) + made q h' - made q h.
Proof.
  intros q h t pre h' n L. unfold made, costs.
  lstep_cases L; try (cbn [gain]; hs; cbn [sumf hcost]; lia).
  all: match goal with A : atom _ _ _ _ = AOk _ _ |- _ => pose proof (atom_nfs _ _ _ _ _ _ _ A) as D;
      first [rewrite (atom_hcost q _ _ _ _ _ _ _ A Logic.I) | rewrite (atom_event _ _ _ _ _ _ _ A); cbn [op_event sumf hcost]] end;
    cbn iota in D; try rewrite D; rewrite ?made_S; cbn [gain].
  all: try fin_.
  all: try (destruct fin; cbn [sumf hcost fin_sid]; fin_).
  all: try (match goal with |- context [ow zero ?x] => destruct x end; fin_).
  all: try (match goal with |- context [if ?x then zero ?y else 0] => destruct x end; fin_).
Qed.
Theorem hook_once : forall s q, reachable s -> sumf (hcost q) (h_tr (hp s)) <= 1.
Proof. intros s q R. exact (cost_le q (one q) (one q) zero (hcost q) (one_nonneg q) zero_nonneg (one_nonneg q) (fun _ => eq_refl) (hook_step q) s R). Qed.
Theorem hook_at : forall s, reachable s -> at_each (fun tr e => match e with
  | EvHook _ w idx q => exists a par, purpose_is tr q (PuHook a w idx par) /\ is_ready par tr | _ => True end) (trace s).
Proof.
  apply (event_rule reachable); auto.
  intros s t pre rest h n e R U E L X. destruct e; auto.
  ev_cases L X; injection X as <- <- <- <-.
  all: edestruct (hook_ready s t) as [A1 A2]; [exact R|rewrite E; left; reflexivity|]; eauto.
Qed.
