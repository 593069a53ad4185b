(** * InvJobReady: the pool future of a job becomes ready when the function of the job is not running. *)
From Coq Require Import List ZArith Lia. Import ListNotations.
From Verif Require Import Types Core State Ops Code Machine Base Spec SpecKind SpecPool SpecPack SpecJobWait SpecOwn Rules Adj Events InvCtx InvBound InvStack InvRefs Contract Count Replay ReplayObj
  InvCv InvKind Own OwnRefs OwnProm OwnRun OwnDead InvJobs InvTab InvPack ApiPool OwnJob ThmJob InvJobWait.
Local Open Scope Z_scope.

Lemma run_pair : forall s p t pre rest f g, reachable s -> stk s t = pre ++ rest -> In f pre -> In g rest -> 1 <= rfw p f -> 1 <= rfw p g -> False.
Proof.
  intros s p t pre rest f g R E If Ig F G. destruct (run_le1 s p R) as [B0 B]. specialize (B (B0 + S t)%nat ltac:(lia)).
  pose proof (costs_nn p (h_tr (hp s))). unfold total in B.
  pose proof (hw_nonneg (one p) (one p) zero zero (one_nonneg p) zero_nonneg (z12 p) zero_nonneg (B0 + S t)%nat (hp s)) as A1.
  pose proof (sumN_in (fun t => sumf (rfw p) (stk s t)) (B0 + S t)%nat t (fun t => sumf_nonneg _ _ _ (run_fnn p)) ltac:(lia)) as A2. cbn beta in A2.
  rewrite E, sumf_app in A2. pose proof (sumf_in _ (rfw p) pre f (run_fnn p) If). pose proof (sumf_in _ (rfw p) rest g (run_fnn p) Ig). lia.
Qed.
Lemma pack_w : forall q y, 1 <= rfw q (FRun (TPack q y)).
Proof.
  intros q y. cbn [fw]. unfold rn. cbn [tw]. rewrite !zero_0, one_same. destruct y; rewrite ?zero_0, ?tw_zero; try lia.
  pose proof (tw_nn q k). lia.
Qed.
Lemma pack_spent : forall s t q k rest h n, reachable s -> stk s t = FRun (TPack q (BTask k)) :: rest -> lstep (hp s) t [FRun (TPack q (BTask k))] h n ->
  next_frames n = [FRun k; FPackVal q; FPackGuard q] /\ h = hp s /\ spent q (mkSt h (set_next (stk s) t n rest) None).
Proof.
  intros s t q k rest h n R E L.
  assert (K : n = Go [FRun k; FPackVal q; FPackGuard q] /\ h = hp s).
  { clear E. remember [FRun (TPack q (BTask k))] as pre eqn:P. lstep_cases L; try discriminate P. injection P as -> ->. cbn [atom] in A. injection A as <- _. auto. }
  destruct K as [-> ->]. split; [reflexivity|split; auto].
  destruct (run_le1 s q R) as [B0 B]. destruct (total_exact (one q) (one q) zero zero s t [FRun (TPack q (BTask k))] rest (hp s) (Go [FRun k; FPackVal q; FPackGuard q]) 0 R E L eq_refl) as [B1 T].
  { exists 0%nat. intros. lia. }
  exists (B0 + B1)%nat. intros B' HB. rewrite T by lia. specialize (B B' ltac:(lia)). pose proof (costs_nn q (h_tr (hp s))).
  cbn [next_frames sumf fw]. unfold rn. cbn [tw]. rewrite zero_0, one_same. lia.
Qed.
Lemma made2 : forall s, reachable s -> forall pl j t g p q, In (EvJobAdd t pl j g p q) (trace s) -> (q < h_nfs (hp s))%nat.
Proof.
  apply (replay_rule (fun h tr => forall pl j t g p q, In (EvJobAdd t pl j g p q) tr -> (q < h_nfs h)%nat)).
  - intros pl j t g p q [].
  - intros h l d IH pl j t g p q A. apply in_snoc in A as [A|A]; [eapply IH; eauto|discriminate A].
  - intros h l e IH Ok pl j t g p q A. apply in_snoc in A as [A|A]; [eapply IH; eauto|subst e; contradiction Ok].
  - intros h ? ? [] ? ? ? G O IH At NN; try contradiction; atom_split At; intros pl9 j9 t9 g9 p9 q9 J; try (apply in_snoc in J as [J|J]; [|try discriminate J]); hs; try (specialize (IH _ _ _ _ _ _ J); lia).
    injection J as -> -> -> -> -> ->. apply O.
Qed.
Lemma closure_w2 : forall p q k, job_closure p q k -> 1 <= tw zero (one q) k.
Proof. intros p q k (u & caps & ->). cbn [tw]. rewrite one_same. pose proof (one_nonneg q p). lia. Qed.
(** A job removed from the table: no closure that could begin [p] is left. *)
Lemma erase_spent2 : forall s t pre rest h n pl j p x e t' js, reachable s ->
  stk s t = pre ++ rest -> lstep (hp s) t pre h n -> h_tr h = e :: h_tr (hp s) -> (e = EvJobErase t' pl js \/ e = EvJobClear t' pl js) -> In j js ->
  In (j, x) (pl_jobs (h_pools (hp s) pl)) -> 1 <= tw zero (one p) (jb_callable x) -> spent p (mkSt h (set_next (stk s) t n rest) None).
Proof.
  intros s t pre rest h n pl j p x0 e t' js R E L X Ee Jj Jx K.
  destruct (run_le1 s p R) as [B0 B].
  assert (Y : exists d, hd (one p) (one p) zero zero (hp s) h d /\ d <= -1 /\ sumf (rfw p) (next_frames n) = 0 /\ spawned n = None).
  { pose proof (fun T o inp h' x Ok A => atom_w (one p) (one p) zero zero (hp s) t T o inp h' x (reg_inv_reachable s R) (proj1 (proj2 (b_inv_reachable s R))) (xgood_reachable s R) Ok A) as AW.
    destruct Ee as [-> | ->]; ev_cases L X.
    - destruct x as [k|]; [|discriminate X]. injection X as <- -> <-. destruct Jj as [->|[]]. pose proof (AW _ _ _ _ _ (Logic.I : opa _ (OPClear pl j chk)) A) as AW'. cbn [odelta] in AW'.
      eexists. split; [exact AW'|]. split; [|split; [|reflexivity]].
      + cbn [atom] in A. unfold pool_clear in A. destruct (jobs_find _ _) as [y|] eqn:F; [|discriminate A].
        apply find_in in F. assert (y = x0) as -> by (eapply in_nodup; eauto; apply (ji_nodup _ _ _ (jobs_inv pl s R))).
        destruct (_ && _); [discriminate A|]. injection A as _ <-. lia.
      + cbn [next_frames]. rewrite sumf_app, destroy_w0. reflexivity.
    - injection X as <- -> <-. pose proof (AW _ _ _ _ _ (Logic.I : opa _ (OPClearAll pl)) A) as AW'. cbn [odelta] in AW'.
      eexists. split; [exact AW'|]. split; [|split; [|reflexivity]].
      + cbn [atom] in A. injection A as _ <-. rewrite sumf_map.
        pose proof (sumf_in _ (fun e : nat * job => tw zero (one p) (jb_callable (snd e))) (pl_jobs (h_pools (hp s) pl)) (j, x0) ltac:(intros; apply tw_nn) Jx) as A6. cbn [snd] in A6. lia.
      + cbn [next_frames]. rewrite sumf_app, destroy_w0. reflexivity. }
  destruct Y as (d & D & Dd & F & Sp). destruct (total_exact _ _ _ _ s t pre rest h n d R E L Sp D) as [B1 T].
  exists (B0 + B1)%nat. intros B' HB. rewrite T by lia. rewrite F. specialize (B B' ltac:(lia)).
  pose proof (sumf_nonneg _ _ pre (run_fnn p)). pose proof (costs_nn p (h_tr (hp s))). lia.
Qed.
(** A frame that will execute the function of [p] or is executing it. *)
Definition live (p : sid) (f : frame) : Prop := runs p f \/ exists u, f = FUser u (UPack p).
Lemma live_step : forall p h t pre h' n f, lstep h t pre h' n -> In f pre -> live p f ->
  (exists g, In g (next_frames n) /\ live p g) \/ exists u r, h_tr h' = EvUserEnd t u (Some p) r :: h_tr h.
Proof.
  intros p0 h t pre h' n f0 L Jp [H|(u0 & ->)].
  - lstep_cases L; cbn [In] in Jp; repeat destruct Jp as [Jp|Jp]; try contradiction; subst f0; cbn [runs] in H; try contradiction.
    1: destruct fin; [contradiction|]; subst; left; eexists; split; [left; reflexivity|]; right; eauto.
    all: destruct H as [(q & u0 & caps0 & E)|(u0 & caps0 & E)]; try discriminate E; injection E; intros; subst; left; eexists; (split; [left; reflexivity|]); left; cbn [runs]; eauto.
  - assert (K : (exists r, h_tr h' = EvUserEnd t u0 (Some p0) r :: h_tr h) \/ In (FUser u0 (UPack p0)) (next_frames n)).
    { lstep_cases L; cbn [In] in Jp; repeat destruct Jp as [Jp|Jp]; try contradiction; try discriminate Jp; try (injection Jp as -> ->);
        cbn [next_frames]; auto; first [right; cbn; solve [auto] | right; apply in_or_app; right; cbn; solve [auto] | left; hs; solve [eauto] | right; cbn; rewrite ?in_app_iff; cbn; solve [auto 8] ]. }
    destruct K as [(r & K)|K]; [right; eauto|left]. eexists. split; [exact K|]. right. eauto.
Qed.
(** The function of [p] is not running and will not begin any more. *)
Definition sealed (p : sid) (s : st) : Prop := spent p s /\ idle_fun p (trace s).
Lemma sealed_step : forall p s t pre rest h n, reachable s -> stk s t = pre ++ rest -> lstep (hp s) t pre h n ->
  (p < h_nfs (hp s))%nat -> sealed p s -> sealed p (mkSt h (set_next (stk s) t n rest) None).
Proof.
  intros p s t pre rest h n R E L N [H1 H2]. split; [eapply spent_step; eauto|]. intros B.
  destruct (begun_step s t pre rest h n p E L B) as [B'|(u & a & -> & ->)].
  - destruct (H2 B') as (v & u & r & F). exists v, u, r. eapply trace_mono; eauto.
  - elim (run_spent s p t (FUStart u a (UPack p)) H1); [rewrite E; now left|]. apply runs_w. reflexivity.
Qed.
(** Where a job is. *)
Definition place2 (pl j : nat) (p q : sid) (s : st) : Prop :=
  waiting_job pl j (trace s) \/
  (exists t lv g k a f b, In (EvJobTake t pl j lv g) (trace s) /\ stk s t = a ++ f :: b /\ In (FCheckEnd pl j k) b /\ job_closure p q k /\
     (f = FRun k \/ (live p f /\ spent q s))) \/
  (sealed p s /\ spent q s).
Lemma pre_alone : forall h t pre h' n a f l p, lstep h t pre h' n -> pre = a ++ f :: l -> live p f \/ (exists k, f = FRun k) -> l = [].
Proof.
  intros h t pre h' n a0 f0 l0 p0 L E H.
  assert (K : forall g1 g2, pre = [g1; g2] -> ~ live p0 g1 /\ forall k, g1 <> FRun k).
  { intros g1 g2 E2. clear E H. revert E2. lstep_cases L; intros E2; try discriminate E2; injection E2 as <- <-; (split; [intros [X|(? & X)]; [exact X|discriminate X]|discriminate]). }
  destruct (lstep_pre _ _ _ _ _ L) as (_ & Len & _). destruct a0 as [|x0 a0]; cbn in E.
  - destruct l0 as [|y0 l0]; auto. destruct l0; [|subst pre; cbn in Len; lia]. destruct (K _ _ E) as [K1 K2]. destruct H as [H|(k & ->)]; [contradiction|now destruct (K2 k)].
  - destruct a0; [|subst pre; cbn in Len; rewrite app_length in Len; cbn in Len; lia]. destruct l0; auto. subst pre. cbn in Len. lia.
Qed.
Lemma pre_first : forall h t pre h' n a0 k0, lstep h t pre h' n -> pre = a0 ++ [FRun k0] -> a0 = [].
Proof.
  intros h t pre h' n a0 k0 L E.
  assert (K : forall g1, pre <> [g1; FRun k0]).
  { intros g1. clear E. lstep_cases L; intros E2; try discriminate E2. all: injection E2; intros; subst; discriminate. }
  destruct (lstep_pre _ _ _ _ _ L) as (_ & Len & _). destruct a0 as [|x0 [|y0 a0]]; auto; [now destruct (K x0)|].
  subst pre. cbn in Len. rewrite app_length in Len. cbn in Len. lia.
Qed.
Lemma other_stack : forall s t pre rest h n u, reachable s -> lstep (hp s) t pre h n -> u <> t -> stk s u <> [] -> set_next (stk s) t n rest u = stk s u.
Proof.
  intros s t pre rest h n u R L N J. destruct n as [fs|c cfs fs]; cbn [set_next]; rewrite upd_other by auto; auto.
  destruct (lstep_spawned _ _ _ _ _ _ _ L eq_refl) as (F & _ & _). destruct (Nat.eq_dec u c) as [->|Nc]; [|now rewrite upd_other].
  now rewrite (fresh_empty s c R F) in J.
Qed.
Lemma place2_frame : forall s t pre rest h n pl j p q t0 g0 u lv g k a f b, reachable s -> reachable (mkSt h (set_next (stk s) t n rest) None) ->
  stk s t = pre ++ rest -> lstep (hp s) t pre h n -> In (EvJobAdd t0 pl j g0 p q) (trace s) ->
  In (EvJobTake u pl j lv g) (trace s) -> stk s u = a ++ f :: b -> In (FCheckEnd pl j k) b -> job_closure p q k ->
  (f = FRun k \/ (live p f /\ spent q s)) -> place2 pl j p q (mkSt h (set_next (stk s) t n rest) None).
Proof.
  intros s t pre rest h n pl j p q t0 g0 u lv g k a f b R R' E L A T Eu C K H.
  pose proof (trace_mono s t pre rest h n _ L T) as T'.
  pose proof (job_made s R _ _ _ _ _ _ A) as Mp. pose proof (made2 s R _ _ _ _ _ _ A) as Mq.
  assert (Sq : spent q s -> spent q (mkSt h (set_next (stk s) t n rest) None)) by (eapply spent_step; eauto).
  assert (H' : f = FRun k \/ (live p f /\ spent q (mkSt h (set_next (stk s) t n rest) None))) by tauto.
  destruct (Nat.eq_dec u t) as [->|Nu].
  2: { right. left. exists u, lv, g, k, a, f, b. repeat split; auto. cbn [stk]. rewrite <- Eu. eapply other_stack; eauto. rewrite Eu. destruct a; discriminate. }
  assert (Keep : forall l, rest = l ++ f :: b -> place2 pl j p q (mkSt h (set_next (stk s) t n rest) None)).
  { intros l Er. right. left. exists t, lv, g, k, (next_frames n ++ l), f, b. repeat split; auto. cbn [stk]. rewrite next_own, Er. apply app_assoc. }
  pose proof Eu as Q. rewrite E in Q. symmetry in Q. apply app_eq_app in Q as [l0 [[_ Q]|[Q1 Q2]]]; [now apply (Keep l0)|].
  destruct l0 as [|f1 l0]; [now apply (Keep [])|]. injection Q2 as <- ->.
  assert (l0 = []) as -> by (eapply (pre_alone _ _ _ _ _ a f l0 p L Q1); destruct H as [->|[H _]]; eauto). cbn [app] in *.
  assert (New : forall x, In x (next_frames n) -> (x = FRun k \/ (live p x /\ spent q (mkSt h (set_next (stk s) t n rest) None))) -> place2 pl j p q (mkSt h (set_next (stk s) t n rest) None)).
  { intros x Jx Hx. apply in_split in Jx as (l1 & l2 & Jx). right. left. exists t, lv, g, k, l1, x, (l2 ++ rest). repeat split; auto.
    - cbn [stk]. rewrite next_own, Jx, <- app_assoc. reflexivity.
    - apply in_or_app. auto. }
  destruct H as [->|[H Hq]].
  - pose proof K as (u0 & caps & Ek). rewrite Ek in *.
    assert (a = []) as -> by exact (pre_first _ _ _ _ _ _ _ L Q1).
    cbn [app] in Q1. subst pre. destruct (pack_spent s t q _ rest h n R E L) as (Nf & -> & Sp).
    apply (New (FRun (TPack p (BUser u0 caps)))); [rewrite Nf; now left|]. right. split; auto. left. right. eauto.
  - assert (Jf : In f pre) by (rewrite Q1; apply in_or_app; cbn; auto).
    destruct (live_step p _ _ _ _ _ f L Jf H) as [(x & Jx & Hx)|(u0 & r & X)]; [apply (New x Jx); auto|].
    right. right. split; [|auto].
    assert (F : In (EvUserEnd t u0 (Some p) r) (trace (mkSt h (set_next (stk s) t n rest) None))) by (unfold trace; cbn [hp]; rewrite X; cbn [rev]; apply in_or_app; cbn; auto).
    split; [|intros _; exists t, u0, r; exact F].
    apply in_split in F as (l1 & l2 & F). destruct (end_begun _ R' l1 _ l2 F) as (x & Y). apply (spent_begun _ p t u0 x R'). rewrite F. apply in_or_app. auto.
Qed.
Theorem placed2 : forall s, reachable s -> forall pl j t g p q, In (EvJobAdd t pl j g p q) (trace s) -> place2 pl j p q s.
Proof.
  apply (reachable_ind'' (fun s => forall pl j t g p q, In (EvJobAdd t pl j g p q) (trace s) -> place2 pl j p q s)).
  - intros pl j t g p q [].
  - intros s s' R R' IH U Tr pl j t0 g p q A. destruct Tr as [d|t pre rest u E L|t pre rest h n E L].
    + set (s' := mkSt _ _ _) in *. assert (Et : trace s' = trace s ++ [EvTick (Z.pos d)]) by reflexivity. rewrite Et in A. apply in_snoc in A as [A|A]; [|discriminate A].
      destruct (IH _ _ _ _ _ _ A) as [W|[(t & lv & g' & k & a & f & b & T & H)|[[H1 H2] H3]]].
      * left. destruct (place_snoc pl j (hp s') s (stk s) _ eq_refl W) as [W'|[(? & ? & ? & W')|(? & ? & _ & [W'|W'])]]; [exact W'|discriminate W'..].
      * right. left. exists t, lv, g', k, a, f, b. split; auto. rewrite Et. apply in_or_app. auto.
      * right. right. repeat split; auto. intros (v & u & x & B). rewrite Et in *. apply in_snoc in B as [B|B]; [|discriminate B]. apply fin_app, H2. exists v, u, x. exact B.
    + apply (IH _ _ _ _ _ _ A).
    + assert (Old : In (EvJobAdd t0 pl j g p q) (trace s) \/ h_tr h = EvJobAdd t0 pl j g p q :: h_tr (hp s)).
      { unfold trace in *. cbn [hp] in A. destruct (lstep_tr _ _ _ _ _ L) as [X|[e0 X]]; rewrite X in *; auto. cbn [rev] in A. apply in_snoc in A as [A|A]; subst; auto. }
      destruct Old as [Old|New].
      * pose proof (job_made s R _ _ _ _ _ _ Old) as Mp. pose proof (made2 s R _ _ _ _ _ _ Old) as Mq.
        destruct (IH _ _ _ _ _ _ Old) as [W|[(u & lv & g' & k & a & f & b & T & H1 & H2 & H3 & H4)|[H1 H2]]].
        -- destruct (lstep_tr _ _ _ _ _ L) as [X|[e X]]; [left; unfold waiting_job, trace in *; cbn [hp]; now rewrite X|].
           destruct (job_entry s pl j t0 g p q R Old W) as (y & Jx & K).
           destruct (place_snoc pl j h s (set_next (stk s) t n rest) e X W) as [W'|[(u9 & lv9 & g9 & ->)|(u9 & js & Jj & Ee)]]; [left; exact W'| |].
           ++ right. left. destruct (take_step _ _ _ _ _ _ _ _ _ _ L X) as (-> & z & Jz & Nf).
              assert (z = y) as -> by (eapply in_nodup; eauto; apply (ji_nodup _ _ _ (jobs_inv pl s R))).
              exists t, lv9, g9, (jb_callable y), [FPUnl pl], (FRun (jb_callable y)), (FCheckEnd pl j (jb_callable y) :: rest). repeat split; auto.
              ** unfold trace. cbn [hp]. rewrite X. cbn [rev]. apply in_or_app. cbn. auto.
              ** cbn [stk]. rewrite next_own, Nf. reflexivity.
              ** now left.
           ++ assert (Sp : spent p (mkSt h (set_next (stk s) t n rest) None)) by (eapply erase_spent2; eauto; eapply closure_w; eauto).
              right. right. split; [|eapply erase_spent2; eauto; eapply closure_w2; eauto]. split; auto.
              intros (v & u & x & B). exfalso. assert (B' : In (EvUser v u x (Some p)) (trace s)).
              { unfold trace in B. cbn [hp] in B. rewrite X in B. cbn [rev] in B. apply in_snoc in B as [B|B]; auto. destruct Ee; subst e; discriminate B. }
              apply in_split in B' as (l1 & l2 & B'). destruct (job_run s R pl j t0 g p q Old l1 v u x l2 B') as (lv & g' & T). apply (proj2 W). exists v, lv, g'. rewrite B'. apply in_or_app. auto.
        -- eapply place2_frame; eauto.
        -- right. right. split; [eapply sealed_step; eauto|eapply spent_step; eauto].
      * left. split.
        -- unfold trace. cbn [hp]. rewrite New. cbn [rev]. rewrite jobs_of_snoc. cbn [jobs_step]. rewrite Nat.eqb_refl. apply in_or_app. cbn. auto.
        -- unfold trace. cbn [hp]. rewrite New. cbn [rev]. rewrite taken_snoc. intros [T|(? & ? & ? & T)]; [|discriminate T].
           pose proof (ji_taken _ _ _ (jobs_inv pl s R) j T) as Ad. pose proof (job_rules_hold _ R' (trace s) (EvJobAdd t0 pl j g p q) []) as K.
           destruct K as [_ K]; [unfold trace; cbn [hp]; rewrite New; reflexivity|]. now apply K.
Qed.
(** The pool future [q] of a job is going to be set. *)
Definition setting_ok (s : st) (t : tid) (q : sid) (r : list frame) : Prop :=
  (spent q s \/ dead q s) /\ forall pl j t0 g p, In (EvJobAdd t0 pl j g p q) (trace s) ->
    sealed p s \/ ((exists lv g', In (EvJobTake t pl j lv g') (trace s)) /\ forall f, In f r -> ~ live p f).
Definition about_job (s : st) (t : tid) (a : option frame) (f : frame) (r : list frame) : Prop :=
  match f with
  | FPackVal q | FPackGuard q | FSet q _ | FSet1 q _ => (q < h_nfs (hp s))%nat /\ (purpose_is (trace s) q PuJob -> setting_ok s t q r)
  | _ => True
  end.
Lemma add_sched : forall h t pre h' n t' pl j g p q, lstep h t pre h' n -> h_tr h' = EvJobAdd t' pl j g p q :: h_tr h ->
  exists f, In f pre /\ 1 <= rfw q f /\ frame_has q f = true.
Proof.
  intros h t pre h' n t' pl0 j0 g0 p0 q0 L X. ev_cases L X. injection X as <- -> -> -> -> ->. eexists. split; [left; reflexivity|].
  cbn [fw frame_has]. rewrite one_same, Nat.eqb_refl, orb_true_r. pose proof (one_nonneg q0 p0). split; auto. lia.
Qed.
Lemma add_old : forall s t pre rest h n t0 pl j g p q, reachable s -> stk s t = pre ++ rest -> lstep (hp s) t pre h n -> spent q s \/ dead q s ->
  In (EvJobAdd t0 pl j g p q) (trace (mkSt h (set_next (stk s) t n rest) None)) -> In (EvJobAdd t0 pl j g p q) (trace s).
Proof.
  intros s t pre rest h n t0 pl j g p q R E L D A. unfold trace in *. cbn [hp] in A. destruct (lstep_tr _ _ _ _ _ L) as [X|[e0 X]]; rewrite X in A; auto.
  cbn [rev] in A. apply in_snoc in A as [A|A]; auto. subst e0. destruct (add_sched _ _ _ _ _ _ _ _ _ _ _ L X) as (f & J & W & H).
  assert (Jf : In f (stk s t)) by (rewrite E; apply in_or_app; auto). destruct D as [D|D]; [elim (run_spent s q t f D Jf W)|elim (dead_no_frame q s t f D Jf H)].
Qed.
Lemma setting_step : forall s t pre rest h n u q r, reachable s -> stk s t = pre ++ rest -> lstep (hp s) t pre h n -> (q < h_nfs (hp s))%nat ->
  setting_ok s u q r -> setting_ok (mkSt h (set_next (stk s) t n rest) None) u q r.
Proof.
  intros s t pre rest h n u q r R E L N [D H]. split.
  - destruct D as [D|D]; [left; eapply spent_step; eauto|right; eapply OwnDead.dead_step; eauto].
  - intros pl j t0 g p A. apply (add_old s t pre rest h n) in A; auto. destruct (H _ _ _ _ _ A) as [X|[(lv & g' & X) Y]].
    + left. eapply sealed_step; eauto. eapply job_made; eauto.
    + right. split; auto. exists lv, g'. eapply trace_mono; eauto.
Qed.
Lemma aj_step : forall s t pre rest h n u a f r, reachable s -> reachable (mkSt h (set_next (stk s) t n rest) None) -> stk s t = pre ++ rest -> lstep (hp s) t pre h n ->
  about_job s u a f r -> about_job (mkSt h (set_next (stk s) t n rest) None) u a f r.
Proof.
  intros s t pre rest h n u a f r R R' E L H. pose proof (nfs_mono _ _ _ _ _ L) as Nm.
  destruct f; cbn [about_job hp] in *; auto; destruct H as [Hp H]; (split; [lia|]); intros P;
    (eapply setting_step; eauto; apply H; eapply purpose_back; eauto).
Qed.
Lemma idle_tick : forall p tr d, idle_fun p tr -> idle_fun p (tr ++ [EvTick d]).
Proof. intros p tr d H (t & u & a & J). apply in_snoc in J as [J|J]; [|discriminate J]. apply fin_app, H. exists t, u, a. exact J. Qed.
Lemma aj_tick : forall s d t a f r, reachable s -> about_job s t a f r -> about_job (mkSt (emit (put_now (hp s) (h_now (hp s) + Zpos d)) (EvTick (Zpos d))) (stk s) None) t a f r.
Proof.
  intros s d t a f r R H. set (s' := mkSt _ _ _). assert (Et : trace s' = trace s ++ [EvTick (Zpos d)]) by reflexivity.
  assert (Pb : forall p x, purpose_is (trace s') p x -> purpose_is (trace s) p x).
  { rewrite Et. intros p x [(t0 & v & J)|(tw0 & aw & w & ins & J & ->)]; apply in_app_or in J as [J|[J|[]]]; try discriminate J; [left|right]; eauto 8. }
  assert (K : forall q, setting_ok s t q r -> setting_ok s' t q r).
  { intros q [D K]. split; [exact D|]. intros pl j t0 g p A. rewrite Et in *. apply in_snoc in A as [A|A]; [|discriminate A].
    destruct (K _ _ _ _ _ A) as [[X X']|[(lv & g' & X) Y]]; [left; split; [exact X|rewrite Et; now apply idle_tick]|]. right. split; auto. exists lv, g'. apply in_or_app. auto. }
  destruct f; cbn [about_job] in *; auto; destruct H as [Hp H]; (split; [exact Hp|]); intros P; apply K, H, Pb, P.
Qed.
(** The closure of a job begins to run. *)
Lemma job_start : forall s t q k rest h n r, reachable s -> stk s t = FRun (TPack q (BTask k)) :: rest -> lstep (hp s) t [FRun (TPack q (BTask k))] h n ->
  (forall p f, In f r -> live p f -> In f rest) -> setting_ok (mkSt h (set_next (stk s) t n rest) None) t q r.
Proof.
  intros s t q k rest h n r R E L Hr. destruct (pack_spent s t q k rest h n R E L) as (_ & Eh & Sp). split; [left; exact Sp|].
  intros pl j t0 g p A. right. subst h. change (trace (mkSt (hp s) _ _)) with (trace s) in *.
  assert (Jt : In (FRun (TPack q (BTask k))) (stk s t)) by (rewrite E; now left). pose proof (pack_w q (BTask k)) as W.
  destruct (placed2 s R _ _ _ _ _ _ A) as [Wt|[(t1 & lv & g' & k0 & a & f & b & T & E1 & C & K & [->|[_ H]])|[_ H]]].
  - destruct (job_entry s pl j t0 g p q R A Wt) as (x & Jx & K). elim (run_table s q pl j x t _ R Jx (closure_w2 _ _ _ K) Jt W).
  - pose proof K as (u0 & caps & Ek). rewrite Ek in *. pose proof (pack_w q (BTask (TPack p (BUser u0 caps)))) as W1.
    assert (J1 : In (FRun (TPack q (BTask (TPack p (BUser u0 caps))))) (stk s t1)) by (rewrite E1; apply in_or_app; cbn; auto).
    destruct (Nat.eq_dec t1 t) as [->|Nt]; [|elim (run_two s q t1 _ t _ R Nt J1 Jt W1 W)].
    split; [eauto|]. intros f Jf Lf. assert (Ju := Hr _ _ Jf Lf). destruct Lf as [Lf|(u & ->)].
    { assert (a = []) as ->.
      { destruct a as [|y a]; auto. exfalso. rewrite E in E1. injection E1 as E1a E1b. refine (run_pair s q t [FRun (TPack q (BTask k))] rest _ (FRun (TPack q (BTask (TPack p (BUser u0 caps))))) R E (or_introl eq_refl) _ W W1). rewrite E1b. apply in_or_app. right. now left. }
      rewrite E in E1. injection E1 as E1a E1b. rewrite E1a in E. apply (run_pair s p t [FRun (TPack q (BTask (TPack p (BUser u0 caps))))] rest _ f R E (or_introl eq_refl) Ju); [apply runs_w; left; eauto|now apply runs_w]. }
    pose proof (ufok_reachable s R t) as F. rewrite Forall_forall in F. assert (Ju' : In (FUser u (UPack p)) (stk s t)) by (rewrite E; now right).
    destruct (F _ Ju') as (x & B). apply (run_begun s p t _ R J1) with (t' := t) (u := u) (a := x); auto. apply runs_w. left. eauto.
  - elim (run_spent s q t _ H Jt W).
  - elim (run_spent s q t _ H Jt W).
Qed.
Lemma hw_table2 : forall p h pl j x B, In (j, x) (pl_jobs (h_pools h pl)) -> (pl < B)%nat -> tw zero (one p) (jb_callable x) <= hw (one p) (one p) (one p) zero B h.
Proof.
  intros p h pl j x B J L. unfold hw.
  assert (A1 : 0 <= sumN (ctxw (one p) zero h) B) by (apply sumN_nonneg; intros; unfold ctxw; destruct (alive _ _); [|lia]; apply sumf_nonneg, tw_nn).
  assert (A2 : 0 <= sumN (fun i => fsw (one p) zero (h_fsts h i)) B) by (apply sumN_nonneg; intros; apply sumf_nonneg, cbw_nn).
  assert (A3 : 0 <= sumN (fun i => ow (one p) (h_prms h i)) B) by (apply sumN_nonneg; intros; apply ow_nonneg, one_nonneg).
  assert (A4 : 0 <= sumN (fun i => wcw (one p) (h_wcs h i)) B) by (apply sumN_nonneg; intros; apply wcw_nonneg, one_nonneg).
  pose proof (sumN_in (fun i => jbw (one p) zero (h_pools h i)) B pl ltac:(intros; apply sumf_nonneg; intros; apply tw_nn) L) as A5. cbn beta in A5.
  pose proof (sumf_in _ (fun e : nat * job => tw zero (one p) (jb_callable (snd e))) (pl_jobs (h_pools h pl)) (j, x) ltac:(intros; apply tw_nn) J) as A6. cbn [snd] in A6.
  unfold jbw in *. lia.
Qed.
Lemma own_table : forall s p pl j x t f, reachable s -> In (j, x) (pl_jobs (h_pools (hp s) pl)) -> 1 <= tw zero (one p) (jb_callable x) ->
  In f (stk s t) -> frame_has p f = true -> False.
Proof.
  intros s p pl j x t f R J W I F. apply has_fw in F. destruct (own_le1 s p R) as [B0 B]. specialize (B (B0 + S t + S pl)%nat ltac:(lia)).
  pose proof (hw_table2 p (hp s) pl j x (B0 + S t + S pl)%nat J ltac:(lia)). unfold total in B.
  pose proof (sumN_in (fun t => sumf (fw (one p) (one p) (one p) zero) (stk s t)) (B0 + S t + S pl)%nat t (fun t => sumf_nonneg _ _ _ (own_fnn p)) ltac:(lia)).
  pose proof (sumf_in _ (fw (one p) (one p) (one p) zero) (stk s t) f (own_fnn p) I). cbn beta in *. lia.
Qed.
(** The promise of a pool future is destroyed. *)
Lemma job_broken : forall s t q rest h n r, reachable s -> reachable (mkSt h (set_next (stk s) t n rest) None) -> stk s t = FPromDtor q :: rest -> lstep (hp s) t [FPromDtor q] h n ->
  setting_ok (mkSt h (set_next (stk s) t n rest) None) t q r.
Proof.
  intros s t q rest h n r R R' E L. split; [right; eapply dtor_dead; eauto|]. intros pl j t0 g p A. left.
  assert (A' : In (EvJobAdd t0 pl j g p q) (trace s)).
  { unfold trace in *. cbn [hp] in A. destruct (lstep_tr _ _ _ _ _ L) as [X|[e0 X]]; rewrite X in A; auto.
    cbn [rev] in A. apply in_snoc in A as [A|A]; auto. subst e0. destruct (add_sched _ _ _ _ _ _ _ _ _ _ _ L X) as (f & [<-|[]] & W & _). cbn in W. unfold zero in W. lia. }
  assert (Jt : In (FPromDtor q) (stk s t)) by (rewrite E; now left). assert (Hq : frame_has q (FPromDtor q) = true) by apply Nat.eqb_refl.
  destruct (placed2 s R _ _ _ _ _ _ A') as [Wt|[(t1 & lv & g' & k0 & a & f & b & T & E1 & C & K & H)|[H _]]].
  - destruct (job_entry s pl j t0 g p q R A' Wt) as (x & Jx & K). elim (own_table s q pl j x t _ R Jx (closure_w2 _ _ _ K) Jt Hq).
  - exfalso. apply (own_two s q t [FPromDtor q] rest (FPromDtor q) t1 (FCheckEnd pl j k0) R E); auto; [now left|exact (proj2 (closure_has _ _ _ K))|].
    destruct (Nat.eqb_spec t1 t) as [->|Nt]; [|rewrite E1; apply in_or_app; right; now right].
    rewrite E in E1. destruct a as [|x a]; injection E1 as _ ->; auto. apply in_or_app. right. now right.
  - apply (sealed_step p s t [FPromDtor q] rest h n R E L); auto. eapply job_made; eauto.
Qed.
Theorem aj_reachable : forall s, reachable s -> forall t, adj (about_job s t) None (stk s t).
Proof.
  apply (adj_rule about_job).
  - intros. now apply aj_tick.
  - auto.
  - intros t. cbn. destruct t; cbn; auto.
  - intros. eapply aj_step; eauto.
  - intros s t pre rest h n R R' E L Fp. set (s' := mkSt h (set_next (stk s) t n rest) None) in *.
    assert (Nm : forall f, In f (next_frames n) -> fb (bof h) f).
    { intros f J. destruct (b_inv_reachable s' R') as (_ & _ & F). specialize (F t). eapply Forall_forall in F; [exact F|]. cbn [stk s']. rewrite next_own. apply in_or_app; auto. }
    pose proof (b_inv_reachable s R) as (_ & _ & Fb). specialize (Fb t). rewrite E in Fb. apply Forall_app in Fb as [Fb _].
    destruct (k_inv_reachable s R) as (K & Kf). specialize (Kf t). rewrite E in Kf. apply Forall_app in Kf as [Kf _].
    assert (Ot : forall p x, purpose_is (trace s') p PuJob -> purpose_is (trace s) p x -> x = PuJob).
    { intros p x Hu Hx. apply (purpose_inj s' p _ _ R'); auto. exact (lstep_pur _ _ _ _ _ L p x Hx). }
    assert (Nw : forall w, In (FWFin1 w) pre \/ (exists a i par q, In (FWIn a w i par q) pre) -> (w < h_nw (hp s))%nat).
    { intros w [J|(a & i & par & q & J)]; eapply Forall_forall in Fb; try exact J; cbn in Fb; try apply Fb. }
    split; [|split].
    + pose proof L as L0. lstep_cases L; cbn [next_frames] in *; cbn [adj] in Fp; try destruct Fp as [Fp1 Fp2]; inversion Kf as [|? ? Kf1 Kf2]; subst; inversion Fb as [|? ? Fb1 Fb2]; subst; clear Kf Fb Kf2 Fb2.
      all: repeat match goal with
  | |- adj _ _ (_ ++ _) => apply adj_app; split
  | |- adj _ _ (destroy ?k) => destruct k; cbn [destroy]
  | |- adj _ _ (wresume ?k _) => destruct k; cbn [wresume]
  | |- adj _ _ (gresume ?k _) => destruct k; cbn [gresume]
  | |- adj _ _ (semresume ?k _) => destruct k; cbn [semresume]
  | |- adj _ _ (lresume ?k _ _) => destruct k; cbn [lresume]
  | |- adj _ _ (wresume_after _ ?a) => destruct a; cbn [wresume_after]
  | |- adj _ _ (pact_frames _ _ ?a) => destruct a; cbn [pact_frames]
  | |- adj _ _ (spresume _ _ ?k) => destruct k; cbn [spresume]
  | |- adj _ _ (api_frames ?c) => destruct c; cbn [api_frames]
  | |- adj _ _ (ufin_ret ?f _) => destruct f; cbn [ufin_ret]
  | |- adj _ _ (tframes ?b) => destruct b; cbn [tframes]
  | |- adj _ _ (run_one _ _) => unfold run_one
  | |- adj _ _ (match ?x with _ => _ end) => destruct x eqn:?
  | |- adj _ _ [] => exact Logic.I
  | |- adj _ _ (_ :: _) => split
  | |- about_job _ _ _ (FSet _ _) _ => idtac
  | |- about_job _ _ _ (FSet1 _ _) _ => idtac
  | |- about_job _ _ _ (FPackGuard _) _ => idtac
  | |- about_job _ _ _ (FPackVal _) _ => idtac
  | |- about_job _ _ _ _ _ => exact Logic.I
  | |- True => exact Logic.I
  end.
      all: cbn [about_job]; (split; [try first [exact (Nm _ (or_introl eq_refl))|exact (Nm _ (or_intror (or_introl eq_refl)))|exact (Nm _ (or_intror (or_intror (or_introl eq_refl))))]|]).
      all: cbn [app] in *; try (intros Hv; cbn [fk tk bpur] in Kf1; cbn [fb] in Fb1).
      all: try (let Hx := fresh in assert (Hx := Ot _ _ Hv ltac:(eassumption || apply Kf1)); discriminate Hx).
      all: try match goal with A : atom _ _ (OWAll _ _ _ _) _ = _ |- _ => apply w_set_prom in A as W | A : atom _ _ (OWAny _ _ _ _) _ = _ |- _ => apply w_set_prom in A as W | A : atom _ _ (OWFinal _) _ = _ |- _ => apply w_set_prom in A as W end; try (cbn in W; subst;
         match type of Hv with context [h_wcs _ ?w0] => discriminate (Ot _ _ Hv (hk_w _ _ K w0 ltac:(eauto 8 using in_eq))) end).
      * apply (job_start s t p k0 rest _ _ _ R E L0). intros p0 f [<-|J]; auto. intros [[]|(? & J)]; discriminate J.
      * apply (job_start s t p k0 rest _ _ _ R E L0). auto.
      * exact (job_broken s t p rest _ _ _ R R' E L0).
      * pose proof (aj_step s t [FPackVal p] rest _ _ t None (FPackVal p) rest R R' E L0 Fp1) as [_ X]. exact (X Hv).
      * pose proof (aj_step s t [FSet p o] rest _ _ t None (FSet p o) rest R R' E L0 Fp1) as [_ X]. exact (X Hv).
      * apply (hk_prm) with (n := pr) in K. assert (Q : h_prms (hp s) pr = Some s0) by (cbn [atom] in A; now injection A as _ ->).
        rewrite Q in K. discriminate (Ot _ _ Hv K).
      * destruct Kf1 as (aw & idx & pw & Kf1). discriminate (Ot _ _ Hv Kf1).
      * pose proof (aj_step s t [FThrow e; FPackGuard p] rest _ _ t _ _ rest R R' E L0 (proj1 Fp2)) as [_ X]. destruct (X Hv) as [X1 X2]. split; auto.
        intros pl j t0 g p0 Ad. destruct (X2 pl j t0 g p0 Ad) as [X3|[X3 X4]]; auto. right. split; auto. intros f [<-|J]; [|now apply X4]. intros [[]|(? & J)]; discriminate J.
    + destruct rest as [|g r]; auto. intros Hg. exact (aj_step s t pre (g :: r) h n t _ g r R R' E L Hg).
    + destruct (spawned n) as [[c cfs]|] eqn:Sp; auto. destruct (lstep_spawned _ _ _ _ _ _ _ L Sp) as (_ & _ & b & ->). destruct b; cbn; auto.
Qed.
Lemma job_purpose : forall s, reachable s -> at_each (fun tr e => match e with EvJobAdd _ pl j g p q => purpose_is tr q PuJob | _ => True end) (trace s).
Proof.
  apply (event_rule (fun s => reachable s)); auto.
  intros s t pre rest h n e0 R U E L X. pose proof (proj2 (k_inv_reachable s R) t) as F. rewrite E in F. apply Forall_app in F as [F _].
  assert (K : forall t' pl j g p q, e0 = EvJobAdd t' pl j g p q -> purpose_is (trace s) q PuJob).
  { intros t' pl0 j0 g0 p0 q0 ->. clear E. ev_cases L X. injection X as <- -> -> -> -> ->. inversion F as [|? ? K _]; subst. apply K. }
  destruct e0; auto. eapply K; reflexivity.
Qed.
(** When the pool future of a job becomes ready, the function of the job is not running and does not begin later. *)
Lemma set_sealed : forall s t q o rest t1 pl j g p, reachable s -> stk s t = FSet1 q o :: rest -> In (EvJobAdd t1 pl j g p q) (trace s) -> sealed p s.
Proof.
  intros s t q o rest t1 pl j g p R E A. pose proof (aj_reachable s R t) as C. rewrite E in C. cbn [app adj about_job] in C. destruct C as [[_ C] _].
  assert (P : purpose_is (trace s) q PuJob).
  { apply in_split in A as (m1 & m2 & A). rewrite A. apply pur_app. exact (job_purpose s R m1 _ m2 A). }
  destruct (C P) as [D C']. destruct (C' _ _ _ _ _ A) as [Id|[(lv & g' & T) N]]; auto.
  destruct (placed2 s R _ _ _ _ _ _ A) as [[_ W]|[(t2 & lv2 & g2 & k0 & a & f & b & T2 & E1 & Ce & K & H)|[H _]]]; auto.
  { destruct W. exists t, lv, g'. exact T. }
  exfalso. assert (t2 = t) as -> by (eapply taker_unique; eauto).
  assert (Jf : In f (stk s t)) by (rewrite E1; apply in_or_app; cbn; auto).
  assert (Jc : In (FCheckEnd pl j k0) (stk s t)) by (rewrite E1; apply in_or_app; cbn; auto).
  destruct H as [->|[H _]].
  - destruct K as (u & caps & ->). destruct D as [D|D]; [exact (run_spent s q t _ D Jf (pack_w _ _))|].
    apply (dead_no_frame q s t _ D Jc). cbn. now rewrite Nat.eqb_refl.
  - rewrite E in Jf. destruct Jf as [<-|Jf]; [destruct H as [[]|(? & H)]; discriminate H|]. exact (N f Jf H).
Qed.
Lemma seal_rule : forall (C : list event -> event -> sid -> Prop),
  (forall tr d p, ~ C tr (EvTick d) p) ->
  (forall s t pre rest h n e p, reachable s -> stk s t = pre ++ rest -> lstep (hp s) t pre h n -> h_tr h = e :: h_tr (hp s) -> C (trace s) e p ->
     sealed p s /\ (p < h_nfs (hp s))%nat) ->
  forall s, reachable s -> forall tr1 e tr2 p, trace s = tr1 ++ e :: tr2 -> C tr1 e p -> (spent p s /\ (p < h_nfs (hp s))%nat) /\ (begun p (trace s) -> finished p tr1).
Proof.
  intros C Ct Cs. apply (reachable_ind'' (fun s => forall tr1 e tr2 p, trace s = tr1 ++ e :: tr2 -> C tr1 e p -> (spent p s /\ (p < h_nfs (hp s))%nat) /\ (begun p (trace s) -> finished p tr1))).
  - intros tr1 e tr2 p H. destruct tr1; discriminate H.
  - intros s s' R R' IH U Tr tr1 e tr2 p H A. destruct Tr as [d|t pre rest ub E L|t pre rest h n E L].
    + change (trace s ++ [EvTick (Zpos d)] = tr1 ++ e :: tr2) in H. apply last_split in H as [(_ & _ & ->)|(l3 & -> & H)]; [destruct (Ct _ _ _ A)|].
      destruct (IH _ _ _ _ H A) as [X Y]. split; [exact X|]. intros (w & u & a & B). change (In (EvUser w u a (Some p)) (trace s ++ [EvTick (Zpos d)])) in B.
      apply in_snoc in B as [B|B]; [|discriminate B]. apply Y. exists w, u, a. exact B.
    + exact (IH _ _ _ _ H A).
    + set (s' := mkSt h (set_next (stk s) t n rest) None) in *. pose proof (nfs_mono _ _ _ _ _ L) as Nm.
      assert (Step : spent p s -> (p < h_nfs (hp s))%nat -> (begun p (trace s) -> finished p tr1) -> (spent p s' /\ (p < h_nfs (hp s'))%nat) /\ (begun p (trace s') -> finished p tr1)).
      { intros X N Y. split; [split; [eapply spent_step; eauto|cbn [hp s']; lia]|]. intros B.
        destruct (begun_step s t pre rest h n p E L B) as [B'|(u & a & -> & ->)]; auto.
        elim (run_spent s p t (FUStart u a (UPack p)) X); [rewrite E; now left|]. apply runs_w. reflexivity. }
      destruct (lstep_tr _ _ _ _ _ L) as [Q|[e0 Q]]; unfold trace, tr_of in H; cbn [hp s'] in H; rewrite Q in H.
      { destruct (IH _ _ _ _ H A) as [[X N] Y]. auto. }
      cbn [rev] in H. apply last_split in H as [(_ & Hl & He)|(l3 & -> & H)]; [|destruct (IH _ _ _ _ H A) as [[X N] Y]; auto].
      subst e0 tr1. change (rev (h_tr (hp s))) with (trace s) in *. destruct (Cs s t pre rest h n e p R E L Q A) as [[X Y] N]. auto.
Qed.
Theorem ready_over : forall s tr1 t q o tr2 t1 pl j g p, reachable s -> trace s = tr1 ++ EvReady t q o :: tr2 -> In (EvJobAdd t1 pl j g p q) tr1 ->
  begun p (trace s) -> finished p tr1.
Proof.
  intros s tr1 t q o tr2 t1 pl j g p R H A.
  apply (seal_rule (fun tr e p => match e with EvReady t q o => exists t1 pl j g, In (EvJobAdd t1 pl j g p q) tr | _ => False end)) with (s := s) (e := EvReady t q o) (tr2 := tr2); eauto 6.
  clear. intros s t pre rest h n e0 p R E L X C. destruct e0; try contradiction. destruct C as (t1 & pl & j & g & A). rename t0 into t9, p0 into q9, o into o9.
  split; [|eapply job_made; eauto].
  assert (F : t9 = t /\ pre = [FSet1 q9 o9]).
  { clear A E. clear t1 pl j g. ev_cases L X. cbn [atom] in A. destruct (fs_ready (h_fsts (hp s) p0)) eqn:Er.
    - injection A as <- <-. discriminate X.
    - unfold fs_set in A. injection A as <- <-. injection X as -> -> ->. auto. }
  destruct F as [-> ->]. eapply set_sealed; eauto.
Qed.
Theorem end_over : forall s tr1 t pl j tr2 t1 g p q, reachable s -> trace s = tr1 ++ EvJobEnd t pl j :: tr2 -> In (EvJobAdd t1 pl j g p q) tr1 ->
  begun p (trace s) -> finished p tr1.
Proof.
  intros s tr1 t pl j tr2 t1 g p q R H A.
  apply (seal_rule (fun tr e p => match e with EvJobEnd t pl j => exists t1 g q, In (EvJobAdd t1 pl j g p q) tr | _ => False end)) with (s := s) (e := EvJobEnd t pl j) (tr2 := tr2); eauto 6.
  clear. intros s t pre rest h n e0 p R E L X C. destruct e0; try contradiction. destruct C as (t1 & g & q & A). rename t0 into t9, pl into pl9, j into j9.
  split; [|eapply job_made; eauto].
  assert (F : t9 = t /\ exists k, pre = [FCheckEnd pl9 j9 k]).
  { clear A E. clear t1 g q. ev_cases L X. injection X as <- -> ->. eauto. }
  destruct F as [-> (k & ->)]. pose proof (ce_reachable s R t) as C. rewrite E in C. cbn [app adj] in C. destruct C as [((lv & g1 & T) & t2 & g2 & p2 & q2 & A2 & K & _) _].
  destruct (add_unique s pl9 j9 _ _ _ _ _ _ _ _ R A A2) as [<- <-].
  destruct (placed2 s R _ _ _ _ _ _ A) as [[_ W]|[(t3 & lv2 & g3 & k0 & a & f & b & T2 & E1 & Ce & K0 & H)|[H _]]]; auto.
  { destruct W. exists t, lv, g1. exact T. }
  exfalso. assert (t3 = t) as -> by (eapply taker_unique; eauto).
  apply (own_two s q t [FCheckEnd pl9 j9 k] rest (FCheckEnd pl9 j9 k) t (FCheckEnd pl9 j9 k0) R E); [now left|exact (proj2 (closure_has _ _ _ K))|exact (proj2 (closure_has _ _ _ K0))|].
  rewrite Nat.eqb_refl. rewrite E in E1. destruct a as [|x a]; injection E1 as E1a E1b; [subst f; destruct H as [H|[[[]|(? & H)] _]]; discriminate H|].
  rewrite E1b. apply in_or_app. right. now right.
Qed.

(** A pool future is not ready before its job is added. *)
Lemma ready_gone : forall s, reachable s -> forall t q o, In (EvReady t q o) (trace s) -> (q < h_nfs (hp s))%nat /\ (purpose_is (trace s) q PuJob -> spent q s \/ dead q s).
Proof.
  apply (reachable_ind'' (fun s => forall t q o, In (EvReady t q o) (trace s) -> (q < h_nfs (hp s))%nat /\ (purpose_is (trace s) q PuJob -> spent q s \/ dead q s))).
  - intros t q o [].
  - intros s s' R R' IH U Tr v q o J. destruct Tr as [d|t pre rest ub E L|t pre rest h n E L].
    + set (s' := mkSt _ _ _) in *. assert (Et : trace s' = trace s ++ [EvTick (Zpos d)]) by reflexivity. rewrite Et in *. apply in_snoc in J as [J|J]; [|discriminate J].
      destruct (IH v q o J) as [N D]. split; [exact N|]. intros P. apply D.
      destruct P as [(t0 & b & P)|(tw0 & aw & w & ins & P & Q)]; [|discriminate Q]. apply in_app_or in P as [P|[P|[]]]; try discriminate P. left; eauto.
    + exact (IH v q o J).
    + set (s' := mkSt h (set_next (stk s) t n rest) None) in *. pose proof (nfs_mono _ _ _ _ _ L) as Nm.
      assert (Step : (q < h_nfs (hp s))%nat -> (purpose_is (trace s) q PuJob -> spent q s \/ dead q s) -> (q < h_nfs (hp s'))%nat /\ (purpose_is (trace s') q PuJob -> spent q s' \/ dead q s')).
      { intros N D. split; [cbn [hp s']; lia|]. intros P. destruct D as [D|D]; [eapply purpose_back; eauto|left; eapply spent_step; eauto|right; eapply OwnDead.dead_step; eauto]. }
      destruct (lstep_tr _ _ _ _ _ L) as [Q|[e0 Q]]; unfold trace at 1, tr_of in J; cbn [hp s'] in J; rewrite Q in J.
      { destruct (IH v q o J). auto. }
      cbn [rev] in J. change (rev (h_tr (hp s))) with (trace s) in J. apply in_snoc in J as [J|J]; [destruct (IH v q o J); auto|].
      subst e0. assert (F : v = t /\ pre = [FSet1 q o]).
      { clear - L Q. rename q into q9, o into o9, v into v9. ev_cases L Q. cbn [atom] in A. destruct (fs_ready (h_fsts (hp s) p)) eqn:Er.
        - injection A as <- <-. discriminate Q.
        - unfold fs_set in A. injection A as <- <-. injection Q as -> -> ->. auto. }
      destruct F as [-> ->]. pose proof (aj_reachable s R t) as C. rewrite E in C. cbn [app adj about_job] in C. destruct C as [[N C] _].
      apply Step; auto. intros P. apply (C P).
Qed.
Theorem add_unready : forall s, reachable s -> at_each (fun tr e => match e with EvJobAdd _ _ _ _ _ q => forall t o, ~ In (EvReady t q o) tr | _ => True end) (trace s).
Proof.
  intros s R tr1 e tr2 E0. pose proof (job_purpose s R tr1 e tr2 E0) as P0. revert P0.
  refine (event_rule (fun s => reachable s) (fun tr e => match e with EvJobAdd _ _ _ _ _ q => purpose_is tr q PuJob | _ => True end -> match e with EvJobAdd _ _ _ _ _ q => forall t o, ~ In (EvReady t q o) tr | _ => True end) _ _ _ s R tr1 e tr2 E0); auto.
  clear. intros s t pre rest h n e R _ E L X P. destruct e; auto. intros v o J.
  destruct (ready_gone s R _ _ _ J) as [_ D].
  destruct (add_sched _ _ _ _ _ _ _ _ _ _ _ L X) as (f & Jf & W & H).
  assert (Jf' : In f (stk s t)) by (rewrite E; apply in_or_app; auto).
  destruct (D P) as [D'|D']; [exact (run_spent s _ t f D' Jf' W)|exact (dead_no_frame _ s t f D' Jf' H)].
Qed.
