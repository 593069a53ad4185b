(** * OwnJob: the function of a job is begun by the thread that took the job, and by no other. *)
From Coq Require Import List ZArith Lia. Import ListNotations.
From Verif Require Import Types Core State Ops Code Machine Base Spec SpecPool SpecOwn Rules Events InvCtx InvBound InvStack InvRefs Contract Count Replay ReplayObj
  InvCv Own OwnRefs OwnProm OwnRun OwnDead InvJobs InvTab ApiPool.
Local Open Scope Z_scope.

Notation run_total p := (total (one p) (one p) zero zero).
Notation rfw p := (fw (one p) (one p) zero zero).
(** No closure that could still begin the function of [p] is left. *)
Definition spent (p : sid) (s : st) : Prop := exists B0, forall B, (B0 <= B)%nat -> run_total p B s <= 0.
Lemma z12 : forall p q, zero q <= one p q.
Proof. intros. unfold zero. apply one_nonneg. Qed.
Lemma run_nn : forall p B s, 0 <= run_total p B s.
Proof. intros. exact (total_nonneg _ _ _ _ (one_nonneg p) zero_nonneg (z12 p) zero_nonneg _ _). Qed.
Lemma run_fnn : forall p f, 0 <= rfw p f.
Proof. intros. exact (fw_nonneg _ _ _ _ (one_nonneg p) zero_nonneg (z12 p) zero_nonneg _). Qed.
Lemma costs_nn : forall p l, 0 <= costs (ucost p) l.
Proof. intros. apply sumf_nonneg, ucost_nn. Qed.
Lemma run_le1 : forall s p, reachable s -> exists B0, forall B, (B0 <= B)%nat -> run_total p B s + costs (ucost p) (h_tr (hp s)) <= 1.
Proof.
  intros s p R. destruct (cost_reachable p (one p) (one p) zero (ucost p) (z12 p) (fun _ => eq_refl) (run_step p) s R) as [B H].
  exists B. intros B' L. specialize (H B' L). assert (made p (hp s) <= 1) by (unfold made; destruct (_ <? _)%nat; lia). lia.
Qed.
Lemma costs_mono : forall p h t pre h' n, lstep h t pre h' n -> costs (ucost p) (h_tr h) <= costs (ucost p) (h_tr h').
Proof.
  intros p h t pre h' n L. destruct (lstep_tr _ _ _ _ _ L) as [X|[e X]]; rewrite X; [lia|]. unfold costs. cbn [sumf]. pose proof (ucost_nn p e). lia.
Qed.
Lemma spent_step : forall p s t pre rest h n, reachable s -> stk s t = pre ++ rest -> lstep (hp s) t pre h n ->
  (p < h_nfs (hp s))%nat -> spent p s -> spent p (mkSt h (set_next (stk s) t n rest) None).
Proof.
  intros p s t pre rest h n R E L N [B1 D].
  destruct (lstep_total (one p) (one p) zero zero (z12 p) s t pre rest h n R E L) as (d & B2 & T & G & _).
  exists (B1 + B2)%nat. intros B HB. rewrite T by lia. specialize (D B ltac:(lia)). pose proof (run_step p _ _ _ _ _ L) as K.
  pose proof (costs_mono p _ _ _ _ _ L). assert (M1 : made p (hp s) = 1) by (unfold made; destruct (Nat.ltb_spec p (h_nfs (hp s))); lia).
  assert (M2 : made p h <= 1) by (unfold made; destruct (_ <? _)%nat; lia). lia.
Qed.
(** The change of the whole weight, exactly. *)
Lemma total_exact : forall s0 s1 s2 cw s t pre rest h n d, reachable s -> stk s t = pre ++ rest -> lstep (hp s) t pre h n -> spawned n = None ->
  hd s0 s1 s2 cw (hp s) h d ->
  exists B0, forall B, (B0 <= B)%nat -> total s0 s1 s2 cw B (mkSt h (set_next (stk s) t n rest) None) =
    total s0 s1 s2 cw B s + d + sumf (fw s0 s1 s2 cw) (next_frames n) - sumf (fw s0 s1 s2 cw) pre.
Proof.
  intros s0 s1 s2 cw s t pre rest h n d R E L Sp (B1 & D).
  assert (P : pt (fun u => sumf (fw s0 s1 s2 cw) (stk s u)) (fun u => sumf (fw s0 s1 s2 cw) (set_next (stk s) t n rest u))
    (sumf (fw s0 s1 s2 cw) (next_frames n) - sumf (fw s0 s1 s2 cw) pre)).
  { exists t. intros u. destruct n as [fs|]; [|discriminate Sp]. cbn [set_next next_frames]. rewrite upd_eq. destruct (Nat.eqb_spec u t) as [->|Nt]; [|lia].
    rewrite E, !sumf_app. lia. }
  apply sumN_pt in P as [B2 P]. exists (B1 + B2)%nat. intros B HB. unfold total. cbn [stk hp]. rewrite P, D by lia. lia.
Qed.
Lemma hw_table : forall p h pl j x B, In (j, x) (pl_jobs (h_pools h pl)) -> (pl < B)%nat -> tw zero (one p) (jb_callable x) <= hw (one p) (one p) zero zero B h.
Proof.
  intros p h pl j x B J L. unfold hw.
  assert (A1 : 0 <= sumN (ctxw (one p) zero h) B) by (apply sumN_nonneg; intros; unfold ctxw; destruct (alive _ _); [|lia]; apply sumf_nonneg, tw_nn).
  assert (A2 : 0 <= sumN (fun i => fsw (one p) zero (h_fsts h i)) B) by (apply sumN_nonneg; intros; apply sumf_nonneg, cbw_nn).
  assert (A3 : 0 <= sumN (fun i => ow zero (h_prms h i)) B) by (apply sumN_nonneg; intros; apply ow_nonneg, zero_nonneg).
  assert (A4 : 0 <= sumN (fun i => wcw zero (h_wcs h i)) B) by (apply sumN_nonneg; intros; apply wcw_nonneg, zero_nonneg).
  pose proof (sumN_in (fun i => jbw (one p) zero (h_pools h i)) B pl ltac:(intros; apply sumf_nonneg; intros; apply tw_nn) L) as A5. cbn beta in A5.
  pose proof (sumf_in _ (fun e : nat * job => tw zero (one p) (jb_callable (snd e))) (pl_jobs (h_pools h pl)) (j, x) ltac:(intros; apply tw_nn) J) as A6. cbn [snd] in A6.
  unfold jbw in *. lia.
Qed.
Lemma closure_w : forall p q k, job_closure p q k -> 1 <= tw zero (one p) k.
Proof. intros p q k (u & caps & ->). cbn [tw]. rewrite one_same. pose proof (one_nonneg p q). lia. Qed.
(** A frame that is about to begin the function of [p]. *)
Definition runs (p : sid) (f : frame) : Prop :=
  match f with
  | FRun k => (exists q u caps, k = TPack q (BTask (TPack p (BUser u caps)))) \/ exists u caps, k = TPack p (BUser u caps)
  | FUStart _ _ (UPack p') => p' = p
  | _ => False
  end.
Lemma runs_w : forall p f, runs p f -> 1 <= rfw p f.
Proof.
  intros p f H. destruct f; cbn [runs] in H; try contradiction.
  - destruct fin; try contradiction. subst. cbn [fw]. rewrite zero_0, one_same. lia.
  - cbn [fw]. unfold rn. destruct H as [(q & u & caps & ->)|(u & caps & ->)]; cbn [tw]; rewrite ?zero_0, one_same; try pose proof (one_nonneg p q); lia.
Qed.
(** Two places. *)
Lemma run_table : forall s p pl j x t f, reachable s -> In (j, x) (pl_jobs (h_pools (hp s) pl)) -> 1 <= tw zero (one p) (jb_callable x) ->
  In f (stk s t) -> 1 <= rfw p f -> False.
Proof.
  intros s p pl j x t f R J W I F. destruct (run_le1 s p R) as [B0 B]. specialize (B (B0 + S t + S pl)%nat ltac:(lia)).
  pose proof (costs_nn p (h_tr (hp s))). pose proof (hw_table p (hp s) pl j x (B0 + S t + S pl)%nat J ltac:(lia)). unfold total in B.
  pose proof (sumN_in (fun t => sumf (rfw p) (stk s t)) (B0 + S t + S pl)%nat t (fun t => sumf_nonneg _ _ _ (run_fnn p)) ltac:(lia)).
  pose proof (sumf_in _ (rfw p) (stk s t) f (run_fnn p) I). cbn beta in *. lia.
Qed.
Lemma run_two : forall s p t f u g, reachable s -> t <> u -> In f (stk s t) -> In g (stk s u) -> 1 <= rfw p f -> 1 <= rfw p g -> False.
Proof.
  intros s p t f u g R N If Ig F G. destruct (run_le1 s p R) as [B0 B]. specialize (B (B0 + S t + S u)%nat ltac:(lia)). set (B' := (B0 + S t + S u)%nat) in *.
  pose proof (costs_nn p (h_tr (hp s))). unfold total in B.
  pose proof (hw_nonneg (one p) (one p) zero zero (one_nonneg p) zero_nonneg (z12 p) zero_nonneg B' (hp s)) as A1.
  pose proof (sumf_two nat (fun t => sumf (rfw p) (stk s t)) (seq 0 B') t u (fun t => sumf_nonneg _ _ _ (run_fnn p)) N
    ltac:(apply in_seq; unfold B'; lia) ltac:(apply in_seq; unfold B'; lia)) as A2. cbn beta in A2.
  pose proof (sumf_in _ (rfw p) (stk s t) f (run_fnn p) If). pose proof (sumf_in _ (rfw p) (stk s u) g (run_fnn p) Ig).
  unfold sumN in B. lia.
Qed.
Lemma run_spent : forall s p t f, spent p s -> In f (stk s t) -> 1 <= rfw p f -> False.
Proof.
  intros s p t f [B D] J F.
  pose proof (total_frame (one p) (one p) zero zero (one_nonneg p) zero_nonneg (z12 p) zero_nonneg s t f (B + S t)%nat J ltac:(lia)) as X.
  specialize (D (B + S t)%nat ltac:(lia)). lia.
Qed.
Lemma run_begun : forall s p t f, reachable s -> In f (stk s t) -> 1 <= rfw p f -> forall t' u a, ~ In (EvUser t' u a (Some p)) (trace s).
Proof.
  intros s p t f R J F t' u a I. destruct (run_le1 s p R) as [B0 B]. specialize (B (B0 + S t)%nat ltac:(lia)).
  pose proof (total_frame (one p) (one p) zero zero (one_nonneg p) zero_nonneg (z12 p) zero_nonneg s t f (B0 + S t)%nat J ltac:(lia)) as X.
  unfold trace in I. apply in_rev in I. pose proof (sumf_in _ (ucost p) (h_tr (hp s)) _ (ucost_nn p) I) as Y. cbn [ucost] in Y. rewrite one_same in Y.
  unfold costs in B. lia.
Qed.
Lemma spent_begun : forall s p t u a, reachable s -> In (EvUser t u a (Some p)) (trace s) -> spent p s.
Proof.
  intros s p t u a R I. destruct (run_le1 s p R) as [B0 B]. exists B0. intros B' L. specialize (B B' L).
  unfold trace in I. apply in_rev in I. pose proof (sumf_in _ (ucost p) (h_tr (hp s)) _ (ucost_nn p) I) as Y. cbn [ucost] in Y. rewrite one_same in Y.
  unfold costs in B. lia.
Qed.
(** A step of the taker: the function is begun or the next frame is about to. *)
Lemma runs_step : forall p h t pre h' n f, lstep h t pre h' n -> In f pre -> runs p f ->
  (exists g, In g (next_frames n) /\ runs p g) \/ exists u a, h_tr h' = EvUser t u a (Some p) :: h_tr h.
Proof.
  intros p h t pre h' n f0 L I H. lstep_cases L; cbn [In] in I; repeat destruct I as [I|I]; try contradiction; subst f0; cbn [runs] in H; try contradiction.
  1: destruct fin; [contradiction|]; subst; right; exists u, a; cbn [atom fin_sid] in A; now injection A as <- _.
  all: destruct H as [(q & u0 & caps0 & E)|(u0 & caps0 & E)]; try discriminate E; injection E; intros; subst; left; eexists; (split; [left; reflexivity|]).
  - reflexivity.
  - right. eauto.
Qed.
Lemma in_rest : forall s t pre rest h n u f, reachable s -> stk s t = pre ++ rest -> lstep (hp s) t pre h n -> In f (stk s u) ->
  (u = t /\ In f pre) \/ In f (set_next (stk s) t n rest u).
Proof.
  intros s t pre rest h n u f R E L J. destruct (Nat.eq_dec u t) as [->|N]; [|right; eapply next_other; eauto].
  rewrite E in J. apply in_app_iff in J as [J|J]; [left; auto|right]. rewrite next_own. apply in_or_app. auto.
Qed.
(** Where the function of a job is. *)
Definition job_place (pl j : nat) (p : sid) (s : st) : Prop :=
  waiting_job pl j (trace s) \/
  (exists t lv g f, In (EvJobTake t pl j lv g) (trace s) /\ In f (stk s t) /\ runs p f) \/
  spent p s.
Lemma take_closure : forall p lv inp p' j k, pool_take p lv inp = (p', Some (j, k)) -> exists x, In (j, x) (pl_jobs p) /\ jb_callable x = k /\ k <> TNull.
Proof.
  intros p lv inp p' j k H. unfold pool_take in H. cbv zeta in H. destruct (qs_get _ _); [discriminate H|].
  destruct (jobs_find _ _) as [x|] eqn:F; [|discriminate H]. destruct (_ <=? _)%nat; [|discriminate H].
  destruct (task_null (jb_callable x)) eqn:T; [discriminate H|]. injection H as _ <- <-. apply find_in in F. exists x. repeat split; auto.
  intros N. rewrite N in T. discriminate T.
Qed.
Lemma place_snoc : forall pl j h s k e, h_tr h = e :: h_tr (hp s) -> waiting_job pl j (trace s) ->
  waiting_job pl j (trace (mkSt h k None)) \/ (exists t lv g, e = EvJobTake t pl j lv g) \/ (exists t js, In j js /\ (e = EvJobErase t pl js \/ e = EvJobClear t pl js)).
Proof.
  intros pl j h s k e X [W N]. assert (E : trace (mkSt h k None) = trace s ++ [e]) by (unfold trace; cbn [hp]; rewrite X; reflexivity).
  unfold waiting_job. rewrite E, jobs_of_snoc.
  assert (D : (exists t js, In j js /\ (e = EvJobErase t pl js \/ e = EvJobClear t pl js)) \/ In j (jobs_step pl (jobs_of pl (trace s)) e)).
  { destruct e; cbn [jobs_step]; auto; destruct (Nat.eqb_spec pl0 pl); auto; try (right; apply in_or_app; auto; fail); subst pl0.
    all: destruct (existsb (Nat.eqb j) js) eqn:Ex; [left; apply existsb_exists in Ex as (j' & J & Q); apply Nat.eqb_eq in Q; subst j'; eauto 6|].
    all: right; apply filter_In; split; auto; now rewrite Ex. }
  destruct D as [D|D]; auto. 
  destruct e; try (left; split; [exact D|rewrite taken_snoc; intros [T|(? & ? & ? & T)]; [now apply N|discriminate T]]; fail).
  destruct (Nat.eq_dec pl0 pl) as [->|Np]; [destruct (Nat.eq_dec j0 j) as [->|Nj]|]; [right; left; eauto| |].
  all: left; split; [exact D|rewrite taken_snoc; intros [T|(? & ? & ? & T)]; [now apply N|congruence]].
Qed.
Lemma sum_zero2 : forall (l : list task), sumf (tw zero zero) l = 0.
Proof. intros l. apply sumf_zero. intros. apply tw_zero. Qed.
Lemma destroy_w0 : forall p ks, sumf (rfw p) (destroy ks) = 0.
Proof. intros. rewrite w_destroy. apply sum_zero2. Qed.
Lemma erase_spent : forall s t pre rest h n pl j p q x e t' js, reachable s -> reachable (mkSt h (set_next (stk s) t n rest) None) ->
  stk s t = pre ++ rest -> lstep (hp s) t pre h n -> h_tr h = e :: h_tr (hp s) -> (e = EvJobErase t' pl js \/ e = EvJobClear t' pl js) -> In j js ->
  In (j, x) (pl_jobs (h_pools (hp s) pl)) -> job_closure p q (jb_callable x) -> spent p (mkSt h (set_next (stk s) t n rest) None).
Proof.
  intros s t pre rest h n pl j p q x0 e t' js R R' E L X Ee Jj Jx K.
  destruct (run_le1 s p R) as [B0 B]. apply closure_w in K.
  assert (Y : exists d, hd (one p) (one p) zero zero (hp s) h d /\ d <= -1 /\ sumf (rfw p) (next_frames n) = 0 /\ spawned n = None).
  { pose proof (fun T o inp h' x Ok A => atom_w (one p) (one p) zero zero (hp s) t T o inp h' x (reg_inv_reachable s R) (proj1 (proj2 (b_inv_reachable s R))) (xgood_reachable s R) Ok A) as AW.
    destruct Ee as [-> | ->]; ev_cases L X.
    - destruct x as [k|]; [|discriminate X]. injection X as <- -> <-. destruct Jj as [->|[]]. pose proof (AW _ _ _ _ _ (Logic.I : opa _ (OPClear pl j chk)) A) as AW'. cbn [odelta] in AW'.
      eexists. split; [exact AW'|]. split; [|split; [|reflexivity]].
      + cbn [atom] in A. unfold pool_clear in A. destruct (jobs_find _ _) as [y|] eqn:F; [|discriminate A].
        apply find_in in F. assert (y = x0) as -> by (eapply in_nodup; eauto; apply (ji_nodup _ _ _ (jobs_inv pl s R))).
        destruct (_ && _); [discriminate A|]. injection A as _ <-. lia.
      + cbn [next_frames]. rewrite sumf_app, destroy_w0. reflexivity.
    - injection X as <- -> <-. pose proof (AW _ _ _ _ _ (Logic.I : opa _ (OPClearAll pl)) A) as AW'. cbn [odelta] in AW'.
      eexists. split; [exact AW'|]. split; [|split; [|reflexivity]].
      + cbn [atom] in A. injection A as _ <-. rewrite sumf_map.
        pose proof (sumf_in _ (fun e : nat * job => tw zero (one p) (jb_callable (snd e))) (pl_jobs (h_pools (hp s) pl)) (j, x0) ltac:(intros; apply tw_nn) Jx) as A6. cbn [snd] in A6. lia.
      + cbn [next_frames]. rewrite sumf_app, destroy_w0. reflexivity. }
  destruct Y as (d & D & Dd & F & Sp). destruct (total_exact _ _ _ _ s t pre rest h n d R E L Sp D) as [B1 T].
  exists (B0 + B1)%nat. intros B' HB. rewrite T by lia. rewrite F. specialize (B B' ltac:(lia)).
  pose proof (sumf_nonneg _ _ pre (run_fnn p)). pose proof (costs_nn p (h_tr (hp s))). lia.
Qed.
Lemma job_entry : forall s pl j t g p q, reachable s -> In (EvJobAdd t pl j g p q) (trace s) -> waiting_job pl j (trace s) ->
  exists x, In (j, x) (pl_jobs (h_pools (hp s) pl)) /\ job_closure p q (jb_callable x).
Proof.
  intros s pl j t g p q R A W. apply (rd_waiting s pl j R) in W as (x & J & N). exists x. split; auto.
  pose proof (tab_inv pl s R) as T. rewrite Forall_forall in T. destruct (T _ J) as (t' & g' & p' & q' & A' & _ & [K|K]); [contradiction|].
  destruct (add_unique s pl j t g p q t' g' p' q' R A A') as [-> ->]. exact K.
Qed.
Lemma job_made : forall s, reachable s -> forall pl j t g p q, In (EvJobAdd t pl j g p q) (trace s) -> (p < h_nfs (hp s))%nat.
Proof.
  apply (replay_rule (fun h tr => forall pl j t g p q, In (EvJobAdd t pl j g p q) tr -> (p < h_nfs h)%nat)).
  - intros pl j t g p q [].
  - intros h l d IH pl j t g p q A. apply in_snoc in A as [A|A]; [eapply IH; eauto|discriminate A].
  - intros h l e IH Ok pl j t g p q A. apply in_snoc in A as [A|A]; [eapply IH; eauto|subst e; contradiction Ok].
  - intros h ? ? [] ? ? ? G O IH At NN; try contradiction; atom_split At; intros pl9 j9 t9 g9 p9 q9 J; try (apply in_snoc in J as [J|J]; [|try discriminate J]); hs; try (specialize (IH _ _ _ _ _ _ J); lia).
    injection J as -> -> -> -> -> ->. apply O.
Qed.
Lemma take_step : forall h t pre h' n t' pl j lv g, lstep h t pre h' n -> h_tr h' = EvJobTake t' pl j lv g :: h_tr h ->
  t' = t /\ exists y, In (j, y) (pl_jobs (h_pools h pl)) /\ next_frames n = [FPUnl pl; FRun (jb_callable y); FCheckEnd pl j (jb_callable y)].
Proof.
  intros h t pre h' n t' pl0 j0 lv0 g0 L X. ev_cases L X. destruct x as [[d|] [[j' k]|]]; try discriminate X. injection X as <- -> -> -> _. split; auto.
  cbn [atom] in A. destruct (pool_take _ _ _) as [p' r] eqn:P. destruct (pool_top _ _ _), r as [[? ?]|]; try discriminate A. injection A as _ _ -> ->.
  apply take_closure in P as (y & J & <- & _). exists y. split; auto.
Qed.
Theorem job_placed : forall s, reachable s -> forall pl j t g p q, In (EvJobAdd t pl j g p q) (trace s) -> job_place pl j p s.
Proof.
  apply (reachable_ind'' (fun s => forall pl j t g p q, In (EvJobAdd t pl j g p q) (trace s) -> job_place pl j p s)).
  - intros pl j t g p q [].
  - intros s s' R R' IH U Tr pl j t0 g p q A. destruct Tr as [d|t pre rest u E L|t pre rest h n E L].
    + unfold trace in A. cbn [hp] in A. hs. cbn [h_tr emit rev] in A. apply in_snoc in A as [A|A]; [|discriminate A]; change (rev (h_tr (hp s))) with (trace s) in A.
      destruct (IH _ _ _ _ _ _ A) as [W|[(t & lv & g' & f & T & J & H)|H]].
      * left. destruct (place_snoc pl j (emit (put_now (hp s) (h_now (hp s) + Z.pos d)) (EvTick (Z.pos d))) s (stk s) _ eq_refl W) as [W'|[(? & ? & ? & W')|(? & ? & _ & [W'|W'])]]; [exact W'|discriminate W'..].
      * right. left. exists t, lv, g', f. split; auto. apply in_or_app. auto.
      * right. right. exact H.
    + apply (IH _ _ _ _ _ _ A).
    + assert (Mono : forall e, In e (trace s) -> In e (trace (mkSt h (set_next (stk s) t n rest) None))).
      { intros e I. unfold trace in *. cbn [hp]. destruct (lstep_tr _ _ _ _ _ L) as [X|[e0 X]]; rewrite X; auto. cbn [rev]. apply in_or_app. auto. }
      assert (Old : In (EvJobAdd t0 pl j g p q) (trace s) \/ h_tr h = EvJobAdd t0 pl j g p q :: h_tr (hp s)).
      { unfold trace in *. cbn [hp] in A. destruct (lstep_tr _ _ _ _ _ L) as [X|[e0 X]]; rewrite X in *; auto. cbn [rev] in A. apply in_snoc in A as [A|A]; subst; auto. }
      destruct Old as [Old|New].
      * destruct (IH _ _ _ _ _ _ Old) as [W|[(u & lv & g' & f & T & J & H)|H]].
        -- destruct (lstep_tr _ _ _ _ _ L) as [X|[e X]]; [left; unfold waiting_job, trace in *; cbn [hp]; now rewrite X|].
           destruct (job_entry s pl j t0 g p q R Old W) as (y & Jx & K).
           destruct (place_snoc pl j h s (set_next (stk s) t n rest) e X W) as [W'|[(u9 & lv9 & g9 & ->)|(u9 & js & Jj & Ee)]]; [left; exact W'| |].
           ++ right. left. destruct (take_step _ _ _ _ _ _ _ _ _ _ L X) as (-> & z & Jz & Nf).
              assert (z = y) as -> by (eapply in_nodup; eauto; apply (ji_nodup _ _ _ (jobs_inv pl s R))).
              exists t, lv9, g9, (FRun (jb_callable y)). repeat split.
              ** unfold trace. cbn [hp]. rewrite X. cbn [rev]. apply in_or_app. cbn. auto.
              ** cbn [stk]. rewrite next_own, Nf. cbn. auto.
              ** destruct K as (u & caps & ->). left. eauto.
           ++ right. right. eapply erase_spent; eauto.
        -- destruct (in_rest s t pre rest h n u f R E L J) as [[-> Jp]|Jn]; [|right; left; exists u, lv, g', f; auto].
           destruct (runs_step p _ _ _ _ _ f L Jp H) as [(f' & Jf & Hf)|(v & a & X)].
           ++ right. left. exists t, lv, g', f'. split; auto. split; auto. cbn [stk]. rewrite next_own. apply in_or_app. auto.
           ++ right. right. apply (spent_begun _ p t v a R'). unfold trace. cbn [hp]. rewrite X. apply in_or_app. cbn. auto.
        -- right. right. eapply spent_step; eauto. eapply job_made; eauto.
      * left. split.
        -- unfold trace. cbn [hp]. rewrite New. cbn [rev]. rewrite jobs_of_snoc. cbn [jobs_step]. rewrite Nat.eqb_refl. apply in_or_app. cbn. auto.
        -- unfold trace. cbn [hp]. rewrite New. cbn [rev]. rewrite taken_snoc. intros [T|(? & ? & ? & T)]; [|discriminate T].
           pose proof (ji_taken _ _ _ (jobs_inv pl s R) j T) as Ad. pose proof (job_rules_hold _ R' (trace s) (EvJobAdd t0 pl j g p q) []) as K.
           destruct K as [_ K]; [unfold trace; cbn [hp]; rewrite New; reflexivity|]. now apply K.
Qed.
Lemma user_frame : forall h t pre h' n t' u a p, lstep h t pre h' n -> h_tr h' = EvUser t' u a (Some p) :: h_tr h -> t' = t /\ exists f, In f pre /\ runs p f.
Proof.
  intros h t pre h' n t' u0 a0 p L X. ev_cases L X. destruct fin; cbn in X; [discriminate X|]. injection X as <- -> -> ->. split; auto.
  eexists. split; [left; reflexivity|]. reflexivity.
Qed.
Lemma add_frame : forall h t pre h' n t' pl j g p q, lstep h t pre h' n -> h_tr h' = EvJobAdd t' pl j g p q :: h_tr h -> exists f, In f pre /\ 1 <= rfw p f.
Proof.
  intros h t pre h' n t' pl0 j0 g0 p0 q0 L X. ev_cases L X. injection X as <- -> -> -> -> ->. eexists. split; [left; reflexivity|].
  cbn [fw]. rewrite one_same. pose proof (one_nonneg p0 q0). lia.
Qed.
(** Who begins the function of a job has taken the job before. *)
Theorem job_run : forall s, reachable s -> forall pl j t0 g p q, In (EvJobAdd t0 pl j g p q) (trace s) ->
  forall tr1 t u a tr2, trace s = tr1 ++ EvUser t u a (Some p) :: tr2 -> exists lv g', In (EvJobTake t pl j lv g') tr1.
Proof.
  intros s R pl j t0 g p q. revert s R.
  apply (reachable_ind'' (fun s => In (EvJobAdd t0 pl j g p q) (trace s) ->
    forall tr1 t u a tr2, trace s = tr1 ++ EvUser t u a (Some p) :: tr2 -> exists lv g', In (EvJobTake t pl j lv g') tr1)).
  - intros [].
  - intros s s' R R' IH U Tr A tr1 v u a tr2 E.
    assert (Step : forall e, trace s' = trace s ++ [e] -> e <> EvJobAdd t0 pl j g p q ->
      (forall v u a, e = EvUser v u a (Some p) -> In (EvJobAdd t0 pl j g p q) (trace s) -> exists lv g', In (EvJobTake v pl j lv g') (trace s)) ->
      exists lv g', In (EvJobTake v pl j lv g') tr1).
    { intros e X Na Hu. rewrite X in A, E. apply in_snoc in A as [A|A]; [|congruence].
      destruct tr2 as [|x tr2 _] using rev_ind.
      - apply app_inj_tail in E as [<- ->]. apply (Hu v u a); auto.
      - assert (E' : trace s ++ [e] = (tr1 ++ EvUser v u a (Some p) :: tr2) ++ [x]) by (rewrite <- app_assoc; exact E).
        apply app_inj_tail in E' as [E' _]. eapply IH; eauto. }
    destruct Tr as [d|t pre rest ub Ep L|t pre rest h n Ep L].
    + eapply Step; [reflexivity|discriminate|]. intros ? ? ? X. discriminate X.
    + eapply IH; eauto.
    + destruct (lstep_tr _ _ _ _ _ L) as [X|[e X]].
      * assert (X' : trace (mkSt h (set_next (stk s) t n rest) None) = trace s) by (unfold trace; cbn [hp]; now rewrite X). rewrite X' in *. eapply IH; eauto.
      * assert (X' : trace (mkSt h (set_next (stk s) t n rest) None) = trace s ++ [e]) by (unfold trace; cbn [hp]; now rewrite X).
        apply (Step e X').
        -- intros ->. destruct (add_frame _ _ _ _ _ _ _ _ _ _ _ L X) as (f & J & F).
           rewrite X' in E. destruct tr2 as [|x tr2 _] using rev_ind; [apply app_inj_tail in E as [_ E]; discriminate E|].
           assert (E' : trace s ++ [EvJobAdd t0 pl j g p q] = (tr1 ++ EvUser v u a (Some p) :: tr2) ++ [x]) by (rewrite <- app_assoc; exact E).
           apply app_inj_tail in E' as [E' _]. apply (run_begun s p t f R) with (t' := v) (u := u) (a := a); auto.
           ++ rewrite Ep. apply in_or_app. auto.
           ++ rewrite E'. apply in_or_app. cbn. auto.
        -- intros v' u' a' -> Ad. destruct (user_frame _ _ _ _ _ _ _ _ _ L X) as (-> & f & J & F).
           assert (Jf : In f (stk s t)) by (rewrite Ep; apply in_or_app; auto). apply runs_w in F.
           destruct (job_placed s R _ _ _ _ _ _ Ad) as [W|[(t1 & lv & g' & f' & T & J' & H')|Sp]].
           ++ destruct (job_entry s pl j t0 g p q R Ad W) as (x & Jx & K). elim (run_table s p pl j x t f R Jx (closure_w _ _ _ K) Jf F).
           ++ destruct (Nat.eq_dec t1 t) as [->|Nt]; [eauto|]. elim (run_two s p t1 f' t f R Nt J' Jf (runs_w _ _ H') F).
           ++ elim (run_spent s p t f Sp Jf F).
Qed.

