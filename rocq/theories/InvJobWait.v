(** * InvJobWait: the end of a job comes after the end of its function. *)
From Coq Require Import List ZArith Lia. Import ListNotations.
From Verif Require Import Types Core State Ops Code Machine Base Spec SpecPool SpecPack SpecJobWait SpecOwn Rules Adj Events InvCtx InvBound InvStack InvRefs Contract Count Replay ReplayObj
  InvCv Own OwnRefs OwnProm OwnRun OwnDead InvJobs InvTab ApiPool OwnJob ThmJob.

Lemma trace_mono : forall s t pre rest h n e, lstep (hp s) t pre h n -> In e (trace s) -> In e (trace (mkSt h (set_next (stk s) t n rest) None)).
Proof.
  intros s t pre rest h n e L I. unfold trace in *. cbn [hp]. destruct (lstep_tr _ _ _ _ _ L) as [X|[e0 X]]; rewrite X; auto. cbn [rev]. apply in_or_app. auto.
Qed.
Lemma fin_app : forall p l x, finished p l -> finished p (l ++ x).
Proof. intros p l x (t & u & r & I). exists t, u, r. apply in_or_app. auto. Qed.

(** A function that has begun and not finished is a frame of its thread. *)
Lemma fun_frame : forall s, reachable s -> forall t u a p, In (EvUser t u a (Some p)) (trace s) -> finished p (trace s) \/ In (FUser u (UPack p)) (stk s t).
Proof.
  apply (reachable_ind'' (fun s => forall t u a p, In (EvUser t u a (Some p)) (trace s) -> finished p (trace s) \/ In (FUser u (UPack p)) (stk s t))).
  - intros t u a p [].
  - intros s s' R R' IH U Tr v9 u0 a0 p0 I. destruct Tr as [d|t pre rest ub E L|t pre rest h n E L].
    + change (trace (mkSt _ _ _)) with (trace s ++ [EvTick (Zpos d)]) in *. apply in_snoc in I as [I|I]; [|discriminate I].
      destruct (IH _ _ _ _ I) as [F|F]; auto. left. now apply fin_app.
    + apply (IH _ _ _ _ I).
    + assert (Old : In (EvUser v9 u0 a0 (Some p0)) (trace s) \/ h_tr h = EvUser v9 u0 a0 (Some p0) :: h_tr (hp s)).
      { unfold trace in *. cbn [hp] in I. destruct (lstep_tr _ _ _ _ _ L) as [X|[e0 X]]; rewrite X in *; auto. cbn [rev] in I. apply in_snoc in I as [I|I]; subst; auto. }
      destruct Old as [Old|New].
      * destruct (IH _ _ _ _ Old) as [(t1 & u1 & r1 & F)|F]; [left; exists t1, u1, r1; eapply trace_mono; eauto|].
        destruct (in_rest s t pre rest h n v9 _ R E L F) as [[-> Jp]|Jn]; [|right; exact Jn].
        assert (K : (exists r, h_tr h = EvUserEnd t u0 (Some p0) r :: h_tr (hp s)) \/ In (FUser u0 (UPack p0)) (next_frames n)).
        { clear - L Jp. lstep_cases L; cbn [In] in Jp; repeat destruct Jp as [Jp|Jp]; try contradiction; try discriminate Jp; try (injection Jp as -> ->);
            cbn [next_frames]; auto; first [right; cbn; solve [auto] | right; apply in_or_app; right; cbn; solve [auto] | left; hs; solve [eauto] | right; cbn; rewrite ?in_app_iff; cbn; solve [auto 8] | idtac]. }
        destruct K as [(r & K)|K].
        -- left. exists t, u0, r. unfold trace. cbn [hp]. rewrite K. cbn [rev]. apply in_or_app. cbn. auto.
        -- right. cbn [stk]. rewrite next_own. apply in_or_app. auto.
      * right. assert (K : v9 = t /\ In (FUser u0 (UPack p0)) (next_frames n)).
        { clear - L New. ev_cases L New. destruct fin; cbn in New; [discriminate New|]. injection New as <- -> -> ->. split; cbn; auto. }
        destruct K as [-> K]. cbn [stk]. rewrite next_own. apply in_or_app. auto.
Qed.

(** The record of a job that is being executed lies above the frames that were there when the job was taken. *)
Definition ceok (s : st) (t : tid) (a : option frame) (f : frame) (r : list frame) : Prop :=
  match f with
  | FCheckEnd pl j k => (exists lv g, In (EvJobTake t pl j lv g) (trace s)) /\
      exists t0 g p q, In (EvJobAdd t0 pl j g p q) (trace s) /\ job_closure p q k /\ forall u, ~ In (FUser u (UPack p)) r
  | _ => True
  end.
Lemma ceok_mono : forall s s' t a a' f r, (forall e, In e (trace s) -> In e (trace s')) -> ceok s t a f r -> ceok s' t a' f r.
Proof.
  intros s s' t a a' f r M H. destruct f; auto. destruct H as ((lv & g & T) & t0 & g0 & p & q & A & H). split; [exists lv, g; auto|]. exists t0, g0, p, q. auto.
Qed.
Lemma taken_unused : forall s pl j t0 g p q t u, reachable s -> In (EvJobAdd t0 pl j g p q) (trace s) -> waiting_job pl j (trace s) -> ~ In (FUser u (UPack p)) (stk s t).
Proof.
  intros s pl j t0 g p q t u R A [_ W] J. pose proof (ufok_reachable s R t) as F. rewrite Forall_forall in F. specialize (F _ J). cbn [ufok] in F.
  destruct F as (a & I). apply in_split in I as (l1 & l2 & I). destruct (job_run s R pl j t0 g p q A l1 t u a l2 I) as (lv & g' & T).
  apply W. exists t, lv, g'. rewrite I. apply in_or_app. auto.
Qed.
Lemma no_ce : forall s t l b, (forall pl j k, ~ In (FCheckEnd pl j k) l) -> forall r, adj (fun a f r' => ceok s t a f (r' ++ r)) b l.
Proof.
  intros s t l. induction l as [|f l IH]; intros b N r; cbn [adj]; [exact I|]. split.
  - destruct f; try exact I. destruct (N pl j k). now left.
  - apply IH. intros pl j k J. apply (N pl j k). now right.
Qed.

Definition notce (f : frame) : Prop := match f with FCheckEnd _ _ _ => False | _ => True end.
Lemma notce_in : forall l, Forall notce l -> forall pl j k, ~ In (FCheckEnd pl j k) l.
Proof. intros l F pl j k J. rewrite Forall_forall in F. exact (F _ J). Qed.
Lemma take_top : forall p lv inp x r, qs_above 0 (pl_queues p) -> pool_take p lv inp = (x, r) -> pool_top p lv inp = None -> r = None.
Proof. intros p lv inp x r A H T. rewrite pool_top_take in H by auto. cbv zeta in H. rewrite T in H. now injection H as _ <-. Qed.
Lemma ce_new : forall h t pre h' n, (forall pl, qs_above 0 (pl_queues (h_pools h pl))) -> lstep h t pre h' n ->
  (Forall notce (next_frames n) \/ exists pl j lv g, h_tr h' = EvJobTake t pl j lv g :: h_tr h) /\ match spawned n with Some (c, l) => Forall notce l | None => True end.
Proof.
  intros h t pre h' n Qs L. lstep_cases L; (split; [|try exact I; cbn [spawned]; try (fl_; exact I)]); cbn [next_frames].
  all: try (left; fl_; exact I).
  cbn [atom] in A. destruct (pool_take (h_pools h pl) lv inp) as [x' r] eqn:P. pose proof (take_top _ _ _ _ _ (Qs pl) P) as Q.
  destruct (pool_top _ _ _) as [d|], r as [[j k]|]; injection A as <- <-; cbn [snd]; try (left; fl_; exact I); [|discriminate (Q eq_refl)].
  right. exists pl, j, lv, (hd_group d). reflexivity.
Qed.
Theorem ce_reachable : forall s, reachable s -> forall t, adj (ceok s t) None (stk s t).
Proof.
  apply (adj_rule ceok).
  - intros s d t a f r R J H. eapply ceok_mono; [|exact H]. intros e I. change (trace (mkSt _ _ _)) with (trace s ++ [EvTick (Zpos d)]). apply in_or_app. auto.
  - intros s u t a f r R H. exact H.
  - intros []; cbn; auto.
  - intros s t pre rest h n u a f r R R' E L J H. eapply ceok_mono; [|exact H]. intros e; eapply trace_mono; eauto.
  - intros s t pre rest h n R R' E L Ap. destruct (ce_new _ _ _ _ _ (fun pl => ji_qs _ _ _ (jobs_inv pl s R)) L) as [K Ks]. split; [|split].
    + destruct K as [K|(pl & j & lv & g & X)]; [apply no_ce, notce_in, K|].
      destruct (take_step _ _ _ _ _ _ _ _ _ _ L X) as (_ & y & Jy & ->). cbn [adj ceok app]. repeat split.
      * exists lv, g. unfold trace. cbn [hp]. rewrite X. cbn [rev]. apply in_or_app. cbn. auto.
      * assert (W : waiting_job pl j (trace s)).
        { assert (X' : trace (mkSt h (set_next (stk s) t n rest) None) = trace s ++ [EvJobTake t pl j lv g]) by (unfold trace; cbn [hp]; rewrite X; reflexivity).
          exact (proj1 (job_rules_hold _ R' _ _ [] X')). }
        pose proof W as W'. apply (rd_waiting s pl j R) in W as (x & J & N).
        assert (y = x) as -> by (eapply in_nodup; eauto; apply (ji_nodup _ _ _ (jobs_inv pl s R))).
        pose proof (tab_inv pl s R) as T. rewrite Forall_forall in T. destruct (T _ J) as (t' & g' & p' & q' & A' & _ & [C|C]); [contradiction|].
        exists t', g', p', q'. repeat split; auto; [eapply trace_mono; eauto|]. intros u Ju.
        apply (taken_unused s pl j t' g' p' q' t u R A' W'). rewrite E. apply in_or_app. auto.
    + destruct rest as [|g r]; auto. intros H. eapply ceok_mono; [|exact H]. intros e; eapply trace_mono; eauto.
    + destruct (spawned n) as [[c cfs]|] eqn:Sp; auto. pose proof (no_ce (mkSt h (set_next (stk s) t n rest) None) c cfs None (notce_in _ Ks) []) as N.
      eapply adj_impl; [|exact N]. intros b f r _ H. cbn beta in H. now rewrite app_nil_r in H.
Qed.

Lemma taker_unique : forall s pl j t lv g t' lv' g', reachable s -> In (EvJobTake t pl j lv g) (trace s) -> In (EvJobTake t' pl j lv' g') (trace s) -> t' = t.
Proof.
  intros s pl j t lv g t' lv' g' R. pose proof (ThmPool.taken_once s R) as J. revert J. generalize (trace s). clear R s.
  induction l as [|e l IH] using rev_ind; [intros _ []|]. intros J. apply each_snoc in J as [J K]. rewrite !in_snoc. intros [A|A] [B|B]; auto.
  - subst e. destruct K as [_ K]. destruct K. exists t, lv, g. exact A.
  - subst e. destruct K as [_ K]. destruct K. exists t', lv', g'. exact B.
  - congruence.
Qed.
(** When a worker has executed the job and is about to remove it, the function has finished. *)
Theorem end_finished : forall s, reachable s -> at_each (fun tr e => match e with
  | EvJobEnd t pl j => (exists lv g, In (EvJobTake t pl j lv g) tr) /\ exists t0 g p q, In (EvJobAdd t0 pl j g p q) tr /\ idle_fun p tr | _ => True end) (trace s).
Proof.
  apply (event_rule reachable); auto.
  intros s t pre rest h n e0 R U E L X.
  assert (K : forall t' pl j, e0 = EvJobEnd t' pl j -> t' = t /\ exists k, pre = [FCheckEnd pl j k]).
  { intros t' pl0 j0 ->. clear E. ev_cases L X. injection X as <- -> ->. split; eauto. }
  destruct e0; auto. destruct (K _ _ _ eq_refl) as (-> & k & ->). clear K.
  pose proof (ce_reachable s R t) as C. rewrite E in C. cbn [app adj] in C. destruct C as [((lv & g & T) & t1 & g1 & p & q & A & _ & N) _].
  split; [eauto|]. exists t1, g1, p, q. split; auto. intros (v & u & a & B).
  destruct (fun_frame s R v u a p B) as [F|F]; auto.
  assert (v = t) as ->.
  { apply in_split in B as (l1 & l2 & B). destruct (job_run s R pl j t1 g1 p q A l1 v u a l2 B) as (lv' & g' & T').
    eapply taker_unique; eauto. rewrite B. apply in_or_app. eauto. }
  rewrite E in F. destruct F as [F|F]; [discriminate F|]. elim (N u F).
Qed.

(** A worker removes the job it has executed only after that. *)
Definition clok (tr : list event) (t : tid) (f : frame) : Prop :=
  match f with FPClr pl j false | FPClr1 pl j false => In (EvJobEnd t pl j) tr | _ => True end.
Lemma clok_app : forall tr l t f, clok tr t f -> clok (tr ++ l) t f.
Proof. intros tr l t f. destruct f; cbn; auto; destruct chk; auto; intros; apply in_or_app; auto. Qed.
Lemma clok_reachable : forall s, reachable s -> forall t, Forall (clok (trace s) t) (stk s t).
Proof.
  apply (frame_rule reachable (fun h => clok (tr_of h))); try exact I; auto.
  - intros s d u f R _ H. unfold tr_of in *. hs. cbn [rev]. now apply clok_app.
  - intros s t pre rest h n u f R F E L _ J H. unfold tr_of in *. destruct (lstep_tr _ _ _ _ _ L) as [X|[e0 X]]; rewrite X; auto. cbn [rev]. now apply clok_app.
  - intros s t pre rest h n R E L Fp _. destruct (lstep_tr' _ _ _ _ _ L) as [l Et]. rewrite Et.
    assert (Fp' : Forall (clok (trace s ++ l) t) pre) by (eapply Forall_impl; [|exact Fp]; intros; now apply clok_app). clear Fp.
    lstep_cases L; (split; [|try exact I; cbn [spawned]; try (fl_; exact I)]); cbn [next_frames];
      inversion Fp' as [|? ? Fp1 Fp2]; subst; fl_; try exact I; cbn [clok] in *; eauto.
  rewrite <- Et. cbn [atom] in A. injection A as <- _. unfold tr_of. hs. cbn [rev]. apply in_or_app. right. now left.
Qed.
Theorem erased_finished : forall s, reachable s -> at_each (fun tr e => match e with
  | EvJobErase t pl js => forall j, In j js -> taken pl j tr -> In (EvJobEnd t pl j) tr | _ => True end) (trace s).
Proof.
  apply (event_rule reachable); auto.
  intros s t pre rest h n e0 R U E L X. pose proof (clok_reachable s R t) as F. rewrite E in F. apply Forall_app in F as [F _].
  destruct e0; auto. intros j Jj T.
  assert (K : t0 = t /\ exists chk x, pre = [FPClr1 pl j chk] /\ (chk = true -> In (j, x) (pl_jobs (h_pools (hp s) pl)) /\ jb_callable x <> TNull)).
  { clear E F. rename t0 into t9, pl into pl9, js into js9, j into j9. ev_cases L X. destruct x as [k|]; [|discriminate X]. injection X as X1 X2 X3. subst t9 pl9 js9.
    destruct Jj as [->|[]]. split; auto. cbn [atom] in A. unfold pool_clear in A. destruct (jobs_find _ _) as [y|] eqn:Fi; [|discriminate A].
    exists chk, y. split; auto. intros ->. split; [now apply find_in|]. intros N. rewrite N in A. discriminate A. }
  destruct K as (-> & chk & x & -> & C). inversion F as [|? ? F1 _]; subst. cbn [clok] in F1. destruct chk; auto.
  destruct (C eq_refl) as [C1 C2]. elim C2. apply (ji_job _ _ _ (jobs_inv pl s R) _ _ C1). exact T.
Qed.
