(** * InvRoot: the cause of a future without result (C85). *)
From Verif Require Import Types Core State Ops Code Machine Base Spec SpecKind SpecOwn SpecPack SpecPool SpecWhen SpecBegun SpecRest SpecRestWhen SpecState SpecStall SpecRoot Rules Events InvCtx InvBound InvStack InvRefs Contract Count Replay ReplayObj InvCv InvKind Adj Own OwnRefs OwnProm OwnDead InvPack InvTab InvWhen OwnJob InvFire InvAttach.
From Verif Require OwnTask InvHook InvRest InvRestWhen InvStall ThmCheck.

(** A continuation is attached to an older state. *)
Definition later (t : tid) (f : frame) : Prop :=
  match f with
  | FThen2 p cb q => p < q /\ exists b, cb_task cb = TPack q b
  | FWAtt _ _ _ _ p q _ => p < q
  | _ => True
  end.
Lemma later_reachable : forall s, reachable s -> forall t, Forall (later t) (stk s t).
Proof.
  apply (frame_rule reachable (fun _ => later)); try exact Logic.I; auto.
  intros s t9 pre rest h n R E L Fp _.
  pose proof (b_inv_reachable s R) as (_ & _ & Fb). specialize (Fb t9). rewrite E in Fb. apply Forall_app in Fb as [Fb _].
  lstep_cases L; (split; [|try exact Logic.I; cbn [spawned]; try (fl_; exact Logic.I)]); cbn [next_frames]; fl_; try exact Logic.I; cbn [later].
  all: inversion Fb as [|? ? F1 _]; subst; cbn in F1; unfold bof in F1; cbn in A; inversion A; subst; cbn in F1.
  - split; [lia|eexists; reflexivity].
  - lia.
Qed.
Theorem attached_later : forall s, reachable s -> at_each (fun tr e => match e with
  | EvAttach _ r cb => exists q b, cb_task cb = TPack q b /\ r < q | _ => True end) (trace s).
Proof.
  apply (event_rule reachable); auto.
  intros s t pre rest h n e R U E L X. destruct e; auto.
  destruct (attach_frame _ _ _ _ _ _ _ _ L X) as (_ & f & -> & M).
  pose proof (later_reachable s R t) as H. rewrite E in H. inversion H as [|? ? F _]; subst.
  destruct f; try contradiction; cbn [made_for later] in *; destruct M as [-> M]; subst.
  - destruct F as [F [b K]]. eauto.
  - eexists. eexists. split; [reflexivity|exact F].
Qed.
Lemma has_later : forall s r cb p, reachable s -> In cb (fs_cbs (h_fsts (hp s) r)) -> has_cb p cb = true -> r < p.
Proof.
  intros s r cb p R J H. destruct (InvRestWhen.attached_now s r cb R J) as [_ (t & At)]. apply in_split in At as (l1 & l2 & El).
  destruct (attached_later s R _ _ _ El) as (q & b & Ec & Lt). destruct (InvHook.attached_body s R _ _ _ El) as (q' & b' & Ec' & Ab & _).
  rewrite Ec in Ec'. injection Ec' as <- <-. unfold has_cb in H. rewrite Ec in H. cbn [has] in H.
  destruct (Nat.eqb_spec q p) as [->|_]; auto. destruct Ab as [(? & ? & ? & ->)|([|] & ? & ? & ->)]; discriminate H.
Qed.
Lemma some_in : forall l (ins : list sid), all_some l = Some ins -> forall r, In r ins -> In (Some r) l.
Proof.
  induction l as [|[x|] l IH]; cbn [all_some]; intros ins H r J; try discriminate H.
  - injection H as <-. destruct J.
  - destruct (all_some l) as [y|]; [|discriminate H]. injection H as <-. destruct J as [->|J]; [now left|right; eauto].
Qed.
Theorem inputs_older : forall s, reachable s -> at_each (fun tr e => match e with
  | EvWhen _ _ _ p ins => forall r, In r ins -> r < p | _ => True end) (trace s).
Proof.
  apply (event_rule reachable); auto.
  intros s t9 pre rest h n e R U E L X. destruct e; auto.
  pose proof (b_inv_reachable s R) as (Hb & _ & _).
  ev_cases L X.
  all: destruct (all_some _) as [ins'|] eqn:Q in X; [|discriminate X]; injection X as E1 E2 E3 E4 E5; subst; intros r J;
    pose proof (some_in _ _ Q r J) as K; apply in_map_iff in K as (m & K & _); pose proof (hb_hnd _ _ Hb m) as B; rewrite K in B; exact B.
Qed.
Lemma hangs_older : forall s p r, reachable s -> hangs_on s p r -> r < p.
Proof.
  intros s p r R (_ & cb & J & [H|(a & w & ins & i & (t & C) & N & _)]); [eapply has_later; eauto|].
  apply in_split in C as (l1 & l2 & El). apply (inputs_older s R _ _ _ El). eapply nth_error_In; eauto.
Qed.
Lemma one_cause : forall s p x, reachable s -> at_rest s -> purpose_is (trace s) p x -> ~ is_ready p (trace s) ->
  of_promise s p \/ (exists pl j, of_job s p pl j) \/ (exists c, in_queue s p c) \/ exists r, hangs_on s p r.
Proof.
  intros s p x R A P N.
  assert (D : x = PuPromise \/ x <> PuPromise) by (destruct x; auto; right; discriminate). destruct D as [->|D]; [now left|].
  destruct (OwnTask.result_owned s p x R P D) as [H|[(t & f & r & E & H)|H]]; [contradiction|exfalso|].
  - assert (J : In f (stk s t)) by (rewrite E; now left). apply A in J. destruct f; try contradiction; discriminate J.
  - destruct H as [(i & k & Al & J & K)|[(r & cb & J & K)|[(pr & K)|[(w & J & K)|[(pl & j & b & J & K)|(t & f & J & K)]]]]].
    + right; right; left. exists i. split; auto. exists k. auto.
    + right; right; right. exists r. split; [eapply InvRestWhen.attached_now; eauto|]. exists cb. auto.
    + left. rewrite (replay_prms pr s R) in K. apply OwnTask.promised_purpose; auto. eapply InvRest.prom_promised; eauto.
    + destruct (InvRest.wmade_reachable s R) as [M1 M2]. destruct (M2 w (M1 w J)) as (t & a & ins & Ev). rewrite K in Ev.
      assert (C : combines (trace s) a w p ins) by (exists t; exact Ev).
      destruct (InvRestWhen.rest_when s a w p ins R A C) as [H|[(c & k & Al & Jk & Rk)|(i & r & cb & Nt & Nr & Jc & Hc)]]; [contradiction| |].
      * right; right; left. exists c. split; auto. exists k. split; auto. right. eauto.
      * right; right; right. exists r. split; auto. exists cb. split; auto. right. eauto 8.
    + right; left. exists pl, j. pose proof (tab_inv pl s R) as F. rewrite Forall_forall in F. destruct (F _ J) as (t & g & a & q & Ev & B & C).
      cbn [fst snd] in *. destruct C as [C|(u & caps & C)]; rewrite C in K; [discriminate K|]. cbn [has] in K.
      assert (Q : p = a \/ p = q) by (destruct (Nat.eqb_spec q p); auto; destruct (Nat.eqb_spec a p); auto; discriminate K).
      split; [|exists t, g, a, q; auto]. destruct (InvRest.no_job_lost s R A _ _ _ _ _ _ Ev) as [W|[H1 H2]]; auto. destruct Q; subst p; contradiction.
    + exfalso. apply A in J. destruct f; try discriminate J; discriminate K.
Qed.
Theorem root : forall s p x, reachable s -> at_rest s -> purpose_is (trace s) p x -> ~ is_ready p (trace s) ->
  exists r, hangs s p r /\ ~ is_ready r (trace s) /\ (of_promise s r \/ (exists pl j, of_job s r pl j) \/ exists c, in_queue s r c).
Proof.
  intros s p x R A. revert x. induction p as [p IH] using lt_wf_ind. intros x P N.
  destruct (one_cause s p x R A P N) as [H|[H|[H|(r & H)]]]; [exists p; split; [constructor|]; auto..|].
  pose proof (hangs_older s p r R H) as Lt.
  assert (Pr : exists y, purpose_is (trace s) r y). { apply InvPack.purpose_ex; auto. pose proof (proj1 (InvKind.purpose_one s R) p x P). lia. }
  destruct Pr as [y Py]. destruct (IH r Lt y Py (proj1 H)) as (q & Hq & Nq & C). exists q. split; [|auto]. econstructor; eauto.
Qed.
Theorem root_stalled : forall s p x, reachable s -> ubs s = None -> at_rest s -> all_stalled s -> purpose_is (trace s) p x -> ~ is_ready p (trace s) ->
  exists r, hangs s p r /\ ~ is_ready r (trace s) /\ (of_promise s r \/ exists pl j, of_job s r pl j /\
    forall g lv n i, group_of pl j (trace s) = Some g -> In (lv, (n, i)) (workers_of pl (trace s)) -> stalled s n i -> g_level g < lv).
Proof.
  intros s p x R U A Sa P N. destruct (root s p x R A P N) as (r & Hr & Nr & [H|[(pl & j & H)|(c & Al & k & J & _)]]); [eauto 6| |].
  - exists r. split; auto. split; auto. right. exists pl, j. split; auto. intros g lv n i G Wk St.
    destruct (Nat.lt_ge_cases (g_level g) lv) as [L|L]; auto. exfalso. destruct (InvStall.stalled_idle s n i R U St) as [E X].
    pose proof (InvStall.rest_check s pl j g lv n i R A (proj1 H) G L Wk (proj1 (proj2 St)) X) as K.
    rewrite (ThmCheck.queued_pending s i R), E in K. destruct K.
  - exfalso. destruct (Sa c Al) as [t St]. destruct (InvStall.stalled_idle s t c R U St) as [E _]. rewrite E in J. destruct J.
Qed.
