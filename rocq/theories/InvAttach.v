(** * InvAttach: every continuation is attached once. *)
From Verif Require Import Types Core State Ops Code Machine Base Spec SpecOwn SpecFire Rules Events Calls InvCtx InvBound InvStack InvRefs Contract Count Replay ReplayObj InvCv OwnProm OwnDead InvPack InvFire.
From Verif Require OwnRun.

Definition att (q : sid) (tr : list event) : Prop := exists t p cb b, In (EvAttach t p cb) tr /\ cb_task cb = TPack q b.
Definition made_for (f : frame) (p : sid) (cb : callback) : Prop :=
  match f with
  | FThen2 p' cb' _ => p' = p /\ cb' = cb
  | FWAtt w kd i idx p' q _ => p' = p /\ cb = mkCb i LOther (TPack q (wbody kd w idx p))
  | _ => False
  end.
Lemma attach_frame : forall h t pre h' n u p cb, lstep h t pre h' n -> h_tr h' = EvAttach u p cb :: h_tr h -> u = t /\ exists f, pre = [f] /\ made_for f p cb.
Proof.
  intros h t pre h' n u0 p cb L X. ev_cases L X; injection X as E1 E2 E3; subst; (split; [auto|]); eexists; (split; [reflexivity|]); cbn; auto.
Qed.
Definition packed (tr : list event) (t : tid) (f : frame) : Prop :=
  match f with
  | FThen2 _ cb q => (exists b, cb_task cb = TPack q b) /\ ~ att q tr
  | FWAtt _ _ _ _ _ q _ => ~ att q tr
  | _ => True
  end.
Lemma att_snoc : forall q tr e, att q (tr ++ [e]) -> att q tr \/ exists t p cb b, e = EvAttach t p cb /\ cb_task cb = TPack q b.
Proof.
  intros q tr e (t & p & cb & b & J & K). apply in_app_or in J as [J|[J|[]]]; [left|right]; subst; repeat eexists; eauto.
Qed.
Lemma lstep_att : forall h t pre h' n q, lstep h t pre h' n -> att q (tr_of h') ->
  att q (tr_of h) \/ exists f p cb b, pre = [f] /\ made_for f p cb /\ cb_task cb = TPack q b.
Proof.
  intros h t pre h' n q L H. destruct (lstep_tr _ _ _ _ _ L) as [X|[e X]]; unfold tr_of in *; rewrite X in H; auto.
  cbn [rev] in H. apply att_snoc in H as [H|(u & p & cb & b & -> & K)]; auto. right.
  destruct (attach_frame _ _ _ _ _ _ _ _ L X) as (_ & f & -> & M). repeat eexists; eauto.
Qed.
Lemma made_for_has : forall f p cb q b, made_for f p cb -> cb_task cb = TPack q b -> frame_has q f = true.
Proof.
  intros f p cb q b M K. destruct f; try contradiction; cbn [made_for] in M; destruct M as [-> M]; subst; cbn [frame_has].
  - unfold has_cb. rewrite K. cbn. now rewrite Nat.eqb_refl.
  - cbn in K. injection K as -> _. now rewrite Nat.eqb_refl.
Qed.
Lemma att_bound : forall s, reachable s -> forall q, att q (trace s) -> q < h_nfs (hp s).
Proof.
  apply (reachable_ind'' (fun s => forall q, att q (trace s) -> q < h_nfs (hp s))).
  - intros q (? & ? & ? & ? & [] & _).
  - intros s s' R R' IH U Tr q H. destruct Tr as [d|t pre rest u E L|t pre rest h n E L].
    + unfold trace, tr_of in H. cbn [hp] in *. hs. cbn [rev] in H. apply att_snoc in H as [H|(? & ? & ? & ? & X & _)]; [now apply IH|discriminate X].
    + now apply IH.
    + cbn [hp]. pose proof (nfs_mono _ _ _ _ _ L) as N. apply (lstep_att _ _ _ _ _ _ L) in H as [H|(f & p & cb & b & -> & M & K)]; [apply IH in H; lia|].
      pose proof (b_inv_reachable s R) as (_ & _ & Fb). specialize (Fb t). rewrite E in Fb. inversion Fb as [|? ? F1 F2]; subst.
      destruct f; try contradiction; cbn [made_for] in M; destruct M as [-> M]; subst; cbn in F1.
      * destruct F1 as (_ & F1 & _). unfold cbb in F1. rewrite K in F1. cbn in F1. destruct F1 as [F1 _]. unfold bof in F1. cbn in F1. lia.
      * cbn in K. injection K as -> _. unfold bof in F1. cbn in F1. lia.
Qed.
Theorem packed_reachable : forall s, reachable s -> forall t, Forall (packed (trace s) t) (stk s t).
Proof.
  apply (frame_rule reachable (fun h => packed (tr_of h))); try exact Logic.I; auto.
  - intros s d u f R _ H. unfold tr_of in *. hs. cbn [rev].
    assert (N : forall q, att q (rev (h_tr (hp s)) ++ [EvTick (Zpos d)]) -> att q (rev (h_tr (hp s)))) by (intros q A; apply att_snoc in A as [A|(? & ? & ? & ? & X & _)]; [auto|discriminate X]).
    destruct f; cbn in *; auto. destruct H; split; auto.
  - intros s t pre rest h n u f R Fa E L Hu Jf H.
    assert (N : forall q, frame_has q f = true -> att q (tr_of h) -> att q (tr_of (hp s))).
    { intros q Fq A. apply (lstep_att _ _ _ _ _ _ L) in A as [A|(g & p & cb & b & -> & M & K)]; auto. exfalso.
      apply (own_two s q t [g] rest g u f R E); auto; [now left|eapply made_for_has; eauto|]. destruct (Nat.eqb_spec u t); auto. }
    destruct f; cbn [packed] in *; auto.
    + destruct H as [(b & K) H]. split; [eauto|]. intros A. apply H, N; auto. cbn. unfold has_cb. rewrite K. cbn. now rewrite Nat.eqb_refl.
    + intros A. apply H, N; auto. cbn. now rewrite Nat.eqb_refl.
  - intros s t pre rest h n R E L Fp _.
    assert (N : forall T (o : op T) inp h' x, atom (hp s) t o inp = AOk h' x -> match o with ONewState _ _ => True | _ => False end -> ~ att (h_nfs (hp s)) (tr_of h')).
    { intros T o inp h' x A M H. apply atom_event in A. destruct o; try contradiction.
      unfold tr_of in H. rewrite A in H. cbn [op_event rev] in H. apply att_snoc in H as [H|(? & ? & ? & ? & X & _)]; [|discriminate X].
      apply (att_bound s R) in H. lia. }
    lstep_cases L; (split; [|try exact Logic.I; cbn [spawned]; try (fl_; exact Logic.I)]); cbn [next_frames]; fl_; try exact Logic.I; cbn [packed].
    + split; [eexists; reflexivity|]. pose proof (N _ _ _ _ _ A Logic.I) as M. cbn in A. now inversion A; subst.
    + pose proof (N _ _ _ _ _ A Logic.I) as M. cbn in A. now inversion A; subst.
Qed.

Theorem attach_new : forall s, reachable s ->
  at_each (fun tr e => match e with EvAttach _ _ cb => exists q b, cb_task cb = TPack q b /\ ~ att q tr | _ => True end) (trace s).
Proof.
  apply (event_rule reachable); auto.
  intros s t pre rest h n e R U E L X. destruct e; auto.
  destruct (attach_frame _ _ _ _ _ _ _ _ L X) as (_ & f & -> & M).
  pose proof (packed_reachable s R t) as H. rewrite E in H. inversion H as [|? ? F _]; subst.
  destruct f; try contradiction; cbn [made_for packed] in *; destruct M as [-> M]; subst.
  - destruct F as [[b K] F]. eauto.
  - eexists. eexists. split; [reflexivity|exact F].
Qed.
Theorem attach_once : forall s, reachable s -> forall tr1 t p cb tr2 t' p' cb' tr3,
  trace s = tr1 ++ EvAttach t p cb :: tr2 ++ EvAttach t' p' cb' :: tr3 -> cb <> cb'.
Proof.
  intros s R tr1 t p cb tr2 t' p' cb' tr3 E <-. pose proof (attach_new s R) as A.
  specialize (A (tr1 ++ EvAttach t p cb :: tr2) (EvAttach t' p' cb) tr3). rewrite <- app_assoc in A. specialize (A E). cbn in A.
  destruct A as (q & b & K & N). apply N. exists t, p, cb, b. split; auto. apply in_or_app. right. now left.
Qed.
Theorem fire_once : forall s, reachable s -> forall tr1 t p cb tr2 t' p' cb' tr3,
  trace s = tr1 ++ EvFire t p cb :: tr2 ++ EvFire t' p' cb' :: tr3 -> cb <> cb'.
Proof.
  intros s R tr1 t p cb tr2 t' p' cb' tr3 E <-. pose proof (fire_after s R) as A. specialize (A _ _ _ E). cbn in A. destruct A as (_ & u & J).
  apply in_split in J as (l1 & l2 & J). subst tr1. rewrite <- app_assoc in E. cbn [app] in E.
  pose proof (attach_new s R _ _ _ E) as A. cbn in A. destruct A as (q & b & K & _).
  change (EvAttach u p cb :: l2 ++ EvFire t p cb :: tr2 ++ EvFire t' p' cb :: tr3) with ((EvAttach u p cb :: l2) ++ EvFire t p cb :: tr2 ++ EvFire t' p' cb :: tr3) in E.
  rewrite app_assoc in E. exact (OwnRun.fire_once s R _ _ _ _ _ _ _ _ _ _ _ _ E K K).
Qed.
