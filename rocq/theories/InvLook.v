(** * InvLook: a worker looks into the queue when it starts a check. *)
From Verif Require Import Types Core State Ops Code Machine Base Spec SpecPool SpecCheck SpecWork SpecServe SpecOvertake Rules InvCtx InvQueue InvStack InvRefs InvAff InvTop InvSleep Events Replay SpecState SpecApi SpecWait Calls CallLoc Contract ContractLib ThmSleep ThmApi ThmRegistry InvWork InvServe ThmCheck.
From Verif Require OwnWhere.

Definition about (s : st) (n : tid) (pl lv : nat) : Prop := exists f r, stk s n = f :: r /\ checking pl lv f = true.

Lemma check_step : forall s n i pl lv f r h nx inp, reachable s -> serving n i s -> checking pl lv f = true -> runs (code f) (hp s) n inp h nx ->
  (exists f' q, next_frames nx ++ r = f' :: q /\ checking pl lv f' = true) \/
  exists e, h_tr h = e :: h_tr (hp s) /\ looks_by n pl lv e = true.
Proof.
  intros s n9 i9 pl9 lv9 f r h nx inp R [Q Qe] C Ru.
  assert (Lc : h_loc (hp s) n9 = Some i9) by (rewrite (rd_loc _ R); exact Q).
  assert (Ne : cx_exit (h_ctxs (hp s) i9) = false) by (destruct (cx_exit (h_ctxs (hp s) i9)) eqn:X; auto; apply (rd_exit _ R) in X; contradiction).
  destruct f; try discriminate C; [destruct k; try discriminate C| | |]; cbn [checking is_check] in C;
    apply andb_prop in C as [C1 C2]; apply Nat.eqb_eq in C1, C2; subst; code_cases Ru; cbn [next_frames app].
  1, 3: left; eexists _, _; split; [reflexivity|]; cbn [checking]; now rewrite !Nat.eqb_refl.
  - cbn [atom] in A. op_unfold A. rewrite Lc in A. brki A; try discriminate A. injection A as _ <-. rewrite Ne.
    left. eexists _, _. split; [reflexivity|]. cbn [checking]. now rewrite !Nat.eqb_refl.
  - right. cbn [atom] in A. brki A; try discriminate A; injection A as <- <-; eexists; (split; [reflexivity|]); cbn [looks_by]; now rewrite !Nat.eqb_refl.
Qed.

Lemma about_step : forall s l s1 n i pl lv, reachable s -> serving n i s -> step s l = Some s1 -> ubs s1 = None -> about s n pl lv ->
  about s1 n pl lv \/ exists e, trace s1 = trace s ++ [e] /\ looks_by n pl lv e = true.
Proof.
  intros s l s1 n9 i9 pl9 lv9 R Q St U (f & r & E9 & C).
  destruct (step_move s l s1 St U) as (_ & [(d & -> & Ek & Et)|(u & pre & rest & h & nx & M & E & L & ->)]).
  - left. exists f, r. now rewrite Ek.
  - destruct (Nat.eq_dec u n9) as [->|Nu].
    + assert (Ek : set_next (stk s) n9 nx rest n9 = next_frames nx ++ rest).
      { destruct nx as [fs|c cfs fs]; cbn [set_next next_frames]; now rewrite upd_same. }
      rewrite E9 in E.
      assert (X : exists inp, pre = [f] /\ rest = r /\ runs (code f) (hp s) n9 inp h nx).
      { destruct L as [c u fin|v u fin|e u fin|inp f0 h' n Ru|inp e g0 h' n Ru|x c]; cbn in E; injection E as ? E; subst; try discriminate C. exists inp. auto. }
      destruct X as (inp & -> & -> & Ru).
      destruct (check_step s n9 i9 pl9 lv9 f r h nx inp R Q C Ru) as [(f' & q & X & C')|(e & X & Le)].
      * left. exists f', q. cbn [stk]. now rewrite Ek.
      * right. exists e. split; auto. unfold trace. cbn [hp]. now rewrite X.
    + left. exists f, r. split; auto. cbn [stk]. destruct nx as [fs|c cfs fs]; cbn [set_next].
      * now rewrite upd_other by congruence.
      * rewrite upd_other by congruence. rewrite upd_other; auto. pose proof (spawn_not s u pre rest h c cfs fs n9 f r R E L E9). congruence.
Qed.
Lemma started_about : forall s l s1 n i pl lv t, reachable s -> serving n i s -> step s l = Some s1 -> ubs s1 = None ->
  trace s1 = trace s ++ [EvStart t i (TCheck pl lv)] -> about s1 n pl lv.
Proof.
  intros s l s1 n9 i9 pl9 lv9 t9 R [Q _] St U Tr. pose proof (reachable_step _ _ _ R St) as R1.
  destruct (step_move s l s1 St U) as (_ & [(d & -> & Ek & Et)|(u & pre & rest & h & nx & M & E & L & ->)]).
  - rewrite Et in Tr. apply app_inj_tail in Tr as [_ Tr]. discriminate Tr.
  - assert (X : h_tr h = EvStart t9 i9 (TCheck pl9 lv9) :: h_tr (hp s)).
    { unfold trace in Tr. cbn [hp] in Tr. apply (f_equal (@rev _)) in Tr. now rewrite rev_app_distr, !rev_involutive in Tr. }
    destruct (OwnWhere.start_step _ _ _ _ _ _ _ _ L X) as [-> J].
    destruct (start_next _ R1 (trace s) (EvStart u i9 (TCheck pl9 lv9)) [] Tr) as [At _].
    assert (u = n9).
    { assert (Ow : forall t, attached t (trace s) = Some i9 -> own (hp s) i9 t).
      { intros t A. change (trace s) with (tr_of (hp s)) in A. rewrite (rv_loc _ (r_inv_reachable s R)) in A. now apply (loc_own_reachable s R) in A. }
      apply Ow in At as [_ At], Q as [_ Q]. congruence. }
    subst u. assert (C : checking pl9 lv9 (FRun (TCheck pl9 lv9)) = true) by (cbn; now rewrite !Nat.eqb_refl).
    destruct (top_frame _ n9 (FRun (TCheck pl9 lv9)) pl9 lv9 R1) as (r & Er); auto.
    + cbn [stk]. destruct nx as [fs|c cfs fs]; cbn [set_next next_frames] in J |- *; rewrite upd_same; apply in_or_app; auto.
    + exists (FRun (TCheck pl9 lv9)), r. auto.
Qed.
Theorem start_looks : forall ls s n i pl lv s', reachable s -> all_along (serving n i) s ls -> run s ls = Some s' -> ubs s' = None ->
  about s n pl lv \/ (exists t, since s s' (EvStart t i (TCheck pl lv))) ->
  (exists e, since s s' e /\ looks_by n pl lv e = true) \/ about s' n pl lv.
Proof.
  induction ls as [|l ls IH]; intros s n i pl lv s' R Q Rn U H.
  - cbn in Rn. injection Rn as <-. destruct H as [H|(t & a & b & H)]; [now right|]. exfalso.
    apply (f_equal (@length _)) in H. rewrite !app_length in H. cbn in H. lia.
  - pose proof Rn as Rn0. cbn in Rn, Q. destruct (step s l) as [s1|] eqn:St; [|discriminate Rn]. destruct Q as [Q0 Q].
    pose proof (run_ub _ _ _ Rn U) as U1. pose proof (reachable_step _ _ _ R St) as R1.
    destruct (run_grows _ _ _ Rn) as (es & Es).
    assert (One : trace s1 = trace s \/ exists e, trace s1 = trace s ++ [e]).
    { destruct (step_move s l s1 St U1) as (_ & [(d & -> & Ek & Et)|(u & pre & rest & h & nx & M & E & L & ->)]); [eauto|].
      unfold trace. cbn [hp]. destruct (lstep_tr _ _ _ _ _ L) as [X|(e & X)]; rewrite X; [now left|right; exists e; reflexivity]. }
    assert (Up : forall e, since s1 s' e -> since s s' e).
    { intros e (a & b & X). destruct One as [O|(e1 & O)]; [exists a, b; now rewrite X, O|]. exists (e1 :: a), b. rewrite X, O, <- app_assoc. reflexivity. }
    assert (Fin : about s1 n pl lv \/ (exists t, since s1 s' (EvStart t i (TCheck pl lv))) -> (exists e, since s s' e /\ looks_by n pl lv e = true) \/ about s' n pl lv).
    { intros K. destruct (IH s1 n i pl lv s' R1 Q Rn U K) as [(e & X & Y)|X]; [left; exists e; auto|now right]. }
    destruct H as [H|(t & a & b & H)].
    + destruct (about_step s l s1 n i pl lv R Q0 St U1 H) as [X|(e & X & Le)]; [auto|]. left. exists e. split; auto.
      exists [], es. rewrite Es, X, <- app_assoc. reflexivity.
    + destruct One as [O|(e1 & O)].
      * apply Fin. right. exists t, a, b. now rewrite O.
      * rewrite Es, O, <- app_assoc in H. apply app_inv_head in H. destruct a as [|a0 a]; cbn in H; injection H as -> H.
        -- apply Fin. left. exact (started_about s l s1 n i pl lv t R Q0 St U1 O).
        -- apply Fin. right. exists t, a, b. now rewrite Es, H.
Qed.
Theorem round : forall s n i pl lv j g ls s' r, reachable s -> waiting_job pl j (trace s) -> group_of pl j (trace s) = Some g -> lv <= g_level g ->
  In (lv, (n, i)) (workers_of pl (trace s)) -> In i (reg_ids (trace s)) -> lock_holder (LPool pl) (trace s) = None ->
  all_along (serving n i) s ls -> run s ls = Some s' -> ubs s' = None -> started i (trace s') = accepted i (trace s) ++ r ->
  (exists e, since s s' e /\ looks_by n pl lv e = true) \/ exists f r, stk s' n = f :: r /\ checking pl lv f = true.
Proof.
  intros s n i pl lv j g ls s' r R W G Lv Wk Rg Lk Q Rn U Sr.
  assert (Qs : serving n i s) by (destruct ls; apply Q).
  apply (start_looks ls s n i pl lv s' R Q Rn U).
  destruct (job_check_free s pl j g lv n i R W G Lv Wk Rg (proj2 Qs) Lk) as [H|[_ H]]; [right|now left].
  destruct (run_grows _ _ _ Rn) as (es & Es).
  assert (I : In (TCheck pl lv) (started i es)).
  { destruct (fifo s R i) as (p & F). unfold queued in H. rewrite F, skipn_app, skipn_all, Nat.sub_diag in H. cbn [skipn app] in H.
    rewrite F, Es in Sr. unfold started in Sr at 1. rewrite flat_map_app, <- app_assoc in Sr. fold (started i (trace s)) in Sr. apply app_inv_head in Sr.
    fold (started i es) in Sr. rewrite Sr. apply in_or_app. now left. }
  unfold started in I. apply in_flat_map in I as (e & Ie & Ik). destruct e; try destruct Ik.
  destruct (i0 =? i) eqn:X; [|destruct Ik]. apply Nat.eqb_eq in X. subst. destruct Ik as [->|[]].
  exists t. apply in_split in Ie as (a & b & ->). exists a, b. exact Es.
Qed.
