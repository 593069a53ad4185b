(** * Calm: running and destroying a closure, apart from the API calls made by user
    code, never waits and never processes tasks. *)
From Verif Require Import Types Core State Ops Code Machine Base Spec SpecWait Rules Events InvStack Calls Contract.

Definition calm_lk (c : lk) : bool := match c with LkDisc | LkFire _ _ _ => true | _ => false end.
Definition calm_wa (a : wafter) : bool := match a with WaPack _ => true | WaRet => false end.
Definition calm (f : frame) : bool :=
  match f with
  | FRun _ | FUStart _ _ _ | FUser _ _ | FCheck _ _ | FCheck1 _ _ | FCheck2 _ _ | FCheckEnd _ _ _ | FPackGuard _ | FPackVal _
  | FWIn _ _ _ _ _ | FDrop _ | FDestroy _ | FPromDtor _ | FWRel _ | FSet _ _ | FNoexcept | FSet1 _ _ | FSetFail _ | FThrow _
  | FNotify _ _ | FNotifyL _ | FSet2 _ _ | FFire _ _ _ | FRel _ | FPUnl _ | FPClr _ _ _ | FPClr1 _ _ _ | FSwallow | FUb _ => true
  | FFire1 _ _ c | FLaunch _ _ _ c | FLaunch1 _ _ _ c | FInvoke _ _ c | FPush _ _ c | FDisp _ _ c => calm_lk c
  | FWMark _ a | FWUnl _ a => calm_wa a
  | _ => false
  end.
Definition calms (fs : list frame) : bool := forallb calm fs.
Lemma calms_app : forall a b, calms (a ++ b) = calms a && calms b.
Proof. intros. apply forallb_app. Qed.
Lemma calm_destroy : forall ks, calms (destroy ks) = true.
Proof. intros []; reflexivity. Qed.
Lemma calm_lresume : forall c ok b, calm_lk c = true -> calms (lresume c ok b) = true.
Proof. intros [] ok [] H; try discriminate H; reflexivity. Qed.

Lemma calm_code : forall f h t inp h' n, calm f = true -> runs (code f) h t inp h' n ->
  calms (next_frames n) = true /\ filter sched (new_acts t h h') = [].
Proof.
  intros f h t inp h' n C R. split.
  - destruct f; try discriminate C; code_cases R; cbn [next_frames]; rewrite ?calms_app, ?calm_destroy; cbn [calm] in C; try reflexivity;
      repeat match goal with |- context [match ?x with _ => _ end] => destruct x end; cbn; rewrite ?calm_destroy, ?calm_lresume; auto; try (rewrite C; reflexivity);
      try (destruct a; [discriminate C|reflexivity]).
  - destruct f; try discriminate C; code_cases R; rewrite (new_acts_op _ _ _ _ _ _ _ A); cbn [op_event]; try reflexivity;
      repeat match goal with |- context [match ?x with _ => _ end] =>
        lazymatch x with context [match _ with _ => _ end] => fail | _ => destruct x end end; try reflexivity.
Qed.
Lemma calm_catch : forall f e h t inp h' n, calm f = true -> runs (catch f e) h t inp h' n ->
  calms (next_frames n) = true /\ filter sched (new_acts t h h') = [].
Proof.
  intros f e h t inp h' n C R. split.
  - destruct f; try discriminate C; code_cases R; cbn [next_frames]; rewrite ?calms_app, ?calm_destroy; reflexivity.
  - destruct f; try discriminate C; code_cases R; rewrite (new_acts_op _ _ _ _ _ _ _ A); cbn [op_event]; try reflexivity; destruct (by_thread _ _); reflexivity.
Qed.
Lemma calm_top : forall h t h' n above r, top_step h t h' n above r -> calms above = true ->
  calms (next_frames n ++ r) = true /\ filter sched (new_acts t h h') = [].
Proof.
  intros h t h' n above r T C. inversion T; subst; cbn [calms forallb] in C.
  - apply andb_true_iff in C as [_ C]. split; [destruct fin; cbn; exact C|].
    erewrite (new_acts_one t h) by reflexivity. unfold by_thread. cbn. now rewrite Nat.eqb_refl.
  - apply andb_true_iff in C as [_ C]. split; [exact C|].
    erewrite (new_acts_one t h) by reflexivity. unfold by_thread. cbn. now rewrite Nat.eqb_refl.
  - apply andb_true_iff in C as [C1 C2]. destruct (calm_code _ _ _ _ _ _ C1 H) as [A B]. split; auto.
    rewrite calms_app, A. exact C2.
  - apply andb_true_iff in C as [_ C]. apply andb_true_iff in C as [C1 C2].
    destruct (calm_catch _ _ _ _ _ _ _ C1 H) as [A B]. split; auto. rewrite calms_app, A. exact C2.
Qed.

(** A step of the stack [x ++ bot], where [x] runs a closure. *)
Lemma top_calm : forall h t h' n x bot r, top_step h t h' n (x ++ bot) r -> calms x = true -> x <> [] ->
  (exists x', r = x' ++ bot /\ top_step h t h' n x x') \/
  (exists e g bot' inp, x = [FThrow e] /\ bot = g :: bot' /\ r = bot' /\ runs (catch g e) h t inp h' n).
Proof.
  intros h t h' n x bot r T C N. destruct x as [|f x]; [congruence|]. cbn [app] in T.
  inversion T as [v u fin r1 Eh En X|e u fin r1 Eh En X|inp f1 r1 Ru X|inp e g r1 Ru X]; subst.
  - left. exists x. split; auto. now eapply ts_ret.
  - left. exists x. split; auto. now eapply ts_throw.
  - left. exists x. split; auto. now eapply ts_code; eauto.
  - destruct x as [|b x]; cbn [app] in *.
    + right. exists e, g, r, inp. auto.
    + left. match goal with H : _ :: _ = _ :: _ |- _ => injection H as -> -> end. exists x. split; auto. now eapply ts_catch; eauto.
Qed.
