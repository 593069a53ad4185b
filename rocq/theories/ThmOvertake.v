(** * ThmOvertake: every look into the queue brings a waiting job forward. *)
From Coq Require Import List Lia Bool Arith. Import ListNotations.
From Verif Require Import Types State Machine Spec SpecPool SpecOrder SpecOvertake Replay ThmRegistry ThmPool InvJobs.

Lemma urgent_level : forall g0 g, urgent g0 g = true -> g_level g0 <= g_level g.
Proof.
  intros g0 g H. unfold urgent in H. apply orb_prop in H as [H|H]; [apply Nat.ltb_lt in H; lia|].
  apply andb_prop in H as [H _]. apply Nat.eqb_eq in H. lia.
Qed.
Lemma urgent_iff : forall g0 g, urgent g0 g = true <-> at_least g g0.
Proof.
  intros g0 g. unfold urgent, at_least. rewrite orb_true_iff, andb_true_iff, Nat.ltb_lt, Nat.eqb_eq, Nat.leb_le. lia.
Qed.
Lemma urgent_trans : forall g0 g1 g2, urgent g0 g1 = true -> at_least g2 g1 -> urgent g0 g2 = true.
Proof. intros g0 g1 g2 A B. apply urgent_iff in A. apply urgent_iff. unfold at_least in *. lia. Qed.

Lemma group_eqb_eq : forall a b, group_eqb a b = true -> a = b.
Proof. intros [a b] [c d]. unfold group_eqb. cbn. intros H. apply andb_prop in H as [X Y]. apply Nat.eqb_eq in X, Y. now subst. Qed.
Lemma entry_refl : forall x, entry_eqb x x = true.
Proof. intros [j [a b]]. unfold entry_eqb, group_eqb. cbn. now rewrite !Nat.eqb_refl. Qed.
Lemma entry_eq : forall x y, entry_eqb x y = true -> x = y.
Proof.
  intros [j g] [j' g']. unfold entry_eqb. cbn. intros H. apply andb_prop in H as [X Y]. apply Nat.eqb_eq in X. apply group_eqb_eq in Y. now subst.
Qed.
Lemma drop_less : forall (f : nat * group -> bool) x l, length (filter f (drop_one x l)) <= length (filter f l).
Proof.
  intros f x l. induction l as [|y l IH]; cbn; auto. destruct (entry_eqb x y); cbn; destruct (f y); cbn; lia.
Qed.
Lemma drop_exact : forall (f : nat * group -> bool) x l, In x l -> f x = true -> S (length (filter f (drop_one x l))) = length (filter f l).
Proof.
  intros f x l. induction l as [|y l IH]; [intros []|]. intros I F. cbn. destruct (entry_eqb x y) eqn:E.
  - apply entry_eq in E. subst y. now rewrite F.
  - destruct I as [->|I]; [rewrite entry_refl in E; discriminate|]. cbn. specialize (IH I F). destruct (f y); cbn; lia.
Qed.

Lemma group_snoc : forall pl j tr e, group_of pl j (tr ++ [e]) =
  match e with
  | EvJobAdd _ pl' j' g _ _ | EvJobRegroup _ pl' j' g => if (pl' =? pl) && (j' =? j) then Some g else group_of pl j tr
  | _ => group_of pl j tr
  end.
Proof.
  intros pl j tr e. unfold group_of. rewrite latest_snoc. destruct e; try reflexivity; destruct ((pl0 =? pl) && _); reflexivity.
Qed.
Lemma group_added : forall pl j tr g, group_of pl j tr = Some g -> at_each job_rules tr -> added pl j tr.
Proof.
  intros pl j tr. induction tr as [|e l IH] using rev_ind; [discriminate|]. intros g G J. rewrite group_snoc in G.
  assert (K : at_each job_rules l) by (intros a x b E; apply (J a x (b ++ [e])); rewrite E, <- app_assoc; reflexivity).
  assert (Up : added pl j l -> added pl j (l ++ [e])) by (intros (t & g1 & p & q & I); exists t, g1, p, q; apply in_or_app; auto).
  destruct e; try (apply Up; eapply IH; eassumption).
  - destruct ((pl0 =? pl) && (j0 =? j)) eqn:E; [|apply Up; eapply IH; eassumption]. apply andb_prop in E as [E1 E2]. apply Nat.eqb_eq in E1, E2. subst.
    unfold added. do 4 eexists. apply in_or_app. right. now left.
  - destruct ((pl0 =? pl) && (j0 =? j)) eqn:E; [|apply Up; eapply IH; eassumption]. apply andb_prop in E as [E1 E2]. apply Nat.eqb_eq in E1, E2. subst.
    destruct (J l _ [] eq_refl) as ((Ij & _) & _). clear - Ij Up.
    apply Up. revert Ij. clear. induction l as [|e l IH] using rev_ind; [intros []|]. unfold jobs_of. rewrite fold_left_app. cbn [fold_left]. fold (jobs_of pl l). intros I.
    assert (H : In j (jobs_of pl l) \/ exists t g p q, e = EvJobAdd t pl j g p q).
    { destruct e; cbn [jobs_step] in I; auto; destruct (Nat.eqb_spec pl0 pl) as [->|]; auto.
      - apply in_app_iff in I as [I|[->|[]]]; eauto 8.
      - apply filter_In in I as [I _]. auto.
      - apply filter_In in I as [I _]. auto. }
    destruct H as [H|(t & g & p & q & ->)]; [destruct (IH H) as (t & g & p & q & X); exists t, g, p, q|exists t, g, p, q]; apply in_or_app; auto. right. now left.
Qed.
Lemma waiting_before : forall pl j tr e, job_rules tr e -> added pl j tr -> waiting_job pl j (tr ++ [e]) -> waiting_job pl j tr.
Proof.
  intros pl j tr e J A [I N]. split; [|intros (t & lv & g & X); apply N; exists t, lv, g; apply in_or_app; auto].
  unfold jobs_of in I. rewrite fold_left_app in I. cbn [fold_left] in I. fold (jobs_of pl tr) in I.
  destruct e; cbn [jobs_step] in I; auto; destruct (Nat.eqb_spec pl0 pl) as [->|]; auto.
  - apply in_app_iff in I as [I|[->|[]]]; auto. destruct J as [_ J]. contradiction.
  - now apply filter_In in I as [I _].
  - now apply filter_In in I as [I _].
Qed.
Lemma cleared_gone : forall pl j tr t js, job_rules tr (EvJobClear t pl js) -> ~ waiting_job pl j (tr ++ [EvJobClear t pl js]).
Proof.
  intros pl j tr t js J [I _]. cbn in J. unfold jobs_of in I. rewrite fold_left_app in I. cbn [fold_left jobs_step] in I. fold (jobs_of pl tr) in I.
  rewrite Nat.eqb_refl, J in I. apply filter_In in I as [I X]. apply negb_true_iff in X.
  assert (Y : existsb (Nat.eqb j) (jobs_of pl tr) = true) by (apply existsb_exists; exists j; split; [exact I|apply Nat.eqb_refl]). congruence.
Qed.

Lemma forward : forall s pl j g0 tr m, reachable s -> trace s = tr ++ m -> waiting_job pl j (trace s) -> keeps pl j g0 tr m ->
  (exists g, group_of pl j (trace s) = Some g /\ urgent g0 g = true) /\
  count (looks pl g0) m + ahead pl g0 (trace s) <= ahead pl g0 tr + count (joins pl g0) m.
Proof.
  intros s pl j g0 tr m R E W [(g & G & U) K]. pose proof (job_rules_hold s R) as JR.
  assert (Ad : added pl j tr).
  { apply group_added with (g := g); auto. intros a x b X. apply (JR a x (b ++ m)). rewrite E, X, <- app_assoc. reflexivity. }
  assert (Main : forall m' r, m = m' ++ r -> waiting_job pl j (tr ++ m') ->
    (exists g, group_of pl j (tr ++ m') = Some g /\ urgent g0 g = true) /\
    count (looks pl g0) m' + ahead pl g0 (tr ++ m') <= ahead pl g0 tr + count (joins pl g0) m').
  { induction m' as [|e m' IH] using rev_ind; intros r Em Wm; [rewrite app_nil_r; split; [exists g; auto|cbn; lia]|].
    assert (Em' : m = m' ++ e :: r) by (rewrite Em, <- app_assoc; reflexivity).
    assert (Et : trace s = (tr ++ m') ++ e :: r) by (rewrite E, Em', <- app_assoc; reflexivity).
    pose proof (JR _ _ _ Et) as Je. rewrite app_assoc in Wm.
    assert (Adm : added pl j (tr ++ m')) by (destruct Ad as (t & g1 & p & q & I); exists t, g1, p, q; apply in_or_app; auto).
    pose proof (waiting_before _ _ _ _ Je Adm Wm) as Wb.
    destruct (IH (e :: r) Em' Wb) as ((gc & Gc & Uc) & B). clear IH.
    assert (Q : forall gg, In (j, gg) (entries_of pl (tr ++ m')) \/ True) by auto. clear Q.
    destruct (prefix_reachable s R _ _ Et) as (s1 & R1 & E1).
    assert (Iq : In (j, gc) (entries_of pl (tr ++ m'))).
    { rewrite <- E1 in Wb, Gc |- *. destruct (waiting_queued s1 pl j R1 Wb) as (g1 & G1 & I1). congruence. }
    rewrite app_assoc. split.
    - rewrite group_snoc. destruct e; eauto; destruct ((pl0 =? pl) && (j0 =? j)) eqn:X; eauto; apply andb_prop in X as [X1 X2]; apply Nat.eqb_eq in X1, X2; subst.
      + destruct Je as [_ Je]. contradiction.
      + eexists. split; [reflexivity|]. eapply K. rewrite Em'. apply in_or_app. right. now left.
    - unfold count in *. rewrite !filter_app, !app_length. unfold ahead in *. unfold entries_of at 1. rewrite fold_left_app. cbn [fold_left]. fold (entries_of pl (tr ++ m')).
      set (L := entries_of pl (tr ++ m')) in *.
      destruct e; cbn [entries_step filter looks joins app length]; try lia.
      + destruct (Nat.eqb_spec pl0 pl) as [->|]; cbn [andb]; [|cbn [length]; lia].
        rewrite filter_app, app_length. cbn [filter snd]. destruct (urgent g0 g1); cbn [length]; lia.
      + destruct (Nat.eqb_spec pl0 pl) as [->|]; cbn [andb]; [|cbn [length]; lia].
        rewrite filter_app, app_length. cbn [filter snd]. destruct (urgent g0 g1); cbn [length]; lia.
      + destruct (Nat.eqb_spec pl0 pl) as [->|]; cbn [andb]; [|cbn [length]; lia].
        destruct Je as (_ & (Im & Lm & M) & _). fold L in Im, M. destruct (Nat.leb_spec lv (g_level g0)) as [Le|Gt]; cbn [length].
        * pose proof (urgent_level _ _ Uc) as Lc.
          assert (Ug : urgent g0 g1 = true) by (eapply urgent_trans; [exact Uc|]; exact (M _ _ Iq ltac:(lia))).
          pose proof (drop_exact (fun x => urgent g0 (snd x)) (j0, g1) L Im Ug). lia.
        * pose proof (drop_less (fun x => urgent g0 (snd x)) (j0, g1) L). lia.
      + destruct (Nat.eqb_spec pl0 pl) as [->|]; cbn [andb]; [|destruct x as [[j1 g1]|]; cbn [length]; lia].
        destruct x as [[j1 g1]|]; cbn [job_rules] in Je.
        * destruct Je as ((Im & Lm & M) & _). fold L in Im, M. destruct (Nat.leb_spec lv (g_level g0)) as [Le|Gt]; cbn [length].
          -- pose proof (urgent_level _ _ Uc) as Lc.
             assert (Ug : urgent g0 g1 = true) by (eapply urgent_trans; [exact Uc|]; exact (M _ _ Iq ltac:(lia))).
             pose proof (drop_exact (fun x => urgent g0 (snd x)) (j1, g1) L Im Ug). lia.
          -- pose proof (drop_less (fun x => urgent g0 (snd x)) (j1, g1) L). lia.
        * destruct (Nat.leb_spec lv (g_level g0)) as [Le|Gt]; cbn [length]; [|lia].
          pose proof (urgent_level _ _ Uc) as Lc. specialize (Je _ _ Iq). lia.
      + destruct (Nat.eqb_spec pl0 pl) as [->|]; cbn [length]; [|lia]. exfalso. exact (cleared_gone _ _ _ _ _ Je Wm). }
  rewrite E. apply (Main m []); [now rewrite app_nil_r|now rewrite <- E].
Qed.
Theorem overtaken : forall s pl j g0 tr m, reachable s -> trace s = tr ++ m -> waiting_job pl j (trace s) -> keeps pl j g0 tr m ->
  count (looks pl g0) m < ahead pl g0 tr + count (joins pl g0) m.
Proof.
  intros s pl j g0 tr m R E W K. destruct (forward s pl j g0 tr m R E W K) as ((g & G & U) & B).
  destruct (waiting_queued s pl j R W) as (gc & Gc & I). rewrite G in Gc. injection Gc as <-.
  assert (P : 1 <= ahead pl g0 (trace s)); [|lia].
  unfold ahead. assert (J : In (j, g) (filter (fun x => urgent g0 (snd x)) (entries_of pl (trace s)))) by (apply filter_In; auto).
  destruct (filter _ _); [contradiction|cbn; lia].
Qed.
