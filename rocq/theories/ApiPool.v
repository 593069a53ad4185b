(** * ApiPool: the calls of thread_pool and job_future meet their contracts. *)
From Verif Require Import Types Core State Ops Code Machine Base Spec SpecApi SpecPool SpecOwn SpecPoolApi Rules Events InvCtx InvQueue InvStack
  Calls Contract ContractLib Replay ReplayObj ThmObj OwnProm ApiObj InvLock InvGuard InvJobs InvTab.

(** ** Destroying a closure makes the states it owns ready *)
Definition dyf (p : sid) (f : frame) : bool :=
  match f with
  | FDestroy l => existsb (has_item p) l
  | FPromDtor q | FSet q _ | FSet1 q _ => q =? p
  | _ => false
  end.
Definition dying (p : sid) (x : list frame) : bool := existsb (dyf p) x.
Lemma dying_step : forall p h t h' n x r, top_step h t h' n x r -> dying p x = true ->
  fs_ready (h_fsts h' p) = true \/ dying p (next_frames n ++ r) = true.
Proof.
  intros p h t h' n x r T D. unfold dying in *. rewrite existsb_app. inversion T as [v u fin r1 Eh En X|e u fin r1 Eh En X|inp f r1 Ru X|inp e f r1 Ru X]; subst; cbn [existsb] in D.
  - right. apply orb_true_iff. auto.
  - right. apply orb_true_iff. auto.
  - apply orb_true_iff in D as [D|D]; [|right; rewrite D; apply orb_true_r].
    destruct f; try discriminate D; cbn [dyf] in D; code_cases Ru; cbn [next_frames].
    all: try (right; cbn [existsb dyf has_item has app] in *; rewrite ?existsb_app; rewrite !orb_true_iff in *; tauto).
    all: try discriminate D.
    + right. cbn [existsb dyf has_item] in *. cbn [orb] in D. destruct x; cbn [existsb dyf]; rewrite D, ?orb_true_r; reflexivity.
    + apply Nat.eqb_eq in D as ->. destruct x; [left|right; cbn [existsb dyf]; now rewrite Nat.eqb_refl]. cbn in A. injection A as <- ->. congruence.
    + apply Nat.eqb_eq in D as ->. left. cbn in A. destruct (fs_ready (h_fsts h p)) eqn:Rd; injection A as <- _; [exact Rd|]. cbn. unfold upd. rewrite Nat.eqb_refl. destruct o; reflexivity.
  - cbn [dyf orb] in D. apply orb_true_iff in D as [D|D]; [|right; rewrite D; apply orb_true_r].
    exfalso. destruct f; try discriminate D; cbn in Ru; try contradiction. destruct Ru as (x & A & _). discriminate A.
Qed.

(** ** Job ids name one job *)
Lemma each_snoc : forall P tr e, at_each P (tr ++ [e]) -> at_each P tr /\ P tr e.
Proof. intros P tr e H. split; [|now apply (H tr e [])]. intros a x b E. apply (H a x (b ++ [e])). now rewrite E, <- app_assoc. Qed.
Lemma add_unique : forall s pl j t g p q t' g' p' q', reachable s -> In (EvJobAdd t pl j g p q) (trace s) -> In (EvJobAdd t' pl j g' p' q') (trace s) -> p = p' /\ q = q'.
Proof.
  intros s pl j t g p q t' g' p' q' R. pose proof (job_rules_hold s R) as J. revert J. generalize (trace s). clear R s.
  induction l as [|e l IH] using rev_ind; [intros _ []|]. intros J. apply each_snoc in J as [J K]. rewrite !in_snoc. intros [A|A] [B|B]; auto.
  - subst e. destruct K as [_ K]. destruct K. exists t, g, p, q. auto.
  - subst e. destruct K as [_ K]. destruct K. exists t', g', p', q'. auto.
  - subst e. injection B as -> -> -> ->. auto.
Qed.
Lemma rd_waiting : forall s pl j, reachable s -> waiting_job pl j (trace s) <-> exists x, In (j, x) (pl_jobs (h_pools (hp s) pl)) /\ jb_callable x <> TNull.
Proof. intros s pl j R. apply waiting_iff. now apply jobs_inv. Qed.

(** ** The program points *)
Section Points.
Variables (t : tid) (cl : call) (tr : list event).
Let acts l := cl_acts cl = l.
Definition wants (o : nat) (a : pact) : Prop :=
  match cl_api cl with
  | APSched o' g v u caps => o' = o /\ a = PaSched g v u caps
  | APChange o' j g | AJChange _ o' j g => o' = o /\ a = PaChange j g
  | APStop o' j | AJStop _ o' j => o' = o /\ a = PaStop j
  | APStopAll o' => o' = o /\ a = PaStopAll
  | APCount o' => o' = o /\ a = PaCount
  | _ => False
  end.
Definition target (o : nat) (a : pact) (pl : nat) : Prop := wants o a /\ sometime cl tr (fun m => pool_of o m = Some pl).
Definition tgts (pl lv : nat) (m : list event) : list (nat * id) := map (fun w => (fst w, snd (snd w))) (filter (fun w => fst w <=? lv) (workers_of pl m)).
Definition left_ (pl lv : nat) (ws : list (nat * id)) : Prop :=
  exists l1, sometime cl tr (fun m => tgts pl lv m = l1 ++ ws) /\ forall l i, In (l, i) l1 -> informed t pl l i cl tr.
Definition own (i : id) : Prop := sometime cl tr (fun m => my_id t m = i).
Definition noone (i : id) : Prop := i = invalid_id \/ sometime cl tr (unknown i) \/ (own i /\ sometime cl tr (exit_seen t)).
(** telling one worker *)
Inductive dseg (pl l : nat) (i : id) : list frame -> Prop :=
| d_disp : dseg pl l i [FDisp i (TCheck pl l) LkDisc]
| d_inv : dseg pl l i [FInvoke i (TCheck pl l) LkDisc]
| d_push : dseg pl l i [FPush i (TCheck pl l) LkDisc]
| d_run : own i -> dseg pl l i [FRun (TCheck pl l); FDrop (TCheck pl l)]
| d_check : own i -> dseg pl l i [FCheck pl l; FDrop (TCheck pl l)]
| d_check1 : dseg pl l i [FCheck1 pl l; FDrop (TCheck pl l)]
| d_drop : noone i -> dseg pl l i [FDrop (TCheck pl l)]
| d_des : noone i -> dseg pl l i [FDestroy [DTask (TCheck pl l)]].
(** telling all of them *)
Inductive nseg (pl lv : nat) : list frame -> Prop :=
| n_start : nseg pl lv [FPNotify pl lv]
| n_one : forall l i ws y, left_ pl lv ((l, i) :: ws) -> dseg pl l i y -> nseg pl lv (y ++ [FPDisp pl ws])
| n_sh : forall ws y, left_ pl lv ws -> shielded y -> nseg pl lv (y ++ [FPDisp pl ws])
| n_end : alerted t pl lv cl tr -> nseg pl lv [].
Definition dead_or (x : list frame) (p : sid) : Prop := is_ready p tr \/ dying p x = true.
Definition clearing (pl : nat) (m : list event) (j : nat) (x : list frame) : Prop :=
  forall t g p q, In (EvJobAdd t pl j g p q) m -> dead_or x p /\ dead_or x q.
Let first4 pl g v u p q j := begins cl [EvState t p v (PuFun u); EvState t q true PuJob; EvLock t (LPool pl); EvJobAdd t pl j g p q].
Inductive pmid : frame -> list frame -> Prop :=
| m_job : forall s o a, wants o a -> acts [] -> (forall g v u caps, a <> PaSched g v u caps) -> a <> PaStopAll -> a <> PaCount ->
    match cl_api cl with AJStop _ _ _ | AJChange _ _ _ _ => True | _ => False end -> pmid (FJob s o a) []
| m_api : forall o a, wants o a -> acts [] -> pmid (FPApi o a) []
| m_s0 : forall o pl g v u caps, target o (PaSched g v u caps) pl -> acts [] -> pmid (FSched o pl g v u caps) []
| m_s1 : forall o pl g v u caps p, target o (PaSched g v u caps) pl -> acts [EvState t p v (PuFun u)] -> pmid (FSched1 o pl g p u caps) []
| m_s2 : forall o pl g v u caps p q, target o (PaSched g v u caps) pl -> acts [EvState t p v (PuFun u); EvState t q true PuJob] -> pmid (FSched2 o pl g p q u caps) []
| m_s3 : forall o pl g v u caps p q, target o (PaSched g v u caps) pl -> acts [EvState t p v (PuFun u); EvState t q true PuJob; EvLock t (LPool pl)] ->
    pmid (FSched3 o pl g p q u caps) []
| m_s4 : forall o pl g v u caps p q j x, target o (PaSched g v u caps) pl -> first4 pl g v u p q j -> nseg pl (g_level g) x ->
    pmid (FSched4 o p j) (x ++ [FPUnl pl])
| m_s4e : forall o pl g v u caps p q j, target o (PaSched g v u caps) pl -> first4 pl g v u p q j -> alerted t pl (g_level g) cl tr ->
    In (EvUnlock t (LPool pl)) (cl_acts cl) -> pmid (FSched4 o p j) []
| m_s5 : forall o pl g v u caps p q j n, target o (PaSched g v u caps) pl -> first4 pl g v u p q j -> alerted t pl (g_level g) cl tr ->
    In (EvUnlock t (LPool pl)) (cl_acts cl) -> In (EvHnd t n false (Some p)) (cl_acts cl) -> pmid (FSched5 o n j) []
| m_c0 : forall o pl j g, target o (PaChange j g) pl -> acts [] -> pmid (FPChg pl j g) []
| m_c1 : forall o pl j g, target o (PaChange j g) pl -> acts [EvLock t (LPool pl)] -> pmid (FPChg1 pl j g) []
| m_c2 : forall o pl j g, target o (PaChange j g) pl -> acts [EvLock t (LPool pl)] -> sometime cl tr (fun m => ~ waiting_job pl j m \/ group_of pl j m = Some g) ->
    pmid (FPUnl pl) []
| m_c3 : forall o pl j g x, target o (PaChange j g) pl -> begins cl [EvLock t (LPool pl); EvJobRegroup t pl j g] -> nseg pl (g_level g) x -> pmid (FPUnl pl) x
| m_k0 : forall o pl j, target o (PaStop j) pl -> acts [] -> pmid (FPClr pl j true) []
| m_k1 : forall o pl j, target o (PaStop j) pl -> acts [EvLock t (LPool pl)] -> pmid (FPClr1 pl j true) []
| m_k2 : forall o pl j, target o (PaStop j) pl -> acts [EvLock t (LPool pl)] -> sometime cl tr (fun m => ~ waiting_job pl j m) -> pmid (FPUnl pl) []
| m_k3 : forall o pl j m x, target o (PaStop j) pl -> begins cl [EvLock t (LPool pl); EvJobErase t pl [j]] ->
    In (EvJobErase t pl [j]) (cl_acts cl) -> happens cl tr m (EvJobErase t pl [j]) -> waiting_job pl j m -> clearing pl m j x -> shielded x -> pmid (FPUnl pl) x
| m_a0 : forall o pl, target o PaStopAll pl -> acts [] -> pmid (FPStopAll pl) []
| m_a1 : forall o pl, target o PaStopAll pl -> acts [EvLock t (LPool pl)] -> pmid (FPClrAll pl) []
| m_a2 : forall o pl js m x, target o PaStopAll pl -> begins cl [EvLock t (LPool pl); EvJobClear t pl js] ->
    In (EvJobClear t pl js) (cl_acts cl) -> happens cl tr m (EvJobClear t pl js) -> (forall j, waiting_job pl j m -> clearing pl m j x) -> shielded x -> pmid (FPUnl pl) x
| m_n : forall o pl, target o PaCount pl -> acts [] -> pmid (FPCount pl) []
| m_ub : forall u, pmid (FUb u) [].
End Points.
Definition pool_sel (c : api) : bool :=
  match c with APSched _ _ _ _ _ | APChange _ _ _ | APStop _ _ | APStopAll _ | APCount _ | AJStop _ _ _ | AJChange _ _ _ _ => true | _ => false end.

Lemma informed_mono : forall t pl l i cl tr a b, informed t pl l i cl tr -> informed t pl l i (add_acts a cl) (tr ++ b).
Proof. intros t pl l i cl tr a b [H|[H K]]; [left|right]; eauto with mono. split; [eauto with mono|]. intuition eauto with mono. Qed.
Lemma alerted_mono : forall t pl lv cl tr a b, alerted t pl lv cl tr -> alerted t pl lv (add_acts a cl) (tr ++ b).
Proof. intros t pl lv cl tr a b H. unfold alerted. eapply st_imp; [|apply st_mono; exact H]. cbn. intros m K l n i I L. apply informed_mono. eauto. Qed.
Lemma left_mono : forall t pl lv ws cl tr a b, left_ t cl tr pl lv ws -> left_ t (add_acts a cl) (tr ++ b) pl lv ws.
Proof. intros t pl lv ws cl tr a b (l1 & S & H). exists l1. split; [eauto with mono|]. intros. apply informed_mono. auto. Qed.
Lemma target_mono : forall o a pl cl tr b c, target cl tr o a pl -> target (add_acts b cl) (tr ++ c) o a pl.
Proof. intros o a pl cl tr b c [H K]. split; [exact H|eauto with mono]. Qed.
Lemma noone_mono : forall t i cl tr a b, noone t cl tr i -> noone t (add_acts a cl) (tr ++ b) i.
Proof. unfold noone, own. intros t i cl tr a b H. intuition eauto with mono. Qed.
Lemma dseg_mono : forall t cl tr pl l i y a b, dseg t cl tr pl l i y -> dseg t (add_acts a cl) (tr ++ b) pl l i y.
Proof. intros t cl tr pl l i y a b H. destruct H; constructor; unfold own in *; eauto using noone_mono with mono. Qed.
#[local] Hint Resolve informed_mono alerted_mono left_mono target_mono noone_mono dseg_mono : mono.
Lemma nseg_mono : forall t cl tr pl lv x a b, nseg t cl tr pl lv x -> nseg t (add_acts a cl) (tr ++ b) pl lv x.
Proof. intros t cl tr pl lv x a b H. destruct H; [apply n_start|eapply n_one|eapply n_sh|apply n_end]; eauto with mono. Qed.
Lemma dead_mono : forall tr x p b, dead_or tr x p -> dead_or (tr ++ b) x p.
Proof. intros tr x p b [H|H]; [left; now apply ready_app|right; auto]. Qed.
Lemma clearing_mono : forall tr pl m j x b, clearing tr pl m j x -> clearing (tr ++ b) pl m j x.
Proof. intros tr pl m j x b H t g p q I. destruct (H _ _ _ _ I). split; now apply dead_mono. Qed.
Lemma hap_mono : forall cl tr m e a b, happens cl tr m e -> happens (add_acts a cl) (tr ++ b) m e.
Proof. intros. now apply happens_app, happens_acts. Qed.
#[local] Hint Resolve nseg_mono dead_mono clearing_mono hap_mono : mono.
Lemma pmid_mono : forall t cl tr l f ab, pmid t cl tr f ab -> pmid t cl (tr ++ l) f ab.
Proof.
  intros t cl tr l f ab M. rewrite <- (add_acts_nil cl). destruct M; try (rewrite add_acts_nil).
  1: now eapply m_job. 1: now eapply m_api.
  all: rewrite <- (add_acts_nil cl).
  all: [> eapply m_s0|eapply m_s1|eapply m_s2|eapply m_s3|eapply m_s4|eapply m_s4e|eapply m_s5|eapply m_c0|eapply m_c1|eapply m_c2|eapply m_c3
       |eapply m_k0|eapply m_k1|eapply m_k2|eapply m_k3|eapply m_a0|eapply m_a1|eapply m_a2|eapply m_n|eapply m_ub].
  all: try (cbn; rewrite ?app_nil_r; eassumption); eauto with mono.
Qed.

Lemma top_split2 : forall h t h' n x g r, x <> [] -> (forall e, x <> [FThrow e]) -> top_step h t h' n (x ++ [g]) r ->
  exists r', r = r' ++ [g] /\ top_step h t h' n x r'.
Proof.
  intros h t h' n x g r N S T. destruct x as [|a x]; [contradiction|]. cbn [app] in T.
  inversion T as [v u fin r1 Eh En X|e u fin r1 Eh En X|inp f r1 Ru X|inp e f r1 Ru X]; subst.
  - exists x. split; auto. now eapply ts_ret.
  - exists x. split; auto. now eapply ts_throw.
  - exists x. split; auto. now eapply ts_code; eauto.
  - destruct x as [|b x]; [now destruct (S e)|]. cbn [app] in *.
    match goal with H : _ :: _ = _ :: _ |- _ => injection H as -> -> end. exists x. split; auto. now eapply ts_catch; eauto.
Qed.
Lemma left_alerted : forall t cl tr pl lv, left_ t cl tr pl lv [] -> alerted t pl lv cl tr.
Proof.
  intros t cl tr pl lv (l1 & S & H). unfold alerted. eapply st_imp; [|exact S]. cbn. intros m E l n i I L. rewrite app_nil_r in E. apply H. rewrite <- E.
  unfold tgts. apply in_map_iff. exists (l, (n, i)). split; auto. apply filter_In. split; auto. now apply Nat.leb_le.
Qed.
Lemma left_pop : forall t cl tr pl lv l i ws, left_ t cl tr pl lv ((l, i) :: ws) -> informed t pl l i cl tr -> left_ t cl tr pl lv ws.
Proof.
  intros t cl tr pl lv l i ws (l1 & S & H) K. exists (l1 ++ [(l, i)]). split; [eapply st_imp; [|exact S]; cbn; intros m ->; now rewrite <- app_assoc|].
  intros l' i' I. apply in_app_iff in I as [I|[I|[]]]; auto. now injection I as <- <-.
Qed.
Lemma dseg_step : forall s t cl pl l i y h n r rest, reachable s -> incall t cl (trace s) -> stk s t = rest -> In (FPUnl pl) rest ->
  (exists es, tr_of h = trace s ++ es) -> dseg t cl (trace s) pl l i y -> top_step (hp s) t h n y r ->
  let cl' := add_acts (new_acts t (hp s) h) cl in
  dseg t cl' (tr_of h) pl l i (next_frames n ++ r) \/ (informed t pl l i cl' (tr_of h) /\ shielded (next_frames n ++ r)).
Proof.
  intros s t cl pl l i y h n r rest R C ST I (es & Es) D T cl'. subst cl'.
  pose proof (rd_unknown _ R) as Eun. pose proof (rd_myid _ R t) as Emy. pose proof (rd_loc _ R t) as Elc. pose proof (rd_exit _ R) as Eex.
  pose proof (replay_locks (LPool pl) _ R) as Elk. rewrite (hold_in (LPool pl) s t (FPUnl pl) eq_refl R) in Elk; [|now rewrite ST|cbn; apply Nat.eqb_refl].
  destruct D; runT T; code_cases Ru.
  - stepinfo A; cbn [next_frames]; match goal with |- context [Nat.eqb ?a i] => destruct (Nat.eqb a i) eqn:Z0 end; cbn [lresume destroy app]; left; try apply d_inv.
    all: apply Nat.eqb_eq in Z0; apply d_run; unfold own; eapply st_now; [exact C|]; congruence.
  - stepinfo A. left. cbn [next_frames lresume destroy app map]. apply d_des. left. now apply Nat.eqb_eq.
  - stepinfo A; left; cbn [next_frames lresume destroy app map]; [apply d_push|]. apply d_des. right. left. eapply st_now; [exact C|]. auto.
  - right. split; [|reflexivity]. left. rewrite (new_acts_op _ _ _ _ _ _ _ A). cbn [op_event]. unfold by_thread. cbn [actor]. rewrite Nat.eqb_refl. apply in_new. now left.
  - stepinfo A. left. cbn [next_frames app]. apply d_check. unfold own in *. fact.
  - stepinfo A; cbn [next_frames]; try match goal with |- context [if ?a then _ else _] => destruct a eqn:Z0 end; left; cbn [app]; try apply d_check1; apply d_drop; right; right.
    all: split; [unfold own in *; fact|]; (eapply st_now; [exact C|]); unfold exit_seen; rewrite <- Elc; auto. now apply Eex.
  - exfalso. cbn in A. rewrite Elk, Nat.eqb_refl in A. discriminate A.
  - stepinfo A. left. cbn [next_frames destroy app map]. apply d_des. fact.
  - stepinfo A. right. cbn [next_frames app]. split; [|reflexivity]. right. split; [apply in_new; now left|]. now apply noone_mono.
Qed.
Lemma dseg_ne : forall t cl tr pl l i y, dseg t cl tr pl l i y -> y <> [] /\ forall e, y <> [FThrow e].
Proof. intros t cl tr pl l i y D. destruct D; split; intros; discriminate. Qed.
Lemma nseg_step : forall s t cl pl lv x h n r, reachable s -> incall t cl (trace s) -> In (FPUnl pl) (stk s t) ->
  (exists es, tr_of h = trace s ++ es) -> nseg t cl (trace s) pl lv x -> top_step (hp s) t h n x r ->
  nseg t (add_acts (new_acts t (hp s) h) cl) (tr_of h) pl lv (next_frames n ++ r).
Proof.
  intros s t cl pl lv x h n r R C I (es & Es) D T. pose proof (replay_workers pl _ R) as Ew.
  destruct D as [|l i ws y L D|ws y L Sh|].
  - runT T. code_cases Ru. stepinfo A. cbn [next_frames app]. apply (n_sh _ _ _ _ _ _ []); [|exact Logic.I].
    exists []. split; [|intros ? ? []]. eapply st_now; [exact C|]. unfold tgts. rewrite <- Ew. reflexivity.
  - destruct (dseg_ne _ _ _ _ _ _ _ D) as [N1 N2]. destruct (top_split2 _ _ _ _ _ _ _ N1 N2 T) as (r' & -> & T1).
    destruct (dseg_step s t cl pl l i y h n r' _ R C eq_refl I (ex_intro _ es Es) D T1) as [X|[X1 X2]]; rewrite app_assoc.
    + eapply n_one; [|exact X]. rewrite Es. fact.
    + apply n_sh; auto. eapply left_pop; [|exact X1]. rewrite Es. fact.
  - destruct y as [|a y].
    + runT T. destruct ws as [|[l i] ws]; code_cases Ru; stepinfo A; cbn [next_frames app].
      * apply n_end. apply left_alerted. fact.
      * apply (n_one _ _ _ _ _ l i ws [_]); [fact|apply d_disp].
    + assert (Nt : forall e, a :: y <> [FThrow e]) by (intros e E; rewrite E in Sh; cbn in Sh; discriminate Sh).
      assert (Ne : a :: y <> []) by discriminate. destruct (top_split2 _ _ _ _ _ _ _ Ne Nt T) as (r' & -> & T1).
      rewrite app_assoc. apply n_sh; [rewrite Es; fact|]. eapply shield_above; eauto.
  - inversion T.
Qed.
Lemma nseg_nothrow : forall t cl tr pl lv x e, nseg t cl tr pl lv x -> x <> [FThrow e].
Proof.
  intros t cl tr pl lv x e D. destruct D as [|l i ws y L D|ws y L Sh|]; try discriminate; intros E.
  - destruct y as [|a [|b y]]; discriminate E.
  - destruct y as [|a [|b y]]; discriminate E.
Qed.
Lemma dead_step : forall s s' t h n x r p, reachable s -> reachable s' -> hp s' = h -> (exists es, tr_of h = trace s ++ es) ->
  top_step (hp s) t h n x r -> dead_or (trace s) x p -> dead_or (tr_of h) (next_frames n ++ r) p.
Proof.
  intros s s' t h n x r p R R' Eh (es & Es) T [D|D]; [left; rewrite Es; now apply ready_app|].
  destruct (dying_step _ _ _ _ _ _ _ T D) as [X|X]; [left|right; exact X]. rewrite <- Eh in *. now apply ready_iff.
Qed.
Lemma clearing_step : forall s s' t h n x r pl m j, reachable s -> reachable s' -> hp s' = h -> (exists es, tr_of h = trace s ++ es) ->
  top_step (hp s) t h n x r -> clearing (trace s) pl m j x -> clearing (tr_of h) pl m j (next_frames n ++ r).
Proof. intros s s' t h n x r pl m j R R' Eh Es T H t' g p q I. destruct (H _ _ _ _ I). split; apply (dead_step s s' t h n x r); auto. Qed.
Lemma clearing_end : forall tr pl m j, clearing tr pl m j [] -> settled pl j m tr.
Proof. intros tr pl m j H t g p q I. destruct (H _ _ _ _ I) as [[?|X] [?|Y]]; try discriminate; auto. Qed.
Lemma settled_app : forall pl j m tr l, settled pl j m tr -> settled pl j m (tr ++ l).
Proof. intros pl j m tr l H t g p q I. destruct (H _ _ _ _ I). split; now apply ready_app. Qed.

Lemma stop_tr : forall t pl j cl tr l, stop_spec t pl j cl tr -> stop_spec t pl j cl (tr ++ l).
Proof.
  intros t pl j cl tr l [[A B]|(A & (B & m & Hm & W & S) & U)]; [left|right]; split; eauto with mono. split; auto. split; auto. exists m. split; [now apply happens_app|].
  split; auto. now apply settled_app.
Qed.
Lemma stop_all_tr : forall t pl cl tr l, stop_all_spec t pl cl tr -> stop_all_spec t pl cl (tr ++ l).
Proof.
  intros t pl cl tr l (js & A & (B & m & Hm & W) & U). exists js. split; auto. split; auto. split; auto. exists m. split; [now apply happens_app|].
  intros. apply settled_app; auto.
Qed.
Lemma alerted_tr : forall t pl lv cl tr b, alerted t pl lv cl tr -> alerted t pl lv cl (tr ++ b).
Proof. intros. rewrite <- (add_acts_nil cl). now apply alerted_mono. Qed.
#[local] Hint Resolve stop_tr stop_all_tr alerted_tr : mono.
Lemma change_tr : forall t pl j g cl tr l, change_spec t pl j g cl tr -> change_spec t pl j g cl (tr ++ l).
Proof. intros t pl j g cl tr l [[A B]|(A & B & U)]; [left|right]; eauto with mono. Qed.
Lemma on_pool_imp : forall o cl tr l (P Q : nat -> Prop), (forall pl, P pl -> Q pl) -> on_pool o cl tr P -> on_pool o cl (tr ++ l) Q.
Proof. intros o cl tr l P Q H (pl & A & B). exists pl. eauto with mono. Qed.
Lemma pool_contract_tr : forall t cl tr l r, pool_contract t cl tr r -> pool_contract t cl (tr ++ l) r.
Proof.
  intros t cl tr l r. unfold pool_contract. destruct (cl_api cl); auto.
  - intros (pl & p & q & j & n & se & A & B & D & E & F & G). exists pl, p, q, j, n, se. eauto 10 with mono.
  - intros [A B]. split; auto. eapply on_pool_imp; [|exact B]. intros. now apply change_tr.
  - intros [A B]. split; auto. eapply on_pool_imp; [|exact B]. intros. now apply stop_tr.
  - intros [A B]. split; auto. eapply on_pool_imp; [|exact B]. intros. now apply stop_all_tr.
  - intros [A B]. split; auto. eapply on_pool_imp; [|exact B]. intros pl (n & E & S). exists n. eauto with mono.
  - intros [A [B|B]]; split; auto. right. eapply on_pool_imp; [|exact B]. intros. now apply stop_tr.
  - intros [A [B|B]]; split; auto. right. eapply on_pool_imp; [|exact B]. intros. now apply change_tr.
Qed.
Lemma post_change : forall t cl tr o j g pl, target cl tr o (PaChange j g) pl -> change_spec t pl j g cl tr -> pool_contract t cl tr RUnit.
Proof.
  intros t cl tr o j g pl [W S] H. unfold wants, pool_contract in *.
  destruct (cl_api cl); try (destruct W as [_ W]; discriminate W); try contradiction; destruct W as [-> [= -> ->]]; split; auto; [|right]; exists pl; auto.
Qed.
Lemma post_stop : forall t cl tr o j pl, target cl tr o (PaStop j) pl -> stop_spec t pl j cl tr -> pool_contract t cl tr RUnit.
Proof.
  intros t cl tr o j pl [W S] H. unfold wants, pool_contract in *.
  destruct (cl_api cl); try (destruct W as [_ W]; discriminate W); try contradiction; destruct W as [-> [= ->]]; split; auto; [|right]; exists pl; auto.
Qed.
Lemma pmid_start : forall t c pre, pool_sel c = true -> newbot pool_contract pmid t (mkCall c pre []) (pre ++ [EvCall t c]) (api_frames c).
Proof.
  intros t c pre S. destruct c; try discriminate S; unfold newbot; cbn [api_frames rev app]; left;
    try (apply m_api; [cbn; auto|reflexivity]; fail).
  all: apply m_job; cbn; auto; discriminate.
Qed.
Lemma pmid_user : forall t cl tr f ab, pmid t cl tr f ab -> match f with FUser _ _ => False | FThrow e => ab = [] -> pool_contract t cl tr (RExn e) | _ => True end.
Proof. intros t cl tr f ab M. destruct M; auto. Qed.
Lemma pmid_throw : forall s t cl f e inp h n, reachable s -> pool_sel (cl_api cl) = true -> incall t cl (trace s) -> (exists cs, open_calls t (trace s) = cl :: cs) ->
  runs (catch f e) (hp s) t inp h n -> pmid t cl (trace s) f [FThrow e] ->
  newbot pool_contract pmid t (add_acts (new_acts t (hp s) h) cl) (tr_of h) (next_frames n).
Proof.
  intros s t cl f e inp h n R S C Op Ru M. remember [FThrow e] as ab eqn:Eab. destruct M; try discriminate Eab.
  - destruct x as [|? []]; discriminate Eab.
  - now apply nseg_nothrow with (e := e) in H1.
  - subst x. cbn in H5. discriminate H5.
  - subst x. cbn in H4. discriminate H4.
Qed.
Lemma pmid_above : forall s s' t cl f above r h n, reachable s -> reachable s' -> hp s' = h -> pool_sel (cl_api cl) = true -> incall t cl (trace s) -> (exists cs, open_calls t (trace s) = cl :: cs) ->
  (exists rest, stk s t = above ++ f :: FApi (cl_api cl) :: rest) ->
  (exists es, tr_of h = trace s ++ es) ->
  top_step (hp s) t h n above r -> pmid t cl (trace s) f above ->
  pmid t (add_acts (new_acts t (hp s) h) cl) (tr_of h) f (next_frames n ++ r).
Proof.
  intros s s' t cl f above r h n R R' Eh S C Op (rest & ST) Es T M. destruct M; try solve [inversion T].
  - assert (I : In (FPUnl pl) (stk s t)) by (rewrite ST, !in_app_iff; cbn; auto).
    destruct x as [|a x].
    + runT T. code_cases Ru. stepinfo A. cbn [next_frames app]. inversion H1; try (destruct y; discriminate). eapply m_s4e; fact || (apply in_new; now left).
    + assert (Ne : a :: x <> []) by discriminate. destruct (top_split2 _ _ _ _ _ _ _ Ne (fun e => nseg_nothrow _ _ _ _ _ _ e H1) T) as (r' & -> & T1).
      pose proof (nseg_step _ _ _ _ _ _ _ _ _ R C I Es H1 T1) as X. destruct Es as [es Es]. rewrite Es in *. rewrite app_assoc. eapply m_s4; [fact|fact|exact X].
  - assert (I : In (FPUnl pl) (stk s t)) by (rewrite ST, !in_app_iff; cbn; auto).
    pose proof (nseg_step _ _ _ _ _ _ _ _ _ R C I Es H1 T) as X. destruct Es as [es Es]. rewrite Es in *. eapply m_c3; [fact|fact|exact X].
  - assert (X := clearing_step _ _ _ _ _ _ _ _ _ _ R R' Eh Es T H4). destruct Es as [es Es]. rewrite Es in *.
    eapply m_k3; [fact|fact|fact|fact|eassumption|exact X|]. eapply shield_above; eauto.
  - assert (X : forall j, waiting_job pl j m -> clearing (tr_of h) pl m j (next_frames n ++ r)) by (intros j W; apply (clearing_step s s' t h n x r); auto).
    destruct Es as [es Es]. rewrite Es in *. eapply m_a2; [fact|fact|fact|fact|exact X|]. eapply shield_above; eauto.
Qed.
Lemma destroy_dying : forall p ks, dying p (destroy ks) = existsb (has p) ks.
Proof.
  intros p ks. destruct ks as [|k ks]; [reflexivity|]. unfold destroy, dying. cbn [map existsb dyf has_item]. rewrite orb_false_r. f_equal.
  induction ks as [|x ks IH]; cbn; auto. now rewrite IH.
Qed.
Lemma closure_has : forall p q k, job_closure p q k -> has p k = true /\ has q k = true.
Proof. intros p q k (u & caps & ->). cbn. rewrite !Nat.eqb_refl, orb_true_r. auto. Qed.
(** The closures of the waiting jobs [j], destroyed. *)
Lemma clearing_new : forall s pl j x ks tr', reachable s -> In (j, x) (pl_jobs (h_pools (hp s) pl)) -> In (jb_callable x) ks -> jb_callable x <> TNull ->
  clearing tr' pl (trace s) j (destroy ks).
Proof.
  intros s pl j x ks tr' R I K N t g p q J. pose proof (tab_inv pl s R) as F. rewrite Forall_forall in F.
  destruct (F _ I) as (t0 & g0 & p0 & q0 & J0 & _ & [X|X]); [contradiction|]. cbn [fst snd] in *.
  destruct (add_unique s pl j t g p q t0 g0 p0 q0 R J J0) as [-> ->]. apply closure_has in X as [X Y].
  split; right; rewrite destroy_dying; apply existsb_exists; eauto.
Qed.
Lemma group_eqb_refl' : forall a b, group_eqb a b = true -> a = b.
Proof. intros a b H. now apply group_eqb_eq. Qed.
Lemma pmid_code : forall s s' t cl f inp h n, reachable s -> reachable s' -> hp s' = h -> pool_sel (cl_api cl) = true -> incall t cl (trace s) -> (exists cs, open_calls t (trace s) = cl :: cs) ->
  (exists rest, stk s t = f :: FApi (cl_api cl) :: rest) ->
  runs (code f) (hp s) t inp h n -> pmid t cl (trace s) f [] ->
  newbot pool_contract pmid t (add_acts (new_acts t (hp s) h) cl) (tr_of h) (next_frames n).
Proof.
  intros s s' t cl f inp h n R R' Eh S C Op (rest & ST) Ru M. pose proof (replay_pobj s R) as Epo. pose proof (fun pl => jobs_inv pl s R) as Jv.
  assert (TN : forall o a pl, wants cl o a -> pool_of o (trace s) = Some pl -> target (add_acts [] cl) (trace s ++ []) o a pl).
  { intros o a pl W E. split; [exact W|]. eapply st_now; [exact C|exact E]. }
  remember [] as ab eqn:Eab. destruct M; try discriminate Eab; try (destruct x; discriminate Eab).
  - (* job_future *)
    code_cases Ru. pose proof A as A'. stepinfo A; unfold newbot; cbn [next_frames].
    + match goal with |- context [if ?b then _ else _] => destruct b end; cbn [rev app].
      * left. apply m_api; [exact H|act].
      * unfold pool_contract. cbn [add_acts cl_api]. unfold wants in H. destruct (cl_api cl); try contradiction; (split; [reflexivity|left; act]).
    + cbn [rev app]. unfold pool_contract. cbn [add_acts cl_api]. unfold wants in H. destruct (cl_api cl); try contradiction; (split; [reflexivity|left; act]).
  - (* the implementation *)
    code_cases Ru. stepinfo A; unfold newbot; cbn [next_frames]. specialize (Epo o).
    destruct (fst (h_pobj (hp s) o)) as [pl|] eqn:E.
    + symmetry in Epo. pose proof (TN _ _ _ H Epo) as Tg. unfold wants in H.
      destruct a; cbn [pact_frames rev app]; left; [eapply m_s0|eapply m_c0|eapply m_k0|eapply m_a0| | |eapply m_n]; eauto; try (cbn; rewrite H0; reflexivity).
      all: destruct (cl_api cl); try contradiction; destruct H as [_ H]; discriminate H.
    + cbn [rev app]. left. apply m_ub.
  - code_cases Ru; stepinfo A; unfold newbot; cbn [next_frames rev app]. left. eapply m_s1; [fact|act].
  - code_cases Ru; stepinfo A; unfold newbot; cbn [next_frames rev app]. left. eapply m_s2; [fact|act].
  - code_cases Ru; stepinfo A; unfold newbot; cbn [next_frames rev app]. left. eapply m_s3; [fact|act].
  - code_cases Ru; stepinfo A; unfold newbot; cbn [next_frames rev app]. left. apply (m_s4 _ _ _ o pl g v u caps p q _ [_]); [fact|apply bg_all; act|apply n_start].
  - code_cases Ru; stepinfo A; unfold newbot; cbn [next_frames rev app]. left. eapply m_s5; fact || (apply in_new; now left).
  - code_cases Ru; stepinfo A; unfold newbot; cbn [next_frames rev app]. right. left. split; auto. destruct H as [W Sm]. unfold wants in W. unfold pool_contract. cbn [add_acts cl_api].
    destruct (cl_api cl); try contradiction; try (destruct W as [_ W]; discriminate W). destruct W as [-> [= -> -> -> ->]].
    exists pl, p, q, j. do 2 eexists. split; [reflexivity|]. repeat (split; [fact|]). fact.
  - code_cases Ru; stepinfo A; unfold newbot; cbn [next_frames rev app]. left. eapply m_c1; [fact|act].
  - (* change *)
    code_cases Ru. pose proof (step_trace _ _ _ _ _ _ _ A) as Et. pose proof (new_acts_op _ _ _ _ _ _ _ A) as Ea. cbn [op_event] in Et, Ea. cbn [atom] in A.
    destruct (pool_change (h_pools (hp s) pl) j g) as [p' b] eqn:Ec. injection A as _ <-. change (tr_of (hp s)) with (trace s) in Et. rewrite Et, Ea. clear Et Ea. unfold newbot. destruct b; cbn [next_frames rev app].
    + unfold by_thread. cbn [actor]. rewrite Nat.eqb_refl. left. apply (m_c3 _ _ _ o pl j g [_]); [fact|apply bg_all; act|apply n_start].
    + left. eapply m_c2; [fact|act|]. eapply st_now; [exact C|]. revert Ec. unfold pool_change. destruct (jobs_find _ _) as [y|] eqn:F.
      * destruct (task_null (jb_callable y) || group_eqb (jb_group y) g) eqn:D; [|discriminate]. intros _. apply find_in in F. apply orb_true_iff in D as [D|D].
        -- left. rewrite rd_waiting by auto. intros (z & Iz & Nz). rewrite (in_nodup _ _ _ _ _ (ji_nodup _ _ _ (Jv pl)) Iz F) in Nz. destruct (jb_callable y); try discriminate D. auto.
        -- right. apply group_eqb_refl' in D. destruct (ji_job _ _ _ (Jv pl) _ _ F) as [X _]. congruence.
      * intros _. left. rewrite rd_waiting by auto. intros (z & Iz & Nz). apply jobs_find_none in F. apply F. eapply in_fst; eauto.
  - code_cases Ru; stepinfo A; unfold newbot; cbn [next_frames rev app]. eapply post_change; [fact|]. left. split; [act|fact].
  - subst x. inversion H1; try (destruct y; discriminate). code_cases Ru; stepinfo A; unfold newbot; cbn [next_frames rev app]. eapply post_change; [fact|]. right. split; [fact|]. split; [fact|]. apply in_new; now left.
  - code_cases Ru; stepinfo A; unfold newbot; cbn [next_frames rev app]. left. eapply m_k1; [fact|act].
  - (* stop *)
    code_cases Ru. pose proof (step_trace _ _ _ _ _ _ _ A) as Et. pose proof (new_acts_op _ _ _ _ _ _ _ A) as Ea. cbn [op_event] in Et, Ea. cbn [atom] in A.
    change (tr_of (hp s)) with (trace s) in Et. destruct (pool_clear (h_pools (hp s) pl) j true) as [p' [y|]] eqn:Ec; revert Ec; unfold pool_clear;
      (destruct (jobs_find _ _) as [y0|] eqn:F; [destruct (true && task_null (jb_callable y0)) eqn:Nl|]); intros Ec; try discriminate Ec; injection A as _ <-;
      rewrite Et, Ea; clear Et Ea; unfold newbot; cbn [next_frames].
    + injection Ec as _ <-. apply find_in in F. assert (Nn : jb_callable y0 <> TNull) by (intros X; rewrite X in Nl; discriminate Nl).
      unfold by_thread. cbn [actor]. rewrite Nat.eqb_refl. cbn [destroy map rev app]. left.
      apply (m_k3 _ _ _ o pl j (trace s)); [fact|apply bg_all; act|apply in_new; now left| | | |reflexivity].
      * apply happens_acts. eapply happens_now; eauto.
      * apply rd_waiting; auto. eauto.
      * apply (clearing_new s pl j y0 [jb_callable y0] _ R F); auto. now left.
    + cbn [rev app]. left. eapply m_k2; [fact|act|]. eapply st_now; [exact C|]. rewrite rd_waiting by auto. apply find_in in F. intros (z & Iz & Nz).
      rewrite (in_nodup _ _ _ _ _ (ji_nodup _ _ _ (Jv pl)) Iz F) in Nz. cbn in Nl. destruct (jb_callable y0); try discriminate Nl. auto.
    + cbn [rev app]. left. eapply m_k2; [fact|act|]. eapply st_now; [exact C|]. rewrite rd_waiting by auto. intros (z & Iz & Nz). apply jobs_find_none in F. apply F. eapply in_fst; eauto.
  - code_cases Ru; stepinfo A; unfold newbot; cbn [next_frames rev app]. eapply post_stop; [fact|]. left. split; [act|fact].
  - subst x. code_cases Ru; stepinfo A; unfold newbot; cbn [next_frames rev app]. eapply post_stop; [fact|]. right. split; [fact|]. split; [|apply in_new; now left].
    split; [fact|]. exists m. split; [fact|]. split; auto. apply settled_app. now apply clearing_end.
  - code_cases Ru; stepinfo A; unfold newbot; cbn [next_frames rev app]. left. eapply m_a1; [fact|act].
  - (* stop_all *)
    code_cases Ru. stepinfo A; unfold newbot; cbn [next_frames]. rewrite rev_app_distr. cbn [rev app]. rewrite rev_involutive. left.
    apply (m_a2 _ _ _ o pl (map fst (pl_jobs (h_pools (hp s) pl))) (trace s)); [fact|apply bg_all; act|apply in_new; now left| | |].
    + apply happens_acts. eapply happens_now; eauto.
    + intros j W. apply rd_waiting in W as (x & I & N); auto. apply (clearing_new s pl j x _ _ R I); auto. apply in_map_iff. exists (j, x). auto.
    + destruct (pl_jobs (h_pools (hp s) pl)); reflexivity.
  - subst x. code_cases Ru; stepinfo A; unfold newbot; cbn [next_frames rev app]. destruct H as [W Sm]. unfold wants in W. unfold pool_contract. cbn [add_acts cl_api].
    destruct (cl_api cl); try contradiction; try (destruct W as [_ W]; discriminate W). destruct W as [-> _].
    split; auto. exists pl. split; [fact|]. exists js. split; [fact|]. split; [|apply in_new; now left]. split; [fact|]. exists m. split; [fact|].
    intros. apply settled_app, clearing_end; auto.
  - code_cases Ru; stepinfo A; unfold newbot; cbn [next_frames rev app]. right. left. split; auto. destruct H as [W Sm]. unfold wants in W. unfold pool_contract. cbn [add_acts cl_api].
    destruct (cl_api cl); try contradiction; try (destruct W as [_ W]; discriminate W). destruct W as [-> _].
    split; [act|]. exists pl. split; [fact|]. eexists. split; [reflexivity|]. eapply st_now; [exact C|]. rewrite <- (replay_jobs pl s R). now rewrite map_length.
  - code_cases Ru. discriminate A.
Qed.

Theorem pool_calls : forall s, reachable s ->
  each_return (fun t cl tr r => pool_sel (cl_api cl) = true -> pool_contract t cl tr r) (trace s).
Proof.
  apply res_rule_quiet with (mid := pmid).
  - intros. now apply pmid_start.
  - intros t cl tr tr' r H (s & l & _ & _ & -> & _). now apply pool_contract_tr.
  - intros t cl tr tr' f g C H (s & l & _ & _ & -> & _). now apply pmid_mono.
  - intros. now apply pmid_mono.
  - apply pmid_user.
  - apply pmid_code.
  - intros s s' t cl f e inp h n R _ _. now apply pmid_throw.
  - apply pmid_above.
  - intros t cl tr r M. inversion M.
Qed.
