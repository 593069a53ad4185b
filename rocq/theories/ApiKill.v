(** * ApiKill: the destructor and the move of thread_pool meet their contracts. *)
From Verif Require Import Types Core State Ops Code Machine Base Spec SpecApi SpecPool SpecOwn SpecPoolApi Rules Events InvCtx InvQueue InvStack
  Calls Contract ContractLib Replay ReplayObj ThmObj OwnProm ApiReg ApiObj InvLock InvGuard InvJobs InvTab ApiPool.
From Verif Require SpecObj.

Section Points.
Variables (t : tid) (cl : call) (tr : list event).
Let is c := cl_api cl = c.
Let acts l := cl_acts cl = l.
Definition dropped (pl : nat) (js : list nat) (x : list frame) : Prop :=
  does cl tr (EvJobClear t pl js) (fun m => forall j, waiting_job pl j m -> clearing tr pl m j x).
(** the workers [ws] are still to be joined *)
Definition joining (pl : nat) (js : list nat) (ws : list (tid * id)) : Prop :=
  does cl tr (EvWorkersOut t pl) (fun m => In (EvJobClear t pl js) m /\ exists l1, map snd (workers_of pl m) = l1 ++ ws /\
    forall n i, In (n, i) l1 -> told t cl tr i /\ sometime cl tr (SpecObj.ended n)).
Inductive kseg (pl : nat) : list frame -> Prop :=
| k_stop : kseg pl [FPStopAll pl; FPJoin pl]
| k_clr : kseg pl [FPClrAll pl; FPJoin pl]
| k_un : forall js x, dropped pl js x -> shielded x -> kseg pl (x ++ [FPUnl pl; FPJoin pl])
| k_join : forall js, dropped pl js [] -> kseg pl [FPJoin pl]
| k_exit : forall js n i ws, dropped pl js [] -> joining pl js ((n, i) :: ws) -> kseg pl [FNExit i; FJoin n; FJoinL ws]
| k_exit1 : forall js n i ws, dropped pl js [] -> joining pl js ((n, i) :: ws) -> kseg pl [FNExit1 i; FJoin n; FJoinL ws]
| k_told : forall js n i ws x, dropped pl js [] -> joining pl js ((n, i) :: ws) -> told t cl tr i -> shielded x -> kseg pl (x ++ [FJoin n; FJoinL ws])
| k_list : forall js ws, dropped pl js [] -> joining pl js ws -> kseg pl [FJoinL ws]
| k_end : killed t pl cl tr -> kseg pl [].
Inductive kmid : frame -> list frame -> Prop :=
| q_kill : forall o, is (APDestroy o) -> acts [] -> kmid (FPKill o) []
| q_move : forall d s, is (APMove d s) -> acts [] -> kmid (FPMove d s) []
| q_dseq : forall o pl l ab f, is (APDestroy o) -> begins cl [EvPoolKill t o] -> does cl tr (EvPoolKill t o) (fun m => pool_of o m = Some pl) ->
    kseg pl l -> l = ab ++ [f] -> kmid f ab
| q_mseq : forall d s pl ab, is (APMove d s) -> begins cl [EvPoolMove t d s] -> does cl tr (EvPoolMove t d s) (fun m => (if d =? s then None else pool_of d m) = Some pl) ->
    kseg pl ab -> kmid (FPMoveS d s) ab
| q_mv0 : forall d s, is (APMove d s) -> acts [EvPoolMove t d s] -> does cl tr (EvPoolMove t d s) (fun m => (if d =? s then None else pool_of d m) = None) -> kmid (FPMoveS d s) [].
End Points.
Definition kill_sel (c : api) : bool := match c with APDestroy _ | APMove _ _ => true | _ => false end.

Lemma dropped_mono : forall t cl tr pl js x a b, dropped t cl tr pl js x -> dropped t (add_acts a cl) (tr ++ b) pl js x.
Proof.
  intros t cl tr pl js x a b H. unfold dropped in *. eapply do_imp; [|apply do_mono; exact H]. cbn. intros m K j W. apply clearing_mono. auto.
Qed.
Lemma joining_mono : forall t cl tr pl js ws a b, joining t cl tr pl js ws -> joining t (add_acts a cl) (tr ++ b) pl js ws.
Proof.
  intros t cl tr pl js ws a b H. unfold joining in *. eapply do_imp; [|apply do_mono; exact H]. cbn. intros m (J & l1 & E & K). split; auto. exists l1. split; auto.
  intros n i I. destruct (K n i I). split; [now apply told_mono|now apply st_mono].
Qed.
Lemma killed_mono : forall t cl tr pl a b, killed t pl cl tr -> killed t pl (add_acts a cl) (tr ++ b).
Proof.
  intros t cl tr pl a b (js & A & B). exists js. split.
  - eapply do_imp; [|apply do_mono; exact A]. cbn. intros m K j W. apply settled_app. auto.
  - eapply do_imp; [|apply do_mono; exact B]. cbn. intros m [J K]. split; auto. intros l n i I. destruct (K l n i I). split; [now apply told_mono|now apply st_mono].
Qed.
#[local] Hint Resolve dropped_mono joining_mono killed_mono : mono.
Lemma kseg_mono : forall t cl tr pl x a b, kseg t cl tr pl x -> kseg t (add_acts a cl) (tr ++ b) pl x.
Proof.
  intros t cl tr pl x a b H.
  destruct H; [apply k_stop|apply k_clr|eapply k_un|eapply k_join|eapply k_exit|eapply k_exit1|eapply k_told|eapply k_list|eapply k_end]; eauto with mono.
Qed.
#[local] Hint Resolve kseg_mono : mono.
Lemma kmid_mono : forall t cl tr l f ab, kmid t cl tr f ab -> kmid t cl (tr ++ l) f ab.
Proof.
  intros t cl tr l f ab M. destruct M; [apply q_kill|apply q_move|eapply q_dseq|eapply q_mseq|apply q_mv0]; eauto with mono.
  - rewrite <- (add_acts_nil cl). now apply kseg_mono.
  - rewrite <- (add_acts_nil cl). now apply kseg_mono.
Qed.
Lemma kill_contract_tr : forall t cl tr l r, kill_contract t cl tr r -> kill_contract t cl (tr ++ l) r.
Proof.
  intros t cl tr l r. assert (K : forall pl, killed t pl cl tr -> killed t pl cl (tr ++ l)) by (intros; rewrite <- (add_acts_nil cl); now apply killed_mono).
  unfold kill_contract. destruct (cl_api cl); auto.
  - intros (A & B & C). split; auto. split; auto. eapply do_imp; [|apply do_tr; exact C]. cbn. intros m. destruct (if dst =? src then _ else _); auto. intros [D E]. auto.
  - intros (A & B & C). split; auto. split; auto. eapply do_imp; [|apply do_tr; exact C]. cbn. intros m. destruct (pool_of o m); auto.
Qed.
Lemma dropped_settled : forall t cl tr pl js, dropped t cl tr pl js [] -> does cl tr (EvJobClear t pl js) (fun m => forall j, waiting_job pl j m -> settled pl j m tr).
Proof. intros t cl tr pl js H. eapply do_imp; [|exact H]. cbn. intros m K j W. apply clearing_end. auto. Qed.
Lemma join_done : forall t cl tr pl js, dropped t cl tr pl js [] -> joining t cl tr pl js [] -> killed t pl cl tr.
Proof.
  intros t cl tr pl js D J. exists js. split; [now apply dropped_settled|]. eapply do_imp; [|exact J]. cbn. intros m (I & l1 & E & K). split; auto.
  intros l n i L. apply K. rewrite app_nil_r in E. rewrite <- E. apply in_map_iff. exists (l, (n, i)). auto.
Qed.
Lemma join_pop : forall t cl tr pl js n i ws, joining t cl tr pl js ((n, i) :: ws) -> told t cl tr i -> sometime cl tr (SpecObj.ended n) -> joining t cl tr pl js ws.
Proof.
  intros t cl tr pl js n i ws J T S. eapply do_imp; [|exact J]. cbn. intros m (I & l1 & E & K). split; auto. exists (l1 ++ [(n, i)]). split; [rewrite E, <- app_assoc; reflexivity|].
  intros n' i' L. apply in_app_or in L as [L|[L|[]]]; auto. injection L as <- <-. auto.
Qed.
Lemma dropped_in : forall t cl tr pl js x, dropped t cl tr pl js x -> In (EvJobClear t pl js) tr.
Proof. intros t cl tr pl js x (_ & m & (a & b & _ & ->) & _). apply in_or_app. right. now left. Qed.
Lemma dropped_step : forall s s' t cl h n x r pl js, reachable s -> reachable s' -> hp s' = h -> (exists es, tr_of h = trace s ++ es) -> top_step (hp s) t h n x r ->
  dropped t cl (trace s) pl js x -> dropped t (add_acts (new_acts t (hp s) h) cl) (tr_of h) pl js (next_frames n ++ r).
Proof.
  intros s s' t cl h n x r pl js R R' Eh Es T D. unfold dropped. assert (K : does (add_acts (new_acts t (hp s) h) cl) (tr_of h) (EvJobClear t pl js) (fun m => forall j, waiting_job pl j m -> clearing (trace s) pl m j x)).
  { destruct Es as [es ->]. apply do_mono. exact D. }
  eapply do_imp; [|exact K]. cbn. intros m H j W. apply (clearing_step s s' t h n x r); auto.
Qed.

Lemma top_splits : forall h t h' n x gs r, x <> [] -> shielded x -> top_step h t h' n (x ++ gs) r ->
  exists r', r = r' ++ gs /\ top_step h t h' n x r'.
Proof.
  intros h t h' n x gs r N S T. destruct x as [|a x]; [contradiction|]. cbn [app] in T.
  inversion T as [v u fin r1 Eh En X|e u fin r1 Eh En X|inp f r1 Ru X|inp e f r1 Ru X]; subst.
  - exists x. split; auto. now eapply ts_ret.
  - exists x. split; auto. now eapply ts_throw.
  - exists x. split; auto. now eapply ts_code; eauto.
  - destruct x as [|b x]; [discriminate S|]. cbn [app] in *.
    match goal with H : _ :: _ = _ :: _ |- _ => injection H as -> -> end. exists x. split; auto. now eapply ts_catch; eauto.
Qed.
Lemma kseg_step : forall s s' t cl pl l h n r, reachable s -> reachable s' -> hp s' = h -> incall t cl (trace s) -> (exists es, tr_of h = trace s ++ es) -> kseg t cl (trace s) pl l ->
  top_step (hp s) t h n l r -> kseg t (add_acts (new_acts t (hp s) h) cl) (tr_of h) pl (next_frames n ++ r).
Proof.
  intros s s' t cl pl l h n r R R' Eh C Es K T. pose proof (rd_unknown _ R) as Eun. destruct K as [| |js x D Sh|js D|js m i ws D J|js m i ws D J|js m i ws x D J W Sh|js ws D J|K].
  - runT T. code_cases Ru. stepinfo A. cbn [next_frames app]. apply k_clr.
  - runT T. code_cases Ru. stepinfo A. cbn [next_frames]. rewrite <- app_assoc. cbn [app].
    apply (k_un _ _ _ _ (map fst (pl_jobs (h_pools (hp s) pl)))); [|destruct (pl_jobs (h_pools (hp s) pl)); reflexivity].
    unfold dropped. eapply do_now; eauto. intros j Wj. apply rd_waiting in Wj as (x & I & N); auto. apply (clearing_new s pl j x _ _ R I); auto. apply in_map_iff. exists (j, x). auto.
  - destruct x as [|a x]; cbn [app] in T.
    + runT T. code_cases Ru. stepinfo A. cbn [next_frames app]. eapply k_join. fact.
    + change (a :: x ++ [FPUnl pl; FPJoin pl]) with ((a :: x) ++ [FPUnl pl; FPJoin pl]) in T. assert (Ne : a :: x <> []) by discriminate. destruct (top_splits _ _ _ _ _ _ _ Ne Sh T) as (r' & -> & T1).
      rewrite app_assoc. eapply k_un; [eapply dropped_step; eauto|]. eapply shield_above; eauto.
  - runT T. code_cases Ru. stepinfo A. cbn [next_frames app]. eapply k_list; [fact|]. eapply do_now; eauto. split; [eapply dropped_in; eauto|].
    exists []. split; [|intros ? ? []]. rewrite <- (replay_workers pl _ R). reflexivity.
  - runT T. code_cases Ru. stepinfo A; cbn [next_frames app].
    + eapply k_exit1; fact.
    + apply (k_told _ _ _ _ js m i ws []); try fact; [|exact Logic.I]. right. fact.
  - runT T. code_cases Ru. stepinfo A; cbn [next_frames app].
    all: apply (k_told _ _ _ _ js m i ws [FRel i]); [fact|fact| |reflexivity]; left; apply in_new; now left.
  - destruct x as [|a x]; cbn [app] in T.
    + runT T. assert (En : SpecObj.ended m (trace s)).
      { apply (replay_end _ _ R). destruct Ru as (y & A & _). cbn [atom] in A. destruct (h_tst (hp s) m); try discriminate A. eauto. }
      code_cases Ru. stepinfo A. cbn [next_frames app]. eapply k_list; [fact|]. eapply join_pop; [fact|fact|]. eapply st_now; eauto.
    + change (a :: x ++ [FJoin m; FJoinL ws]) with ((a :: x) ++ [FJoin m; FJoinL ws]) in T. assert (Ne : a :: x <> []) by discriminate. destruct (top_splits _ _ _ _ _ _ _ Ne Sh T) as (r' & -> & T1).
      destruct Es as [es Es]. rewrite Es, app_assoc. eapply k_told; [fact|fact|fact|]. eapply shield_above; eauto.
  - runT T. destruct ws as [|[m i] ws]; code_cases Ru; stepinfo A; cbn [next_frames app].
    + apply k_end. eapply join_done; fact.
    + eapply k_exit; fact.
  - inversion T.
Qed.
Lemma kseg_nothrow : forall t cl tr pl l e, kseg t cl tr pl l -> (exists f, l = [FThrow e; f]) \/ l = [FThrow e] -> False.
Proof.
  intros t cl tr pl l e K [[f E]|E]; destruct K; try discriminate E; destruct x as [|a [|b [|c x]]]; discriminate E.
Qed.
Lemma kmid_start : forall t c pre, kill_sel c = true -> newbot kill_contract kmid t (mkCall c pre []) (pre ++ [EvCall t c]) (api_frames c).
Proof. intros t c pre S. destruct c; try discriminate S; unfold newbot; cbn [api_frames rev app]; left; [apply q_move|apply q_kill]; reflexivity. Qed.
Lemma kseg_last : forall t cl tr pl ab f, kseg t cl tr pl (ab ++ [f]) -> f = FPJoin pl \/ exists ws, f = FJoinL ws.
Proof.
  intros t cl tr pl ab f K. assert (Q : last (ab ++ [f]) FEnd = f) by apply last_last. rewrite <- Q. clear Q.
  inversion K; auto; try (cbn; eauto; fail).
  - change (x ++ [FPUnl pl; FPJoin pl]) with (x ++ [FPUnl pl] ++ [FPJoin pl]). rewrite app_assoc, last_last. auto.
  - change (x ++ [FJoin n; FJoinL ws]) with (x ++ [FJoin n] ++ [FJoinL ws]). rewrite app_assoc, last_last. eauto.
  - destruct ab; discriminate.
Qed.
Lemma kmid_user : forall t cl tr f ab, kmid t cl tr f ab -> match f with FUser _ _ | FThrow _ => False | _ => True end.
Proof. intros t cl tr f ab M. destruct M; auto. subst l. apply kseg_last in H2 as [-> |[ws ->]]; auto. Qed.
Lemma kseg_newbot : forall t cl tr o pl l, cl_api cl = APDestroy o -> begins cl [EvPoolKill t o] -> does cl tr (EvPoolKill t o) (fun m => pool_of o m = Some pl) -> kseg t cl tr pl l ->
  newbot kill_contract kmid t cl tr l.
Proof.
  intros t cl tr o pl l Ap B D K. destruct l as [|x l] using rev_ind.
  - unfold newbot. cbn [rev]. assert (Kd : killed t pl cl tr) by (inversion K; auto; destruct x; discriminate). unfold kill_contract. rewrite Ap. split; auto. split; auto.
    eapply do_imp; [|exact D]. cbn. intros m ->. auto.
  - apply newbot_snoc. left. eapply q_dseq; eauto.
Qed.
Lemma kmid_code : forall s s' t cl f inp h n, reachable s -> reachable s' -> hp s' = h -> kill_sel (cl_api cl) = true -> incall t cl (trace s) -> (exists cs, open_calls t (trace s) = cl :: cs) ->
  (exists rest, stk s t = f :: FApi (cl_api cl) :: rest) ->
  runs (code f) (hp s) t inp h n -> kmid t cl (trace s) f [] ->
  newbot kill_contract kmid t (add_acts (new_acts t (hp s) h) cl) (tr_of h) (next_frames n).
Proof.
  intros s s' t cl f inp h n R R' Eh S C Op (rest & ST) Ru M. pose proof (replay_pobj s R) as Epo. remember [] as ab eqn:Eab. destruct M; try subst ab.
  - code_cases Ru. pose proof (step_trace _ _ _ _ _ _ _ A) as Et. pose proof (new_acts_op _ _ _ _ _ _ _ A) as Ea. cbn [op_event] in Et, Ea. cbn [atom] in A.
    change (tr_of (hp s)) with (trace s) in Et. specialize (Epo o). destruct (h_pobj (hp s) o) as [im se]. cbn [fst] in Epo. injection A as _ <-. rewrite Et, Ea. clear Et Ea.
    unfold by_thread. cbn [actor]. rewrite Nat.eqb_refl. destruct im as [pl|]; cbn [next_frames].
    + eapply kseg_newbot; [exact H|apply bg_all; act|eapply do_now; eauto|]. apply k_stop.
    + unfold newbot. cbn [rev]. unfold kill_contract. cbn [add_acts cl_api]. rewrite H. split; auto. split; [apply bg_all; act|]. eapply do_now; eauto. rewrite <- Epo. act.
  - code_cases Ru. pose proof (step_trace _ _ _ _ _ _ _ A) as Et. pose proof (new_acts_op _ _ _ _ _ _ _ A) as Ea. cbn [op_event] in Et, Ea. cbn [atom] in A.
    change (tr_of (hp s)) with (trace s) in Et. specialize (Epo d). injection A as _ <-. rewrite Et, Ea. clear Et Ea. unfold by_thread. cbn [actor]. rewrite Nat.eqb_refl.
    rewrite Epo. destruct (if d =? s0 then None else pool_of d (trace s)) as [pl|] eqn:Q; cbn [next_frames]; unfold newbot; cbn [rev app]; left.
    + eapply (q_mseq _ _ _ d s0 pl [_; _]); [exact H|apply bg_all; act|eapply do_now; eauto|]. apply k_stop.
    + eapply q_mv0; [exact H|act|]. eapply do_now; eauto.
  - assert (Etr : exists es, tr_of h = trace s ++ es).
    { unfold runs in Ru. destruct (code f); [|contradiction]. destruct Ru as (x & A & _). eexists. exact (step_trace _ _ _ _ _ _ _ A). }
    cbn [app] in *. subst l. replace (next_frames n) with (next_frames n ++ []) by apply app_nil_r. assert (K := kseg_step s s' t cl pl _ h n [] R R' Eh C Etr H2 (ts_code _ _ _ _ _ _ _ Ru)).
    destruct Etr as [es Etr]. rewrite Etr in *. eapply kseg_newbot; [exact H|fact|fact|exact K].
  - assert (Kd : killed t pl cl (trace s)) by (inversion H2; auto; destruct x; discriminate).
    code_cases Ru; stepinfo A; unfold newbot; cbn [next_frames rev]; unfold kill_contract; cbn [add_acts cl_api]; rewrite H; (split; [auto|]); (split; [fact|]).
    all: eapply do_imp; [|apply do_mono; exact H1]; cbv beta; intros m Q; first [discriminate Q | rewrite Heqb, Q; (split; [fact|]); apply in_new; now left].
  - code_cases Ru; stepinfo A; unfold newbot; cbn [next_frames rev]; unfold kill_contract; cbn [add_acts cl_api]; rewrite H; (split; [auto|]); (split; [apply (bg_mono cl), bg_all; auto|]).
    all: eapply do_imp; [|apply do_mono; exact H1]; cbv beta; intros m Q; try rewrite Heqb; try rewrite Q; cbn [add_acts cl_acts]; rewrite H0; reflexivity.
Qed.
Lemma kmid_throw : forall s t cl f e inp h n, reachable s -> kill_sel (cl_api cl) = true -> incall t cl (trace s) -> (exists cs, open_calls t (trace s) = cl :: cs) ->
  runs (catch f e) (hp s) t inp h n -> kmid t cl (trace s) f [FThrow e] ->
  newbot kill_contract kmid t (add_acts (new_acts t (hp s) h) cl) (tr_of h) (next_frames n).
Proof.
  intros s t cl f e inp h n R S C Op Ru M. remember [FThrow e] as ab eqn:Eab. destruct M; try discriminate Eab; exfalso; subst.
  - eapply kseg_nothrow; [exact H2|]. left. now exists f.
  - eapply kseg_nothrow; [exact H2|]. now right.
Qed.
Lemma kmid_above : forall s s' t cl f above r h n, reachable s -> reachable s' -> hp s' = h -> kill_sel (cl_api cl) = true -> incall t cl (trace s) -> (exists cs, open_calls t (trace s) = cl :: cs) ->
  (exists rest, stk s t = above ++ f :: FApi (cl_api cl) :: rest) ->
  (exists es, tr_of h = trace s ++ es) ->
  top_step (hp s) t h n above r -> kmid t cl (trace s) f above ->
  kmid t (add_acts (new_acts t (hp s) h) cl) (tr_of h) f (next_frames n ++ r).
Proof.
  intros s s' t cl f above r h n R R' Eh S C Op (rest & ST) Es T M. destruct M; try solve [inversion T].
  - subst l. assert (T1 : top_step (hp s) t h n (ab ++ [f]) (r ++ [f])).
    { inversion T; subst; cbn [app].
      - rewrite H3. now eapply ts_ret.
      - rewrite H3. now eapply ts_throw.
      - now eapply ts_code; eauto.
      - now eapply ts_catch; eauto. }
    assert (K := kseg_step s s' t cl pl _ h n _ R R' Eh C Es H2 T1). destruct Es as [es Es]. rewrite Es in *.
    eapply q_dseq; [exact H|fact|fact|exact K|]. now rewrite app_assoc.
  - assert (K := kseg_step s s' t cl pl _ h n _ R R' Eh C Es H2 T). destruct Es as [es Es]. rewrite Es in *.
    eapply q_mseq; [exact H|fact|fact|exact K].
Qed.
Theorem kill_calls : forall s, reachable s -> each_return kill_contract (trace s).
Proof.
  intros s R. assert (K : each_return (fun t cl tr r => kill_sel (cl_api cl) = true -> kill_contract t cl tr r) (trace s)).
  { revert s R. apply res_rule_quiet with (mid := kmid).
    - intros. now apply kmid_start.
    - intros t cl tr tr' r H (s & l & _ & _ & -> & _). now apply kill_contract_tr.
    - intros t cl tr tr' f g C H (s & l & _ & _ & -> & _). now apply kmid_mono.
    - intros. now apply kmid_mono.
    - apply no_throw. apply kmid_user.
    - apply kmid_code.
    - intros s s' t cl f e inp h n R _ _. now apply kmid_throw.
    - apply kmid_above.
    - intros t cl tr r M. inversion M. subst. apply kseg_last in H2 as [H2|[ws H2]]; discriminate H2. }
  intros tr1 e tr2 E. specialize (K tr1 e tr2 E). destruct e; auto. destruct K as (cl & cs & O & A & K). exists cl, cs. split; [exact O|]. split; [exact A|].
  destruct (kill_sel (cl_api cl)) eqn:Ks; [now apply K|]. unfold kill_contract. destruct (cl_api cl); solve [exact Logic.I | discriminate Ks].
Qed.
