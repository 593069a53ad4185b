(** * InvServe: a worker starts the tasks it was given. *)
From Verif Require Import Types Core State Ops Code Machine Base Spec SpecWork SpecServe Rules InvCtx InvQueue InvStack InvRefs InvAff InvTop InvSleep Events Replay SpecApi SpecWait Calls CallLoc Contract ContractLib ThmSleep ThmApi ThmRegistry InvWork.

(** Steps of the loop before the next task. *)
Definition lp (fs : list frame) : option nat :=
  match fs with
  | [FRel _; FLoop; FUnreg; FEnd] => Some 4
  | [FLoop; FUnreg; FEnd] => Some 3
  | [FWait _ WLoop; FUnreg; FEnd] => Some 2
  | [FWait1 _ _ WLoop; FUnreg; FEnd] | [FSleep _ _ WLoop; FUnreg; FEnd] => Some 1
  | _ => None
  end.
Ltac lp_inv H :=
  unfold lp in H;
  repeat match type of H with context [match ?x with _ => _ end] => is_var x; destruct x; try discriminate H end;
  injection H as H.
Lemma lp_home : forall b k, lp b = Some k -> home b <> None.
Proof. intros b k H. lp_inv H; discriminate. Qed.
Lemma lp_pos : forall b k, lp b = Some k -> 1 <= k <= 4.
Proof. intros b k H. lp_inv H; lia. Qed.
Lemma looping_lp : forall b, looping b = true -> exists k, lp b = Some k.
Proof.
  intros b H. unfold looping in H.
  repeat match type of H with context [match ?x with _ => _ end] => is_var x; destruct x; try discriminate H end; cbn; eauto.
Qed.
(** The worker will end with an exception. *)
Definition doomed (fs : list frame) : Prop := exists e, fs = [FThrow e; FUnreg; FEnd] \/ fs = [FThrow e; FEnd].
Definition stays (k : nat) (fs : list frame) : Prop := exists a b, fs = a ++ b /\ lp b = Some k /\ sealed a.
Lemma stays_intro : forall k a b, lp b = Some k -> sealed a -> stays k (a ++ b).
Proof. intros. exists a, b. auto. Qed.
Lemma stays_lp : forall k b, lp b = Some k -> stays k b.
Proof. intros. exists [], b. repeat split; auto. now left. Qed.

Lemma loop_step : forall s t i f r h n inp, reachable s -> serving t i s -> started i (trace s) <> accepted i (trace s) -> stk s t = f :: r ->
  forall k, lp (f :: r) = Some k -> runs (code f) (hp s) t inp h n ->
  exists k', stays k' (next_frames n ++ r) /\ (k' < k \/ k' <= 3 /\ exists x, h_tr h = EvStart t i x :: h_tr (hp s)).
Proof.
  intros s t i f r h n inp R [Q Qe] P E k H Ru.
  assert (Lc : h_loc (hp s) t = Some i) by (rewrite (rd_loc _ R); exact Q).
  assert (Ne : cx_exit (h_ctxs (hp s) i) = false) by (destruct (cx_exit (h_ctxs (hp s) i)) eqn:X; auto; apply (rd_exit _ R) in X; contradiction).
  assert (Np : ctx_pending (h_ctxs (hp s) i) <> []).
  { intros X. apply P. rewrite (tasks_conserved s R i), X. now rewrite app_nil_r. }
  assert (Lh : forall k' b, lp b = Some k' -> k' < k -> exists k', stays k' b /\ (k' < k \/ k' <= 3 /\ exists x, h_tr h = EvStart t i x :: h_tr (hp s))).
  { intros k' b Hb Lt. exists k'. split; [now apply stays_lp|]. auto. }
  lp_inv H; subst k; code_cases Ru; cbn [next_frames app].
  all: try (eapply Lh; [reflexivity|lia]).
  all: try (destruct x; (eapply Lh; [reflexivity|lia])).
  all: try (eexists; split; [apply stays_intro; [reflexivity|apply sealed_destroy]|]; lia).
  - cbn [atom] in A. injection A as _ <-. rewrite Lc. eapply Lh; [reflexivity|lia].
  - cbn [atom] in A. unfold do_takesleep, with_local in A. rewrite Lc in A.
    destruct (alive (hp s) c); [|discriminate A]. destruct (i =? c) eqn:C; [|discriminate A]. apply Nat.eqb_eq in C. subst c.
    destruct (take_task (h_ctxs (hp s) i)) as [[k|] c'] eqn:T; [|apply take_none in T as [_ T]; contradiction].
    injection A as <- <-. exists 3. rewrite <- app_assoc. split; [apply stays_intro; [reflexivity|apply sealed_run]|]. right. split; [lia|]. exists k. reflexivity.
  - cbn [atom] in A. unfold do_wake in A. rewrite Lc in A.
    destruct (alive (hp s) c); [|discriminate A]. destruct (_ || _); [|discriminate A]. destruct (i =? c) eqn:C; [|discriminate A]. apply Nat.eqb_eq in C. subst c.
    destruct (take_task (clear_wakeup (h_ctxs (hp s) i))) as [[k|] c'] eqn:T; [|apply take_none in T as [_ T]; contradiction].
    injection A as <- <-. exists 3. cbn [fst snd]. rewrite <- app_assoc. split; [apply stays_intro; [reflexivity|apply sealed_run]|]. right. split; [lia|]. exists k. reflexivity.
  - cbn [atom] in A. op_unfold A. rewrite Lc in A. brki A; try discriminate A. injection A as _ <-. rewrite Ne. eapply Lh; [reflexivity|lia].
Qed.

Lemma over_step : forall h t pre h' n rest k a b, lstep h t pre h' n -> pre ++ rest = a ++ b -> lp b = Some k ->
  sealed a -> a <> [] -> stays k (next_frames n ++ rest) \/ doomed (next_frames n ++ rest).
Proof.
  intros h t pre h' n rest k a b L E H S N.
  destruct a as [|f a]; [congruence|]. clear N. pose proof (seal_tail _ _ S) as Sa.
  assert (One : pre = [f] -> a <> [] -> stays k (next_frames n ++ rest) \/ doomed (next_frames n ++ rest)).
  { intros -> Na. cbn in E. injection E as ->. left. rewrite app_assoc. apply stays_intro; auto. now apply seal_app. }
  assert (Two : forall g a', pre = [f; g] -> a = g :: a' -> a' <> [] -> stays k (next_frames n ++ rest) \/ doomed (next_frames n ++ rest)).
  { intros g a' -> -> Na. cbn in E. injection E as ->. left. rewrite app_assoc. apply stays_intro; auto. apply seal_app; auto.
    now apply seal_tail in Sa. }
  destruct a as [|g a].
  - destruct S as [X|(a' & g & X & S)]; [discriminate|]. destruct a' as [|x a']; cbn in X; injection X as ->; [|now destruct a'].
    clear One Two Sa. destruct g; try discriminate S; clear S; destruct L as [c0 u fin|v u fin|e0 u fin|inp f0 h' n Ru|inp e0 g0 h' n Ru|x c0]; cbn in E; try discriminate E; injection E as ? E; subst; try discriminate.
    + destruct Ru.
    + lp_inv H; subst k; code_cases Ru; cbn [next_frames app]; try discriminate A.
      right. exists e. now left.
    + left. code_cases Ru; cbn [next_frames]; apply stays_intro; auto; try (now left);
        try (right; eexists [], _; split; [reflexivity|reflexivity]);
        try (destruct x); right; eexists [_], _ + eexists [], _; (split; [reflexivity|reflexivity]).
    + left. code_cases Ru; cbn [next_frames]. now apply stays_lp.
  - destruct L as [c u fin|v u fin|e u fin|inp f0 h' n Ru|inp e g0 h' n Ru|x c]; cbn in E; injection E; intros; subst;
      try (apply One; [reflexivity|discriminate]; fail).
    + destruct a as [|g1 a]; [|eapply Two; [reflexivity|reflexivity|discriminate]].
      assert (Sg : seal g = true).
      { destruct Sa as [X|(a' & g1 & X & Sg)]; [discriminate|]. destruct a' as [|y a']; cbn in X; [injection X as ->; auto|injection X; intros Y; now destruct a']. }
      left. destruct g; try discriminate Sg; code_cases Ru; try discriminate A; []. cbn [next_frames].
      apply stays_intro; auto. right. eexists [], (FThrow _). split; reflexivity.
    + destruct a as [|g1 a]; [|eapply Two; [reflexivity|reflexivity|discriminate]].
      destruct Sa as [X|(a' & g1 & X & Sg)]; [discriminate|]. destruct a' as [|y a']; cbn in X; [injection X as <-; discriminate Sg|injection X; intros Y; now destruct a'].
Qed.
Lemma doomed_step : forall h t pre h' n rest, lstep h t pre h' n -> doomed (pre ++ rest) -> doomed (next_frames n ++ rest).
Proof.
  intros h t pre h' n rest L (e & D).
  destruct L as [c u fin|v u fin|e0 u fin|inp f0 h' n Ru|inp e0 g0 h' n Ru|x c]; cbn in D; destruct D as [D|D]; try discriminate D; injection D; intros; subst; try (now destruct Ru).
  code_cases Ru. exists e. now right.
Qed.

Definition on (k : nat) (fs : list frame) : Prop := stays k fs \/ k = 1 /\ doomed fs.
Lemma on_cons : forall k fs, on k fs -> exists f r, fs = f :: r.
Proof.
  intros k fs [(a & b & -> & H & _)|(_ & e & [-> | ->])]; [|eauto|eauto]. destruct a; cbn; eauto. destruct b; [discriminate H|eauto].
Qed.
Lemma on_pos : forall k fs, on k fs -> 1 <= k <= 4.
Proof. intros k fs [(a & b & _ & H & _)|(-> & _)]; [eapply lp_pos; eauto|lia]. Qed.

(** One step of the execution, as long as a task waits. *)
Lemma serve_step : forall s l s1 t i k, reachable s -> serving t i s -> started i (trace s) <> accepted i (trace s) -> step s l = Some s1 -> ubs s1 = None -> on k (stk s t) ->
  exists k', on k' (stk s1 t) /\ k' + (if mine t l && at_home s t then 1 else 0) + 3 * length (started i (trace s)) <= k + 3 * length (started i (trace s1)).
Proof.
  intros s l s1 t i k R Q P St U H.
  destruct (run_grows [l] s s1) as (es & Es); [cbn; now rewrite St|].
  assert (Mono : length (started i (trace s)) <= length (started i (trace s1))).
  { rewrite Es. unfold started. rewrite flat_map_app, app_length. lia. }
  destruct (step_move s l s1 St U) as (_ & [(d & -> & Ek & Et)|(u & pre & rest & h & n & M & E & L & ->)]).
  - exists k. rewrite Ek. cbn [mine andb]. split; auto. lia.
  - rewrite M. cbn [stk] in *. destruct (u =? t) eqn:Eu.
    + apply Nat.eqb_eq in Eu as ->.
      assert (Ek : set_next (stk s) t n rest t = next_frames n ++ rest).
      { destruct n as [fs|c cfs fs]; cbn [set_next next_frames]; now rewrite upd_same. }
      rewrite Ek. unfold at_home. destruct H as [(a & b & Ea & Hb & S)|(-> & D)].
      2: { rewrite E in D. assert (Hn : home (stk s t) = None) by (destruct D as (e & [D|D]); rewrite E, D; reflexivity). rewrite Hn.
           exists 1. split; [right; split; auto; eapply doomed_step; eauto|]. cbn [andb]. lia. }
      destruct a as [|f a].
      * cbn in Ea. rewrite Ea. destruct (home b) eqn:Hh; [|elim (lp_home _ _ Hb Hh)]. cbn [andb]. destruct b as [|f r]; [discriminate Hb|].
        rewrite Ea in E.
        assert (X : exists inp, pre = [f] /\ rest = r /\ runs (code f) (hp s) t inp h n).
        { destruct L as [c u fin|v u fin|e u fin|inp f0 h' n Ru|inp e g0 h' n Ru|x c]; cbn in E; injection E as ? E; subst; try discriminate Hb.
          exists inp. auto. }
        destruct X as (inp & -> & -> & Ru).
        destruct (loop_step s t i f r h n inp R Q P Ea k Hb Ru) as (k' & X1 & [X2|(X2 & x & X3)]).
        -- exists k'. split; [now left|]. lia.
        -- exists k'. split; [now left|]. pose proof (lp_pos _ _ Hb).
           assert (length (started i (trace (mkSt h (set_next (stk s) t n r) None))) = 1 + length (started i (trace s))).
           { unfold trace. cbn [hp]. rewrite X3. cbn [rev]. unfold started. rewrite flat_map_app, app_length. cbn [flat_map]. rewrite Nat.eqb_refl. cbn. lia. }
           lia.
      * rewrite Ea. destruct (home ((f :: a) ++ b)) eqn:Hh; [apply home_above in Hh; auto; discriminate|]. cbn [andb].
        destruct (over_step (hp s) t pre h n rest k (f :: a) b) as [X|X]; auto; [congruence|discriminate| |].
        -- exists k. split; [now left|]. lia.
        -- exists 1. split; [now right|]. pose proof (lp_pos _ _ Hb). lia.
    + exists k. cbn [andb].
      assert (Ek : set_next (stk s) u n rest t = stk s t).
      { destruct (on_cons _ _ H) as (f & r & Ef). apply Nat.eqb_neq in Eu. destruct n as [fs|c cfs fs]; cbn [set_next].
        - apply upd_other. congruence.
        - rewrite upd_other by congruence. apply upd_other. pose proof (spawn_not s u pre rest h c cfs fs t f r R E L Ef). congruence. }
      rewrite Ek. split; auto. lia.
Qed.

Theorem serve_bound : forall ls s t i k s' n, reachable s -> on k (stk s t) -> all_along (serving t i) s ls -> run s ls = Some s' -> ubs s' = None ->
  length (started i (trace s')) < n -> n <= length (accepted i (trace s)) ->
  exists k', on k' (stk s' t) /\ k' + home_steps t s ls + 3 * length (started i (trace s)) <= k + 3 * length (started i (trace s')).
Proof.
  induction ls as [|l ls IH]; intros s t i k s' n R H Q Rn U Lt Le.
  - cbn in Rn. injection Rn as <-. exists k. cbn. split; auto. lia.
  - pose proof Rn as Rn0. cbn in Rn, Q |- *. destruct (step s l) as [s1|] eqn:St; [|discriminate Rn]. destruct Q as [Q0 Q].
    pose proof (run_ub _ _ _ Rn U) as U1. pose proof (reachable_step _ _ _ R St) as R1.
    assert (Mono : forall a b, (exists es, trace b = trace a ++ es) -> length (started i (trace a)) <= length (started i (trace b)) /\ length (accepted i (trace a)) <= length (accepted i (trace b))).
    { intros a b (es & Es). rewrite Es. unfold started, accepted. rewrite !flat_map_app, !app_length. lia. }
    destruct (Mono s s') as [M1 _]; [eapply run_grows; exact Rn0|].
    destruct (Mono s s1) as [_ M2]; [apply (run_grows [l]); cbn; now rewrite St|].
    assert (P : started i (trace s) <> accepted i (trace s)) by (intros X; rewrite <- X in Le; lia).
    destruct (serve_step s l s1 t i k R Q0 P St U1 H) as (k1 & X1 & X2).
    destruct (IH s1 t i k1 s' n R1 X1 Q Rn U Lt ltac:(lia)) as (k' & Y1 & Y2). exists k'. split; auto. lia.
Qed.

Lemma serve_moves : forall s t i, reachable s -> ubs s = None -> serving t i s -> started i (trace s) <> accepted i (trace s) -> at_home s t = true ->
  (exists k, on k (stk s t)) -> exists s', step s (LStep t 0) = Some s'.
Proof.
  intros s t i R U [Q Qe] P H (k & O). unfold at_home in H. destruct (home (stk s t)) as [k0|] eqn:Hk; [clear H|discriminate H].
  assert (Hl : lp (stk s t) = Some k).
  { destruct O as [(a & b & Ea & Hb & S)|(_ & e & [X|X])]; [|rewrite X in Hk; discriminate Hk|rewrite X in Hk; discriminate Hk].
    rewrite Ea in Hk |- *. apply home_above in Hk; auto. now subst. }
  destruct (stk s t) as [|f r] eqn:E; [discriminate Hk|].
  assert (F : focus (stk s t) = Some (code f, r)) by (rewrite E; destruct f; try reflexivity; discriminate Hk).
  unfold step. rewrite U, F.
  assert (Nb : match code f with Do o _ => atom (hp s) t o 0 <> ABlock | Halt => False end).
  { lp_inv Hl; subst k; cbn [code]; intros A; cbn [atom] in A; op_unfold A; try discriminate A; brki A; try discriminate A;
    (destruct (sleep_woken s R t _ _ E) as (Lc & W1 & W2); rewrite (rd_loc s R), Q in Lc; injection Lc as <-;
    assert (Wk : cx_wakeup (h_ctxs (hp s) i) = true)
      by (apply W2; left; intros X; apply P; rewrite (tasks_conserved s R i), X; now rewrite app_nil_r);
    match goal with H : _ || _ = false |- _ => apply orb_false_iff in H as [H _]; rewrite W1, Wk in H; discriminate H end). }
  destruct (code f) as [T o kk|]; [|destruct Nb]. cbn [exec]. destruct (atom (hp s) t o 0); [congruence| |]; eauto.
Qed.

Theorem worker_serves : forall s t i ls s', reachable s -> looping (stk s t) = true -> all_along (serving t i) s ls -> run s ls = Some s' -> ubs s' = None ->
  (exists r, started i (trace s') = accepted i (trace s) ++ r) \/
  home_steps t s ls <= 3 * waiting i (trace s) /\ (at_home s' t = true -> exists s2, step s' (LStep t 0) = Some s2).
Proof.
  intros s t i ls s' R H Q Rn U. destruct (looping_lp _ H) as (k & Hk). pose proof (run_reachable' _ _ _ R Rn) as R'.
  destruct (run_grows _ _ _ Rn) as (es & Es).
  pose proof (tasks_conserved s R i) as C. pose proof (tasks_conserved s' R' i) as C'.
  assert (A' : accepted i (trace s') = accepted i (trace s) ++ accepted i es) by (rewrite Es; unfold accepted; now rewrite flat_map_app).
  destruct (le_lt_dec (length (accepted i (trace s))) (length (started i (trace s')))) as [Le|Lt].
  - left. exists (skipn (length (accepted i (trace s))) (started i (trace s'))).
    rewrite A' in C'. rewrite <- (firstn_skipn (length (accepted i (trace s))) (started i (trace s'))) at 1. f_equal.
    apply (f_equal (firstn (length (accepted i (trace s))))) in C'. rewrite !firstn_app in C'.
    rewrite Nat.sub_diag, firstn_all, firstn_O, app_nil_r in C'.
    replace (length (accepted i (trace s)) - length (started i (trace s'))) with 0 in C' by lia.
    rewrite firstn_O, app_nil_r in C'. congruence.
  - right. destruct (serve_bound ls s t i k s' _ R (or_introl (stays_lp _ _ Hk)) Q Rn U Lt (le_n _)) as (k' & X & Y).
    pose proof (on_pos _ _ X). pose proof (lp_pos _ _ Hk). unfold waiting. split; [lia|]. intros At.
    apply serve_moves with (i := i); eauto; [eapply all_along_last; eauto|].
    intros Z. rewrite <- Z in A'. apply (f_equal (@length _)) in A'. rewrite app_length in A'. lia.
Qed.

Lemma serving_back : forall t i s s' es, serving t i s' -> trace s' = trace s ++ es -> (forall j, ~ In (EvLoc t (Some j)) es) -> serving t i s.
Proof.
  intros t i s s' es [Q X] E N. rewrite E in Q, X. split; [destruct (loc_same t es (trace s) N); congruence|].
  intros (u & Hu). apply X. exists u. apply in_or_app. now left.
Qed.
Theorem serving_throughout : forall ls s t i s', serving t i s' -> run s ls = Some s' -> (forall j, ~ since s s' (EvLoc t (Some j))) -> all_along (serving t i) s ls.
Proof.
  induction ls as [|l ls IH]; intros s t i s' Q H N.
  - cbn in *. injection H as <-. auto.
  - pose proof H as H0. cbn in H |- *. destruct (run_grows _ _ _ H0) as (es & E). split.
    + apply (serving_back t i s s' es); auto. intros j Hin. apply in_split in Hin as (a & b & ->). apply (N j). exists a, b. exact E.
    + destruct (step s l) as [s1|] eqn:St; [|exact I]. apply (IH s1 t i s'); auto. intros j X. apply (N j).
      destruct (run_grows [l] s s1) as (e1 & E1); [cbn; now rewrite St|]. eapply since_app; eauto.
Qed.
