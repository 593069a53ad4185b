(** * InvWork: a worker that was asked to exit ends. *)
From Verif Require Import Types Core State Ops Code Machine Base Spec SpecWork Rules InvCtx InvQueue InvStack InvRefs InvAff InvTop InvSleep Events Replay SpecApi SpecWait Calls CallLoc Contract ContractLib ThmSleep ThmApi.

Lemma step_move : forall s l s1, step s l = Some s1 -> ubs s1 = None ->
  ubs s = None /\
  ((exists d, l = LTick d /\ stk s1 = stk s /\ trace s1 = trace s ++ [EvTick (Zpos d)]) \/
   exists u pre rest h n, (forall t, mine t l = (u =? t)) /\ stk s u = pre ++ rest /\ lstep (hp s) u pre h n /\
     s1 = mkSt h (set_next (stk s) u n rest) None).
Proof.
  intros s l s1 H U1. unfold step in H. destruct (ubs s) eqn:U; [discriminate|]. split; auto.
  destruct l.
  - right. destruct (focus (stk s t)) as [[a rest]|] eqn:F; [|discriminate].
    destruct a as [T o k|]; cbn in H; [|discriminate].
    destruct (atom (hp s) t o inp) eqn:A; [discriminate| |].
    + injection H as <-. discriminate U1.
    + injection H as <-.
      assert (R : runs (Do o k) (hp s) t inp h (k x)) by (cbn; eauto).
      apply focus_cases in F as [(f & E & F)|[(e & g & E & F)|(y & c & E & F)]]; rewrite F in R.
      * exists t, [f], rest, h, (k x). repeat split; auto. eapply ls_code; eauto.
      * exists t, [FThrow e; g], rest, h, (k x). repeat split; auto. eapply ls_catch; eauto.
      * cbn in R. destruct R as (z & R & En). inversion R; subst.
        exists t, [FRes y; FApi c], rest. do 2 eexists. split; [reflexivity|]. split; [exact E|]. split; [apply ls_res|]. now rewrite En.
  - right. destruct (stk s t) as [|[] r] eqn:E; try discriminate. injection H as <-.
    exists t, [FUser u fin], r. do 2 eexists. split; [reflexivity|]. split; [exact E|]. split; [apply (ls_call _ _ c)|].
    cbn [set_next]. now rewrite <- app_assoc.
  - right. destruct (stk s t) as [|[] r] eqn:E; try discriminate. injection H as <-.
    exists t, [FUser u fin], r. do 2 eexists. split; [reflexivity|]. split; [exact E|]. split; [apply ls_ret|]. reflexivity.
  - right. destruct (stk s t) as [|[] r] eqn:E; try discriminate. injection H as <-.
    exists t, [FUser u fin], r. do 2 eexists. split; [reflexivity|]. split; [exact E|]. split; [apply ls_throw|]. reflexivity.
  - left. injection H as <-. exists d. repeat split; auto.
Qed.

(** The frame next to the loop while a task runs, is destroyed, or has thrown. *)
Definition seal (f : frame) : bool := match f with FPoEnd _ | FDestroy _ | FThrow _ => true | _ => false end.
Definition sealed (a : list frame) : Prop := a = [] \/ exists a' f, a = a' ++ [f] /\ seal f = true.
(** [k] steps of the loop remain. *)
Definition left_ (k : nat) (fs : list frame) : Prop := exists a b, fs = a ++ b /\ home b = Some k /\ sealed a.

Ltac home_inv H :=
  unfold home in H;
  repeat match type of H with context [match ?x with _ => _ end] => is_var x; destruct x; try discriminate H end;
  injection H as H.
Lemma home_seal : forall b k, home b = Some k -> forall f, In f b -> seal f = false.
Proof. intros b k H f Hin. home_inv H; cbn in Hin; repeat (destruct Hin as [<-|Hin]; [reflexivity|]); destruct Hin. Qed.
Lemma home_pos : forall b k, home b = Some k -> 1 <= k.
Proof. intros b k H. home_inv H; lia. Qed.
Lemma home_above : forall a b k, sealed a -> home (a ++ b) = Some k -> a = [].
Proof.
  intros a b k [-> |(a' & f & -> & S)] H; auto. exfalso.
  rewrite (home_seal _ _ H f) in S; [discriminate|]. rewrite <- app_assoc. apply in_or_app. right. now left.
Qed.
Lemma seal_cons : forall a, sealed a -> forall f, sealed (f :: a) \/ a = [].
Proof. intros a [-> |(a' & g & -> & S)] f; auto. left. right. exists (f :: a'), g. auto. Qed.
Lemma seal_app : forall x a, sealed a -> a <> [] -> sealed (x ++ a).
Proof. intros x a [-> |(a' & f & -> & S)] N; [congruence|]. right. exists (x ++ a'), f. now rewrite app_assoc. Qed.
Lemma seal_tail : forall f a, sealed (f :: a) -> sealed a.
Proof.
  intros f a [X|(a' & g & X & S)]; [discriminate|]. destruct a' as [|x a']; cbn in X; injection X as -> ->; [now left|].
  right. eauto.
Qed.
Lemma sealed_destroy : forall ks, sealed (destroy ks).
Proof. destruct ks; [now left|]. right. exists [], (FDestroy (map DTask (t :: ks))). auto. Qed.
Lemma sealed_run : forall c k, sealed (run_one c k).
Proof. intros. right. exists [FRun k; FDrop k], (FPoEnd c). auto. Qed.

Lemma left_intro : forall k a b, home b = Some k -> sealed a -> left_ k (a ++ b).
Proof. intros. exists a, b. auto. Qed.
Lemma left_home : forall k b, home b = Some k -> left_ k b.
Proof. intros. exists [], b. repeat split; auto. now left. Qed.
(** A worker starts or destroys a task only with an event. *)
Definition calm_next (h h' : heap) (t : tid) (fs : list frame) : Prop :=
  home fs <> None \/ (exists i k, h_tr h' = EvStart t i k :: h_tr h) \/ exists k l r, fs = FDestroy (DTask k :: l) :: r.
Lemma home_step : forall s t f r h n inp, reachable s -> asked t s -> stk s t = f :: r ->
  forall k, home (f :: r) = Some k -> runs (code f) (hp s) t inp h n ->
  h_tr h = EvThreadEnd t :: h_tr (hp s) \/
  exists k', left_ k' (next_frames n ++ r) /\ k' < k /\ calm_next (hp s) h t (next_frames n ++ r).
Proof.
  intros s t f r h n inp R Q E k H Ru.
  assert (Lh : forall k' b, home b = Some k' -> k' < k ->
    h_tr h = EvThreadEnd t :: h_tr (hp s) \/ exists k', left_ k' b /\ k' < k /\ calm_next (hp s) h t b).
  { intros k' b Hb Lt. right. exists k'. split; [now apply left_home|]. split; auto. left. congruence. }
  home_inv H; subst k; code_cases Ru; cbn [next_frames app].
  all: try (eapply Lh; [reflexivity|lia]).
  all: try (destruct x; (eapply Lh; [reflexivity|lia])).
  all: try (right; eexists; split; [apply left_intro; [reflexivity|apply sealed_destroy]|]; split; [lia|];
            destruct x; [left; discriminate|right; right; do 3 eexists; reflexivity]).
  - destruct x as [k| |n]; try (eapply Lh; [reflexivity|lia]); []. right. exists 6. rewrite <- app_assoc.
    split; [apply left_intro; [reflexivity|apply sealed_run]|]. split; [lia|]. right. left. cbn [atom] in A.
    op_unfold A. brki A; try discriminate A; inversion A; subst; hs; eauto.
  - destruct x as [k| |n]; try (eapply Lh; [reflexivity|lia]); []. right. exists 5. rewrite <- app_assoc.
    split; [apply left_intro; [reflexivity|apply sealed_run]|]. split; [lia|]. right. left. cbn [atom] in A.
    op_unfold A. brki A; try discriminate A; inversion A; subst; hs; eauto.
  - destruct x as [b [k|]]; cbn [fst snd]; try (eapply Lh; [reflexivity|lia]); []. right. exists 6. rewrite <- app_assoc.
    split; [apply left_intro; [reflexivity|apply sealed_run]|]. split; [lia|]. right. left. cbn [atom] in A.
    op_unfold A. brki A; try discriminate A; inversion A; subst; hs; eauto.
  - destruct x as [b [k|]]; cbn [fst snd]; try (eapply Lh; [reflexivity|lia]); []. right. exists 5. rewrite <- app_assoc.
    split; [apply left_intro; [reflexivity|apply sealed_run]|]. split; [lia|]. right. left. cbn [atom] in A.
    op_unfold A. brki A; try discriminate A; inversion A; subst; hs; eauto.
  - destruct x; [eapply Lh; [reflexivity|lia]|]. exfalso. cbn [atom] in A. op_unfold A. rewrite (rd_loc _ R) in A.
    destruct (attached t (trace s)) as [i|] eqn:At; [|discriminate A].
    brki A; try discriminate A. injection A as _ A. apply Q in At. apply (rd_exit _ R) in At. congruence.
  - left. cbn [atom] in A. injection A as <- <-. reflexivity.
Qed.

Lemma above_step : forall h t pre h' n rest k a b, lstep h t pre h' n -> pre ++ rest = a ++ b -> home b = Some k ->
  sealed a -> a <> [] -> exists k', left_ k' (next_frames n ++ rest) /\ k' <= k.
Proof.
  intros h t pre h' n rest k a b L E H S N.
  destruct a as [|f a]; [congruence|]. clear N. pose proof (seal_tail _ _ S) as Sa.
  assert (One : pre = [f] -> a <> [] -> exists k', left_ k' (next_frames n ++ rest) /\ k' <= k).
  { intros -> Na. cbn in E. injection E as ->. exists k. split; [|lia]. rewrite app_assoc. apply left_intro; auto. now apply seal_app. }
  assert (Two : forall g a', pre = [f; g] -> a = g :: a' -> a' <> [] -> exists k', left_ k' (next_frames n ++ rest) /\ k' <= k).
  { intros g a' -> -> Na. cbn in E. injection E as ->. exists k. split; [|lia]. rewrite app_assoc. apply left_intro; auto. apply seal_app; auto.
    now apply seal_tail in Sa. }
  destruct a as [|g a].
  - destruct S as [X|(a' & g & X & S)]; [discriminate|]. destruct a' as [|x a']; cbn in X; injection X as ->; [|now destruct a'].
    clear One Two Sa. destruct g; try discriminate S; clear S; destruct L as [c0 u fin|v u fin|e0 u fin|inp f0 h' n Ru|inp e0 g0 h' n Ru|x c0]; cbn in E; try discriminate E; injection E as ? E; subst; try discriminate.
    + destruct Ru.
    + home_inv H; subst k; code_cases Ru; cbn [next_frames app]; try discriminate A;
        (eexists; split; [apply (left_intro _ [FThrow e]); [reflexivity|right; exists [], (FThrow e); auto]|lia]).
    + exists k. split; [|lia]. code_cases Ru; cbn [next_frames]; apply left_intro; auto; try (now left);
        try (right; eexists [], _; split; [reflexivity|reflexivity]);
        try (destruct x); right; eexists [_], _ + eexists [], _; (split; [reflexivity|reflexivity]).
    + exists k. split; [|lia]. code_cases Ru; cbn [next_frames]. now apply left_home.
  - destruct L as [c u fin|v u fin|e u fin|inp f0 h' n Ru|inp e g0 h' n Ru|x c]; cbn in E; injection E; intros; subst;
      try (apply One; [reflexivity|discriminate]; fail).
    + destruct a as [|g1 a]; [|eapply Two; [reflexivity|reflexivity|discriminate]].
      assert (Sg : seal g = true).
      { destruct Sa as [X|(a' & g1 & X & Sg)]; [discriminate|]. destruct a' as [|y a']; cbn in X; [injection X as ->; auto|injection X; intros Y; now destruct a']. }
      exists k. split; [|lia]. destruct g; try discriminate Sg; code_cases Ru; try discriminate A; []. cbn [next_frames].
      apply left_intro; auto. right. eexists [], (FThrow _). split; reflexivity.
    + destruct a as [|g1 a]; [|eapply Two; [reflexivity|reflexivity|discriminate]].
      destruct Sa as [X|(a' & g1 & X & Sg)]; [discriminate|]. destruct a' as [|y a']; cbn in X; [injection X as <-; discriminate Sg|injection X; intros Y; now destruct a'].
Qed.

(** ** Executions *)
Lemma spawn_not : forall s u pre rest h c cfs fs t f r, reachable s -> stk s u = pre ++ rest -> lstep (hp s) u pre h (GoSpawn c cfs fs) ->
  stk s t = f :: r -> c <> t.
Proof.
  intros s u pre rest h c cfs fs t f r R E L Et ->.
  destruct (lstep_tst _ _ _ _ _ L) as [(b & k & inp & _ & F & _ & _ & X)|[(_ & X & _)|((y & X) & _)]]; try discriminate X.
  injection X as -> _ _. rewrite (fresh_empty s _ R F) in Et. discriminate.
Qed.
Lemma left_cons : forall k fs, left_ k fs -> exists f r, fs = f :: r.
Proof. intros k fs (a & b & -> & H & _). destruct a; cbn; eauto. destruct b; [discriminate H|eauto]. Qed.

(** One step of the execution. *)
Lemma work_step : forall s l s1 t k, reachable s -> asked t s -> step s l = Some s1 -> ubs s1 = None -> left_ k (stk s t) ->
  (exists es, trace s1 = trace s ++ es) /\
  (trace s1 = trace s ++ [EvThreadEnd t] \/
   exists k', left_ k' (stk s1 t) /\ k' + (if mine t l && at_home s t then 1 else 0) <= k /\
     (mine t l = false -> stk s1 t = stk s t) /\
     (mine t l = true -> at_home s t = true -> calm_next (hp s) (hp s1) t (stk s1 t))).
Proof.
  intros s l s1 t k R Q St U H. destruct (step_move s l s1 St U) as (_ & [(d & -> & Es & Et)|(u & pre & rest & h & n & M & E & L & ->)]).
  - split; [eauto|]. right. exists k. rewrite Es. cbn. rewrite Nat.add_0_r. repeat split; auto. discriminate.
  - split.
    { destruct (lstep_trace _ _ _ _ _ L) as (es & Et & _). exists es. exact Et. }
    rewrite M. destruct (u =? t) eqn:Eu.
    + apply Nat.eqb_eq in Eu as ->. cbn [stk hp].
      assert (Es : set_next (stk s) t n rest t = next_frames n ++ rest).
      { destruct n as [fs|c cfs fs]; cbn [set_next next_frames]; now rewrite upd_same. }
      rewrite Es. unfold at_home. destruct H as (a & b & Ea & Hb & S).
      destruct a as [|f a].
      * cbn in Ea. rewrite Ea, Hb. cbn [andb]. destruct b as [|f r]; [discriminate Hb|].
        rewrite Ea in E.
        assert (X : exists inp, pre = [f] /\ rest = r /\ runs (code f) (hp s) t inp h n).
        { destruct L as [c u fin|v u fin|e u fin|inp f0 h' n Ru|inp e g0 h' n Ru|x c]; cbn in E; injection E as ? E; subst; try discriminate Hb.
          exists inp. auto. }
        destruct X as (inp & -> & -> & Ru).
        destruct (home_step s t f r h n inp R Q Ea k Hb Ru) as [X|(k' & X1 & X2 & X3)].
        -- left. unfold trace. cbn [hp]. rewrite X. reflexivity.
        -- right. exists k'. split; auto. split; [lia|]. split; [discriminate|auto].
      * right. rewrite Ea.
        destruct (home ((f :: a) ++ b)) eqn:Hh; [apply home_above in Hh; auto; discriminate|].
        destruct (above_step (hp s) t pre h n rest k (f :: a) b) as (k' & X1 & X2); auto; [congruence|discriminate|].
        exists k'. rewrite andb_false_r. split; auto. split; [lia|]. split; discriminate.
    + right. exists k. cbn [andb]. rewrite Nat.add_0_r.
      assert (Es : set_next (stk s) u n rest t = stk s t).
      { destruct (left_cons _ _ H) as (f & r & Ef). apply Nat.eqb_neq in Eu. destruct n as [fs|c cfs fs]; cbn [set_next].
        - apply upd_other. congruence.
        - rewrite upd_other by congruence. apply upd_other. pose proof (spawn_not s u pre rest h c cfs fs t f r R E L Ef). congruence. }
      cbn [stk]. rewrite Es. repeat split; auto. discriminate.
Qed.

Lemma since_app : forall s s1 s' e es, trace s1 = trace s ++ es -> since s1 s' e -> since s s' e.
Proof. intros s s1 s' e es E (a & b & X). exists (es ++ a), b. now rewrite X, E, <- !app_assoc. Qed.
Lemma run_grows : forall ls s s', run s ls = Some s' -> exists es, trace s' = trace s ++ es.
Proof.
  induction ls as [|l ls IH]; cbn; intros s s' H; [injection H as <-; exists []; now rewrite app_nil_r|].
  destruct (step s l) as [s1|] eqn:St; [|discriminate]. destruct (IH _ _ H) as (es & E).
  assert (X : exists e1, trace s1 = trace s ++ e1).
  { destruct (ubs s1) eqn:U.
    - unfold step in St. destruct (ubs s); [discriminate|]. exists []. rewrite app_nil_r.
      destruct l; try (destruct (stk s t) as [|[] r]; try discriminate; injection St as <-; discriminate U); [|injection St as <-; discriminate U].
      destruct (focus (stk s t)) as [[[T o k|] rest]|]; try discriminate. cbn in St.
      destruct (atom (hp s) t o inp); try discriminate; injection St as <-; [reflexivity|discriminate U].
    - destruct (step_move s l s1 St U) as (_ & [(d & -> & Es & Et)|(u & pre & rest & h & n & M & Eq & L & ->)]); [eauto|].
      destruct (lstep_trace _ _ _ _ _ L) as (e1 & Et & _). exists e1. exact Et. }
  destruct X as (e1 & E1). exists (e1 ++ es). now rewrite E, E1, app_assoc.
Qed.
Lemma run_ub : forall ls s s', run s ls = Some s' -> ubs s' = None -> ubs s = None.
Proof.
  intros [|l ls] s s' H U; cbn in H; [congruence|]. unfold step in H. destruct (ubs s); [discriminate|reflexivity].
Qed.

Theorem work_bound : forall ls s t k s', reachable s -> left_ k (stk s t) -> all_along (asked t) s ls -> run s ls = Some s' -> ubs s' = None ->
  since s s' (EvThreadEnd t) \/ exists k', left_ k' (stk s' t) /\ k' + home_steps t s ls <= k.
Proof.
  induction ls as [|l ls IH]; intros s t k s' R H Q Rn U.
  - right. cbn in Rn. injection Rn as <-. exists k. cbn. rewrite Nat.add_0_r. auto.
  - cbn in Rn, Q |- *. destruct (step s l) as [s1|] eqn:St; [|discriminate Rn]. destruct Q as [Q0 Q].
    pose proof (run_ub _ _ _ Rn U) as U1. pose proof (reachable_step _ _ _ R St) as R1.
    destruct (work_step s l s1 t k R Q0 St U1 H) as ((es & Et) & [X|(k1 & X1 & X2 & _)]).
    + left. destruct (run_grows _ _ _ Rn) as (e2 & E2). exists [], e2. rewrite E2, X, <- app_assoc. reflexivity.
    + destruct (IH s1 t k1 s' R1 X1 Q Rn U) as [Y|(k' & Y1 & Y2)].
      * left. eapply since_app; eauto.
      * right. exists k'. split; auto. lia.
Qed.

(** No task comes in the way. *)
Definition calm_stk (fs : list frame) : Prop := home fs <> None \/ exists k l r, fs = FDestroy (DTask k :: l) :: r.
Lemma idle_steps : forall ls s t k s', reachable s -> left_ k (stk s t) -> calm_stk (stk s t) -> all_along (asked t) s ls -> run s ls = Some s' -> ubs s' = None ->
  idle_since t s s' -> since s s' (EvThreadEnd t) \/ home_steps t s ls = own_steps t ls.
Proof.
  induction ls as [|l ls IH]; intros s t k s' R H C Q Rn U I; [right; reflexivity|].
  cbn in Rn, Q |- *. destruct (step s l) as [s1|] eqn:St; [|discriminate Rn]. destruct Q as [Q0 Q].
  pose proof (run_ub _ _ _ Rn U) as U1. pose proof (reachable_step _ _ _ R St) as R1.
  destruct (run_grows _ _ _ Rn) as (e2 & E2).
  destruct (work_step s l s1 t k R Q0 St U1 H) as ((es & Et) & [X|(k1 & X1 & X2 & X3 & X4)]).
  - left. exists [], e2. rewrite E2, X, <- app_assoc. reflexivity.
  - assert (I1 : idle_since t s1 s').
    { destruct I as [I J]. split; intros *; intros Y; [apply (I i k0)|apply (J k0)]; eapply since_app; eauto. }
    assert (Hm : mine t l = true -> at_home s t = true).
    { intros M. unfold at_home. destruct C as [C|(kk & ll & r & C)]; [destruct (home (stk s t)); congruence|]. exfalso.
      destruct I as [_ I]. apply (I kk). exists [], e2. rewrite E2.
      enough (T1 : trace s1 = trace s ++ [EvDrop t kk]) by (now rewrite T1, <- app_assoc).
      destruct (step_move s l s1 St U1) as (_ & [(d & -> & Es & Et')|(u & pre & rest & h & n & M' & E & L & ->)]); [discriminate M|].
      rewrite M' in M. apply Nat.eqb_eq in M as ->. rewrite C in E.
      destruct L as [c u fin|v u fin|e u fin|inp f0 h' n Ru|inp e g0 h' n Ru|x c]; cbn in E; try discriminate E. injection E as <- <-.
      cbn [code runs] in Ru. destruct Ru as (x & A & _). cbn in A. injection A as <- _. reflexivity. }
    assert (C1 : calm_stk (stk s1 t)).
    { destruct (mine t l) eqn:M; [|rewrite X3; auto]. destruct (X4 eq_refl (Hm eq_refl)) as [Y|[(i & kk & Y)|Y]]; [now left| |now right].
      exfalso. destruct I as [I _]. apply (I i kk). exists [], e2. rewrite E2. unfold trace at 1. rewrite Y. cbn. now rewrite <- app_assoc. }
    destruct (IH s1 t k1 s' R1 X1 C1 Q Rn U I1) as [Y|Y]; [left; eapply since_app; eauto|right].
    rewrite Y. unfold own_steps. cbn [filter]. destruct (mine t l) eqn:M; [rewrite (Hm eq_refl)|]; reflexivity.
Qed.

(** Between tasks the worker is never stuck. *)
Lemma home_moves : forall s t, reachable s -> ubs s = None -> asked t s -> at_home s t = true -> exists s', step s (LStep t 0) = Some s'.
Proof.
  intros s t R U Q H. unfold at_home in H. destruct (home (stk s t)) as [k|] eqn:Hk; [clear H|discriminate H].
  destruct (stk s t) as [|f r] eqn:E; [discriminate Hk|].
  assert (F : focus (stk s t) = Some (code f, r)) by (rewrite E; destruct f; try reflexivity; discriminate Hk).
  unfold step. rewrite U, F.
  assert (Nb : match code f with Do o _ => atom (hp s) t o 0 <> ABlock | Halt => False end).
  { home_inv Hk; subst k; cbn [code]; intros A; cbn [atom] in A; op_unfold A; try discriminate A; brki A; try discriminate A;
      (destruct (sleep_woken s R t _ _ E) as (Lc & W1 & W2);
       assert (Wk : cx_wakeup (h_ctxs (hp s) c) = true)
         by (apply W2; right; apply (exit_dec s c R); apply Q; now rewrite <- (rd_loc s R));
       match goal with H : _ || _ = false |- _ => apply orb_false_iff in H as [H _]; rewrite W1, Wk in H; discriminate H end). }
  destruct (code f) as [T o kk|]; [|destruct Nb]. cbn [exec]. destruct (atom (hp s) t o 0); [congruence| |]; eauto.
Qed.

Lemma since_dec : forall s s' t, (exists es, trace s' = trace s ++ es) -> since s s' (EvThreadEnd t) \/ ~ since s s' (EvThreadEnd t).
Proof.
  intros s s' t (es & E).
  destruct (existsb (fun e => match e with EvThreadEnd u => u =? t | _ => false end) es) eqn:B.
  - left. apply existsb_exists in B as (e & Hin & B). destruct e; try discriminate B. apply Nat.eqb_eq in B as ->.
    apply in_split in Hin as (a & b & ->). exists a, b. exact E.
  - right. intros (a & b & X). rewrite E in X. apply app_inv_head in X. subst es.
    rewrite existsb_app in B. cbn in B. rewrite Nat.eqb_refl, orb_true_r in B. discriminate.
Qed.
Lemma run_reachable' : forall ls s s', reachable s -> run s ls = Some s' -> reachable s'.
Proof.
  induction ls as [|l ls IH]; cbn; intros s s' R H; [congruence|].
  destruct (step s l) as [s1|] eqn:St; [|discriminate]. apply (IH s1); auto. eapply reachable_step; eauto.
Qed.
Lemma all_along_last : forall P ls s s', all_along P s ls -> run s ls = Some s' -> P s'.
Proof.
  induction ls as [|l ls IH]; cbn; intros s s' [Q0 Q] H; [congruence|].
  destruct (step s l) as [s1|] eqn:St; [|discriminate]. eauto.
Qed.
Theorem worker_ends : forall s t k ls s', reachable s -> home (stk s t) = Some k -> all_along (asked t) s ls -> run s ls = Some s' -> ubs s' = None ->
  since s s' (EvThreadEnd t) \/
  home_steps t s ls < k /\
  (at_home s' t = true -> exists s2, step s' (LStep t 0) = Some s2) /\
  (idle_since t s s' -> own_steps t ls < k).
Proof.
  intros s t k ls s' R H Q Rn U.
  destruct (work_bound ls s t k s' R (left_home _ _ H) Q Rn U) as [X|(k' & (a & b & E & Hb & _) & X)]; [now left|].
  pose proof (home_pos _ _ Hb) as Ps.
  assert (D : since s s' (EvThreadEnd t) \/ ~ since s s' (EvThreadEnd t)) by (apply since_dec; eapply run_grows; eauto).
  destruct D as [D|D]; [now left|right]. split; [lia|]. split.
  2: { intros I. destruct (idle_steps ls s t k s' R (left_home _ _ H)) as [Y|Y]; auto; [left; congruence|contradiction|]. rewrite <- Y. lia. }
  intros At. apply home_moves; auto; [eapply run_reachable'; eauto|eapply all_along_last; eauto].
Qed.

(** Being asked to exit lasts as long as the thread does not attach itself to another context. *)
Lemma loc_same : forall t es tr, (forall j, ~ In (EvLoc t (Some j)) es) ->
  attached t (tr ++ es) = attached t tr \/ attached t (tr ++ es) = None.
Proof.
  intros t es. induction es as [|e es IH] using rev_ind; intros tr N; [left; now rewrite app_nil_r|].
  rewrite app_assoc. unfold attached at 1 3. rewrite fold_left_app. fold (attached t (tr ++ es)). cbn [fold_left].
  destruct (IH tr) as [X|X]; [intros j Y; apply (N j), in_or_app; now left| |]; rewrite X.
  all: assert (Ne : forall j, e <> EvLoc t (Some j)) by (intros j ->; apply (N j), in_or_app; right; now left).
  all: destruct e; cbn; auto; try (destruct (_ =? _) eqn:B; auto).
  all: apply Nat.eqb_eq in B as ->; destruct i as [j|]; auto; now destruct (Ne j).
Qed.
Lemma asked_app : forall t s s' es, asked t s -> trace s' = trace s ++ es -> (forall j, ~ In (EvLoc t (Some j)) es) -> asked t s'.
Proof.
  intros t s s' es Q E N i A. rewrite E in A |- *.
  assert (A' : attached t (trace s) = Some i) by (destruct (loc_same t es (trace s) N); congruence).
  destruct (Q i A') as (u & Hu). exists u. apply in_or_app. now left.
Qed.
Theorem asked_stays : forall ls s t s', asked t s -> run s ls = Some s' -> (forall j, ~ since s s' (EvLoc t (Some j))) -> all_along (asked t) s ls.
Proof.
  induction ls as [|l ls IH]; intros s t s' Q H N; cbn; [auto|]. split; auto. pose proof H as H0. cbn in H.
  destruct (step s l) as [s1|] eqn:St; [|exact I].
  destruct (run_grows [l] s s1) as (e1 & E1); [cbn; now rewrite St|].
  destruct (run_grows ls s1 s' H) as (e2 & E2).
  apply (IH s1 t s'); auto.
  - apply (asked_app t s s1 e1); auto. intros j Hin. apply in_split in Hin as (a & b & ->).
    apply (N j). exists a, (b ++ e2). rewrite E2, E1. now rewrite <- !app_assoc.
  - intros j X. apply (N j). eapply since_app; eauto.
Qed.
