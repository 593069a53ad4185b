(** * InvRelock: what a thread does while it holds the lock of a combinator or of a pool. *)
From Verif Require Import Types Core State Ops Code Machine Base Spec SpecApi SpecLock SpecPool SpecUb SpecRelock Rules Events InvStack InvRefs Calls InvCtx InvAff InvCv InvPack Replay ReplayObj
  ThmObj Count Contract ContractLib InvLock InvGuard InvTab InvCheck InvUb.

(** ** What a thread does above the frame that holds a lock *)
Section Zone.
Variable l : lockid.
Hypothesis In_l : internal l = true.
Variable Z : tid -> list event -> frame -> Prop.
Variable B : tid -> list event -> Prop.
Hypothesis Z_app : forall t tr l' f, Z t tr f -> Z t (tr ++ l') f.
Hypothesis B_app : forall t tr l', (forall e, In e l' -> relock l e = false) -> B t tr -> B t (tr ++ l').
Hypothesis Z_step : forall s t pre rest h n, reachable s -> stk s t = pre ++ rest -> lstep (hp s) t pre h n -> Forall (Z t (trace s)) pre ->
  Forall (Z t (tr_of h)) (next_frames n) \/ B t (tr_of h).
Hypothesis Z_new : forall h t pre h' n ab g r, lstep h t pre h' n -> next_frames n = ab ++ g :: r -> holds l g = true -> Forall (Z t (tr_of h')) ab.
Definition zoneg (t : tid) (tr : list event) (fs : list frame) : Prop :=
  forall ab f rest, fs = ab ++ f :: rest -> holds l f = true -> Forall (Z t tr) ab \/ B t tr.
Theorem zoneg_reachable : forall s, reachable s -> forall t, zoneg t (trace s) (stk s t).
Proof.
  apply (reachable_ind'' (fun s => forall t, zoneg t (trace s) (stk s t))).
  - intros t ab f rest E H. exfalso. assert (If : In f (stk st0 t)) by (rewrite E; apply in_or_app; right; now left).
    destruct t; cbn in If; [|contradiction]. destruct If as [<-|[<-|[]]]; discriminate H.
  - intros s s' R R' IH U Tr.
    assert (S : exists l', trace s' = trace s ++ l' /\ forall t e, In e l' -> (exists f, In f (stk s t) /\ holds l f = true) -> relock l e = false).
    { destruct Tr as [d|t pre rest u E L|t pre rest h n E L].
      - exists [EvTick (Zpos d)]. split; [reflexivity|]. intros t e [<-|[]] _. reflexivity.
      - exists []. split; [now rewrite app_nil_r|]. intros t0 e [].
      - destruct (lstep_tr _ _ _ _ _ L) as [X|[e X]].
        + exists []. split; [unfold trace, tr_of; cbn [hp]; now rewrite X, app_nil_r|]. intros t' e [].
        + exists [e]. assert (Y : trace (mkSt h (set_next (stk s) t n rest) None) = trace s ++ [e]) by (unfold trace, tr_of; cbn [hp]; rewrite X; reflexivity).
          split; [exact Y|]. intros t' e' [<-|[]] (f & If & Hf). pose proof (hold_in l s t' f In_l R If Hf) as Hl.
          pose proof (lock_events _ R' (trace s) e [] Y) as LE. destruct e; auto. cbn. match goal with |- lock_eqb ?a l = _ => destruct (lock_eqb a l) eqn:EQ end; auto. apply lock_eq in EQ. subst. congruence. }
    destruct S as (l' & Et & Nl).
    assert (Keep : forall t, zoneg t (trace s') (stk s t)).
    { intros t ab f rest E H. assert (N : forall e, In e l' -> relock l e = false).
      { intros e Ie. eapply (Nl t); eauto. exists f. split; auto. rewrite E. apply in_or_app. right. now left. }
      rewrite Et. destruct (IH t ab f rest E H) as [Q|Q]; [left|right; now apply B_app].
      eapply Forall_impl; [|exact Q]. intros. now apply Z_app. }
    destruct Tr as [d|t pre rest u E L|t pre rest h n E L]; [exact Keep|exact Keep|].
    change (trace (mkSt h _ _)) with (tr_of h) in Keep, Et. assert (Mv : zoneg t (tr_of h) (next_frames n ++ rest)).
    { intros ab f r Ef Hf.
      destruct (app_split _ (next_frames n) rest ab f r Ef) as [(r1 & E1 & E2)|(a2 & E1 & E2)].
      - left. eapply Z_new; eauto.
      - assert (Eo : stk s t = (pre ++ a2) ++ f :: r) by (rewrite E, E1; now rewrite <- app_assoc). subst ab.
        assert (N : forall e, In e l' -> relock l e = false).
        { intros e Ie. eapply (Nl t); eauto. exists f. split; auto. rewrite Eo. apply in_or_app. right. now left. }
        destruct (IH t _ f r Eo Hf) as [Q|Q]; [|right; rewrite Et; now apply B_app].
        apply Forall_app in Q as [Z1 Z2]. destruct (Z_step s t pre rest h n R E L Z1) as [Q|Q]; [|now right].
        left. apply Forall_app. split; auto. rewrite Et. eapply Forall_impl; [|exact Z2]. intros. now apply Z_app. }
    intros u. cbn [stk]. change (trace (mkSt h _ _)) with (tr_of h). unfold set_next. destruct n as [fs|c cfs fs]; cbn [next_frames] in Mv; rewrite !upd_eq.
    + destruct (Nat.eqb_spec u t) as [->|]; auto.
    + destruct (Nat.eqb_spec u t) as [->|]; auto. destruct (Nat.eqb_spec u c) as [->|]; [|apply Keep].
      destruct (InvRefs.lstep_spawned _ _ _ _ _ c cfs L eq_refl) as (_ & _ & b & ->).
      intros ab f r Ef Hf. exfalso. assert (If : In f (tframes b)) by (rewrite Ef; apply in_or_app; right; now left).
      destruct b; cbn in If; repeat (destruct If as [<-|If]; [discriminate Hf|]); destruct If.
Qed.
End Zone.
Lemma since_app : forall l tr l' e, (forall x, In x l' -> relock l x = false) -> In e (since l tr) -> In e (since l (tr ++ l')).
Proof.
  intros l tr l' e N I. induction l' as [|e' l' IH] using rev_ind; [now rewrite app_nil_r|]. rewrite app_assoc, since_keep by (apply N, in_or_app; right; now left).
  apply in_or_app. left. apply IH. intros x X. apply N, in_or_app. now left.
Qed.
Definition alltask (l : list ditem) : Prop := Forall (fun x => exists k, x = DTask k) l.
Lemma alltask_destroy : forall ks f, In f (destroy ks) -> exists l, f = FDestroy l /\ alltask l.
Proof.
  intros [|k ks] f H; [contradiction|]. destruct H as [<-|[]]. exists (map DTask (k :: ks)). split; auto. unfold alltask. rewrite Forall_map. apply Forall_forall. eauto.
Qed.

Lemma drop_since : forall l t k h, closure k -> destroyed_since t l (tr_of h ++ [EvDrop t k]).
Proof. intros l t k h C. exists k. split; auto. rewrite since_keep by reflexivity. apply in_or_app. right. now left. Qed.
(** ** Combinators *)
Section When.
Variable w : nat.
Definition zw (t : tid) (tr : list event) (f : frame) : Prop :=
  match f with
  | FSet _ _ | FSet1 _ _ | FSetFail _ | FSet2 _ _ | FFire _ _ _ | FFire1 _ _ _ | FNotify _ _ | FNotifyL _ | FRel _ | FThrow _
  | FRun TNop | FDrop TNop | FDisp _ TNop LkDisc | FInvoke _ TNop LkDisc | FPush _ TNop LkDisc => True
  | FDestroy l => alltask l
  | _ => False
  end.
Definition bw (t : tid) (tr : list event) : Prop := launched_since t (LWhen w) tr \/ destroyed_since t (LWhen w) tr.
Lemma zw_app : forall t tr l' f, zw t tr f -> zw t (tr ++ l') f.
Proof. intros t tr l' f H. exact H. Qed.
Lemma bw_app : forall t tr l', (forall e, In e l' -> relock (LWhen w) e = false) -> bw t tr -> bw t (tr ++ l').
Proof.
  intros t tr l' N [(p & cb & H)|(k & H & C)]; [left; exists p, cb|right; exists k; split; auto]; now apply since_app.
Qed.
Lemma zw_destroy : forall t tr ks, Forall (zw t tr) (destroy ks).
Proof. intros t tr ks. apply Forall_forall. intros f I. apply alltask_destroy in I as (l & -> & A). exact A. Qed.
Lemma zw_step : forall s t pre rest h n, reachable s -> stk s t = pre ++ rest -> lstep (hp s) t pre h n -> Forall (zw t (trace s)) pre ->
  Forall (zw t (tr_of h)) (next_frames n) \/ bw t (tr_of h).
Proof.
  intros s t pre rest h n R E L F. lstep_cases L; cbn [next_frames]; inversion F as [|? ? F1 F2]; subst; cbn [zw] in F1; try contradiction.
  all: try (left; repeat constructor; fail).
  all: try (inversion F1 as [|? ? (k9 & X9) F9]; discriminate X9).
  all: try (inversion F2 as [|? ? F3 _]; subst; cbn [zw] in F3; try contradiction).
  all: try (inversion F1 as [|? ? (k9 & X9) F9]; subst).
  all: try (left; repeat constructor; assumption).
  all: try (left; apply zw_destroy).
  all: try (left; apply Forall_app; split; [apply zw_destroy|repeat constructor]).
  all: try (destruct k; try contradiction; destruct c; try contradiction).
  all: try match goal with |- context [if ?b then _ else _] => destruct b end.
  all: try match goal with |- context [match ?b with Some _ => _ | None => _ end] => destruct b end.
  all: try (left; cbn; repeat constructor; eauto; fail).
  all: try (right; right; cbn [atom] in A; injection A as <-; apply drop_since; exact Logic.I).
  right. left. exists p, cb. cbn [atom] in A. injection A as <-. rewrite tr_emit, since_keep by reflexivity. apply in_or_app. right. now left.
Qed.
Lemma zw_new : forall h t pre h' n ab g r, lstep h t pre h' n -> next_frames n = ab ++ g :: r -> holds (LWhen w) g = true -> Forall (zw t (tr_of h')) ab.
Proof.
  intros h t pre h' n ab g0 r L E H.
  assert (Q : ab = [] \/ exists p o, ab = [FSet p o]); [|destruct Q as [-> | (p & o & ->)]; repeat constructor].
  assert (Z : forall fs, fs = ab ++ g0 :: r -> Forall (fun f => holds (LWhen w) f = false) fs -> False).
  { intros fs -> F. rewrite Forall_forall in F. rewrite (F g0) in H; [discriminate|]. apply in_or_app. right. now left. }
  assert (Z1 : forall f fs, f :: fs = ab ++ g0 :: r -> Forall (fun f => holds (LWhen w) f = false) fs -> ab = []).
  { intros f fs X F. destruct ab as [|a ab]; auto. injection X as -> X. exfalso. rewrite Forall_forall in F. rewrite (F g0) in H; [discriminate|]. rewrite X. apply in_or_app. right. now left. }
  assert (Z2 : forall p o f, [FSet p o; f] = ab ++ g0 :: r -> ab = [] \/ exists p o, ab = [FSet p o]).
  { intros p o f X. destruct ab as [|a [|b ab]]; auto; cbn [app] in X; injection X as <- X; eauto. now destruct ab. }
  assert (Fl : forall fs, Forall (fun f => holds (LWhen w) f = false) fs -> fs = ab ++ g0 :: r -> ab = []) by (intros fs F X; exfalso; eauto).
  lstep_cases L; cbn [next_frames] in E.
  all: try (left; eapply Z1; [exact E|]; repeat constructor; fail).
  all: try (left; eapply Fl; [|exact E]; fl_; reflexivity).
  all: try (match type of E with context [match ?x with _ => _ end] => destruct x as [[? ?]|] end; first [eapply Z2; exact E|left; eapply Z1; [exact E|]; repeat constructor; fail]).
Qed.
End When.

(** ** Pools *)
Section Pool.
Variable pl : nat.
Definition some_worker (i : id) (tr : list event) : Prop := exists u lv n, In (EvWorker u pl lv n i) tr.
Definition zp (t : tid) (tr : list event) (f : frame) : Prop :=
  match f with
  | FPNotify q _ => q = pl
  | FPDisp q ws => q = pl /\ forall lv i, In (lv, i) ws -> some_worker i tr
  | FDisp i (TCheck q _) LkDisc => some_worker i tr
  | FRun (TCheck q _) | FCheck q _ | FCheck1 q _ => pool_worker t pl tr
  | FRel _ | FDrop (TCheck _ _) | FInvoke _ (TCheck _ _) LkDisc | FPush _ (TCheck _ _) LkDisc => True
  | FDestroy l => alltask l
  | _ => False
  end.
Definition bp (t : tid) (tr : list event) : Prop := pool_worker t pl tr \/ destroyed_since t (LPool pl) tr.
Lemma sw_app : forall i tr l, some_worker i tr -> some_worker i (tr ++ l).
Proof. intros i tr l (u & lv & n & H). exists u, lv, n. apply in_or_app. now left. Qed.
Lemma pw_app : forall t tr l, pool_worker t pl tr -> pool_worker t pl (tr ++ l).
Proof. intros t tr l (u & lv & i & H). exists u, lv, i. apply in_or_app. now left. Qed.
Lemma zp_app : forall t tr l f, zp t tr f -> zp t (tr ++ l) f.
Proof.
  intros t tr l f H. destruct f; cbn [zp] in *; auto using pw_app.
  - destruct k; auto using pw_app.
  - destruct k; auto. destruct c; auto using sw_app.
  - destruct H as [H1 H2]. split; auto. intros lv i I. apply sw_app. eauto.
Qed.
Lemma bp_app : forall t tr l', (forall e, In e l' -> relock (LPool pl) e = false) -> bp t tr -> bp t (tr ++ l').
Proof. intros t tr l' N [H|(k & H & C)]; [left; now apply pw_app|right; exists k; split; auto; now apply since_app]. Qed.
Lemma zp_destroy : forall t tr ks, Forall (zp t tr) (destroy ks).
Proof. intros t tr ks. apply Forall_forall. intros f I. apply alltask_destroy in I as (l & -> & A). exact A. Qed.
Lemma worker_event : forall s, reachable s -> forall u lv n i, In (EvWorker u pl lv n i) (trace s) -> own (hp s) i n.
Proof.
  apply (reachable_ind'' (fun s => forall u lv n i, In (EvWorker u pl lv n i) (trace s) -> own (hp s) i n)).
  - intros u lv n i [].
  - intros s s' R R' IH U Tr u lv m i J. destruct Tr as [d|t pre rest v E L|t pre rest h n E L].
    + change (trace (mkSt _ _ _)) with (trace s ++ [EvTick (Zpos d)]) in J. apply in_app_or in J as [J|[J|[]]]; [|discriminate J]. exact (own_tick _ d _ _ (IH _ _ _ _ J)).
    + exact (IH _ _ _ _ J).
    + apply (own_lstep s t pre h n R L). destruct (lstep_tr _ _ _ _ _ L) as [X|[e X]].
      * apply (IH u lv). unfold trace, tr_of in J |- *. cbn [hp] in J. now rewrite X in J.
      * unfold trace, tr_of in J. cbn [hp] in J. rewrite X in J. cbn [rev] in J. apply in_app_or in J as [J|[J|[]]]; [now apply (IH u lv)|].
        subst e. pose proof (worker_frame _ _ _ _ _ _ _ _ _ _ L X) as ->. pose proof (worker_own s R t) as F. rewrite E in F. inversion F as [|? ? F1 F2]. exact F1.
Qed.
Lemma workers_in : forall tr lv n i, In (lv, (n, i)) (workers_of pl tr) -> exists u, In (EvWorker u pl lv n i) tr.
Proof.
  induction tr as [|e tr IH] using rev_ind; intros lv n i H; [destruct H|]. rewrite workers_snoc in H. setoid_rewrite in_app_iff.
  destruct e; cbn [workers_step] in H; try (destruct (IH _ _ _ H) as [u9 X]; eauto; fail).
  - match type of H with context [(?q =? pl)%nat] => destruct (Nat.eqb_spec q pl) as [->|] end; [|destruct (IH _ _ _ H) as [u9 X]; eauto]. apply in_app_or in H as [H|[H|[]]]; [destruct (IH _ _ _ H) as [u9 X]; eauto|].
    injection H as -> -> ->. eexists. right. now left.
  - destruct (_ =? _)%nat; [destruct H|destruct (IH _ _ _ H) as [u9 X]; eauto].
Qed.
Lemma zp_step : forall s t pre rest h n, reachable s -> stk s t = pre ++ rest -> lstep (hp s) t pre h n -> Forall (zp t (trace s)) pre ->
  Forall (zp t (tr_of h)) (next_frames n) \/ bp t (tr_of h).
Proof.
  intros s t pre rest h n R E L F. destruct (lstep_trace _ _ _ _ _ L) as (es & Et & _).
  assert (F0 : Forall (zp t (tr_of h)) pre) by (rewrite Et; eapply Forall_impl; [|exact F]; intros; now apply zp_app).
  lstep_cases L; cbn [next_frames]; inversion F0 as [|? ? F1 F2]; subst; cbn [zp] in F1; try contradiction.
  all: try (left; repeat constructor; assumption).
  all: try (inversion F1 as [|? ? (k9 & X9) F9]; discriminate X9).
  all: try (inversion F1 as [|? ? (k9 & X9) F9]; subst).
  all: try (left; repeat constructor; assumption).
  all: try (left; apply zp_destroy).
  all: try (destruct k; try contradiction; destruct c; try contradiction).
  all: try match goal with |- context [if ?b then _ else _] => destruct b eqn:Eb end.
  all: try (left; cbn; repeat constructor; eauto; fail).
  all: try (right; right; cbn [atom] in A; injection A as <-; apply drop_since; exact Logic.I).
  - right. left. destruct F1 as (u & lv' & n & H). exists u, lv', i. cbn [atom] in A. apply Nat.eqb_eq in Eb. subst x.
    destruct (h_loc (hp s) t) as [j|] eqn:El.
    + destruct (alive _ _); [|discriminate A]. injection A as <- <-.
      pose proof (worker_event s R _ _ _ _ H) as O. rewrite (own_same s t n j R) in H; auto. rewrite <- rd_loc; auto.
    + injection A as <- <-. destruct (worker_event s R _ _ _ _ H) as [O _]. unfold invalid_id in O. lia.
  - left. constructor; [|constructor]. split; auto. cbn [atom] in A. injection A as <- <-. subst pl0. intros lv' i I. unfold workers_for in I.
    apply in_map_iff in I as ([a [n b]] & X & I). injection X as -> ->. apply filter_In in I as [I _]. rewrite (replay_workers pl s R) in I.
    destruct (workers_in _ _ _ _ I) as (u & H). exists u, lv', n. exact H.
  - destruct F1 as [-> F1]. left. constructor; [cbn; eapply F1; now left|constructor; [|constructor]]. split; auto. intros lv' i' I'. eapply F1. right. exact I'.
  - right. now left.
Qed.
Lemma zp_new : forall h t pre h' n ab g r, lstep h t pre h' n -> next_frames n = ab ++ g :: r -> holds (LPool pl) g = true -> Forall (zp t (tr_of h')) ab.
Proof.
  intros h t pre h' n ab g0 r L E H.
  assert (Q : ab = [] \/ (exists lv, ab = [FPNotify pl lv]) \/ exists ks, ab = destroy ks); [|destruct Q as [-> | [(lv & ->)|(ks & ->)]]; [constructor|repeat constructor|apply zp_destroy]].
  assert (Z : forall fs, fs = ab ++ g0 :: r -> Forall (fun f => holds (LPool pl) f = false) fs -> False).
  { intros fs -> F. rewrite Forall_forall in F. rewrite (F g0) in H; [discriminate|]. apply in_or_app. right. now left. }
  assert (Z1 : forall f fs, f :: fs = ab ++ g0 :: r -> Forall (fun f => holds (LPool pl) f = false) fs -> ab = []).
  { intros f fs X F. destruct ab as [|a ab]; auto. injection X as -> X. exfalso. rewrite Forall_forall in F. rewrite (F g0) in H; [discriminate|]. rewrite X. apply in_or_app. right. now left. }
  assert (Fl : forall fs, Forall (fun f => holds (LPool pl) f = false) fs -> fs = ab ++ g0 :: r -> ab = []) by (intros fs F X; exfalso; eauto).
  assert (Z2 : forall ks q, destroy ks ++ [FPUnl q] = ab ++ g0 :: r -> exists ks, ab = destroy ks).
  { intros ks q X. destruct ks as [|k ks]; cbn [destroy app] in X.
    - exists []. destruct ab as [|a ab]; auto. injection X as _ X. now destruct ab.
    - destruct ab as [|a [|b ab]]; cbn [app] in X; injection X as <- X; [now exists []|now exists (k :: ks)|now destruct ab]. }
  assert (Z3 : forall q lv fs, FPNotify q lv :: FPUnl q :: fs = ab ++ g0 :: r -> Forall (fun f => holds (LPool pl) f = false) fs ->
    ab = [] \/ (exists lv, ab = [FPNotify pl lv]) \/ exists ks, ab = destroy ks).
  { intros q lv fs X F. destruct ab as [|a [|b ab]]; auto; cbn [app] in X.
    - injection X as <- <- <-. cbn in H. unfold holds in H. cbn in H. apply Nat.eqb_eq in H. subst q. right. left. now exists lv.
    - injection X as <- <- X. exfalso. rewrite Forall_forall in F. rewrite (F g0) in H; [discriminate|]. rewrite X. apply in_or_app. right. now left. }
  lstep_cases L; cbn [next_frames] in E.
  all: try (left; eapply Z1; [exact E|]; repeat constructor; fail).
  all: try (left; eapply Fl; [|exact E]; fl_; reflexivity).
  all: try (left; match type of E with context [match ?x with _ => _ end] => destruct x end; (eapply Z1; [exact E|]; repeat constructor; fail)).
  all: try (eapply Z3; [exact E|]; repeat constructor; fail).
  all: try (right; right; eapply Z2; exact E).
  - destruct x; [eapply Z3; [exact E|constructor]|left; eapply Z1; [exact E|constructor]].
  - destruct x as [k|]; [right; right; eapply Z2; exact E|left; eapply Z1; [exact E|constructor]].
  - left. destruct (snd x) as [[j k]|]; (eapply Z1; [exact E|]; repeat constructor).
Qed.
End Pool.

(** ** Locking twice *)
Definition locking (l : lockid) (f : frame) : Prop :=
  match f with
  | FRun (TPack _ (BAll w _ _)) | FRun (TPack _ (BAny w _ _)) | FWFin w => l = LWhen w
  | FGet3 p _ | FSet p _ | FSt p _ _ | FThen2 p _ _ | FWAtt _ _ _ _ p _ _ => l = LState p
  | FULock m => l = LUser m
  | FSemRe _ x _ _ _ _ _ => x = Some l
  | FSched2 _ pl _ _ _ _ _ | FPChg pl _ _ | FPClr pl _ _ | FPStopAll pl | FCheck1 pl _ | FPWait pl _ | FPWaitAll pl | FPCount pl | FPJoin pl => l = LPool pl
  | _ => False
  end.
Lemma relock_frame : forall h t pre l, lub h t pre (UbRelock l) -> pre <> [FUb (UbRelock l)] -> exists f, pre = [f] /\ locking l f /\ h_locks h l = Some t.
Proof.
  intros h t pre l L NU. remember (UbRelock l) as u eqn:Eu. destruct L as [inp f u Ru|inp e g u Ru]; subst u.
  - exists f. split; auto. destruct f; cbn [code ubruns] in Ru.
    all: repeat match type of Ru with context [match ?x with _ => _ end] => destruct x eqn:?; cbn [ubruns] in Ru end; try contradiction.
    all: cbn [atom] in Ru; op_unfold Ru; unfold leaf in Ru; brki Ru; try discriminate Ru; injection Ru as Ru; cbn [locking].
    all: try (subst; contradiction).
    all: match goal with H : (_ =? _)%nat = true |- _ => apply Nat.eqb_eq in H end; subst; auto.
  - exfalso. destruct g; cbn [catch ubruns] in Ru; try contradiction; cbn [atom] in Ru; op_unfold Ru; brki Ru; discriminate Ru.
Qed.
Theorem relock_holds : forall s t l, reachable s -> goes_wrong s t (UbRelock l) -> relock_cause t l (trace s).
Proof.
  intros s t l R W. destruct (wrong_lub s t _ W) as (U & pre & rest & E & L).
  destruct (relock_frame _ _ _ _ L) as (f & -> & Lf & Hl).
  { intros ->. destruct (needs_call s t _ rest R E eq_refl) as (cl & _ & _ & X). exact X. }
  cbn [app] in E. rewrite replay_locks in Hl by auto. split; auto. destruct l as [m|p|w|pl].
  1: { assert (N : needs f = true) by (destruct f; cbn [locking] in Lf; try contradiction; auto; repeat match type of Lf with context [match ?x with _ => _ end] => destruct x; try contradiction end; discriminate Lf).
    destruct (needs_call s t f rest R E N) as (cl & I & _ & X). exists cl. split; auto. destruct f; cbn [locking] in Lf; try contradiction; try discriminate Lf; try (repeat match type of Lf with context [match ?x with _ => _ end] => destruct x; try contradiction end; discriminate Lf); cbn [uok] in X.
    - destruct X as [X _]. specialize (X m Lf). unfold locks_user. destruct (cl_api cl); auto; contradiction.
    - rewrite X. injection Lf as ->. reflexivity. }
  all: match type of Hl with lock_holder ?l _ = _ => destruct (holder_in l s t eq_refl R Hl) as (g & Ig & Hg) end; apply in_split in Ig as (ab & r & Ef).
  - destruct (zone_reachable p s R t ab g r Ef Hg) as [F|F]; auto. exfalso. rewrite E in Ef. destruct ab as [|a ab]; cbn [app] in Ef; injection Ef as <- _.
    + destruct f; cbn [locking] in Lf; try contradiction; discriminate Hg.
    + inversion F as [|? ? F1 _]. destruct f; cbn [locking] in Lf; try contradiction; destruct k; contradiction.
  - destruct (zoneg_reachable (LWhen w) eq_refl zw (bw w) zw_app (bw_app w) (zw_step w) (zw_new w) s R t ab g r Ef Hg) as [F|F]; auto. exfalso.
    rewrite E in Ef. destruct ab as [|a ab]; cbn [app] in Ef; injection Ef as <- _.
    + destruct f; cbn [locking] in Lf; try contradiction; try discriminate Hg; destruct k; try contradiction.
    + inversion F as [|? ? F1 _]. destruct f; cbn [locking] in Lf; try contradiction; try discriminate Lf; destruct k; contradiction.
  - destruct (zoneg_reachable (LPool pl) eq_refl (zp pl) (bp pl) (zp_app pl) (bp_app pl) (zp_step pl) (zp_new pl) s R t ab g r Ef Hg) as [F|F]; auto.
    rewrite E in Ef. destruct ab as [|a ab]; cbn [app] in Ef; injection Ef as <- _.
    + exfalso. destruct f; cbn [locking] in Lf; try contradiction; try discriminate Hg; destruct k; try contradiction; try discriminate Lf; destruct b; try contradiction; discriminate Lf.
    + inversion F as [|? ? F1 _]. destruct f; cbn [locking] in Lf; try contradiction; try discriminate Lf; try (left; exact F1); exfalso; destruct k; try contradiction; destruct b; try contradiction; discriminate Lf.
Qed.
