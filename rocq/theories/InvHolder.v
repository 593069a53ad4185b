(** * InvHolder: the holder of an internal mutex is not held up. *)
From Verif Require Import Types Core State Ops Code Machine Base Spec SpecApi SpecLock SpecPool SpecUb SpecRelock SpecHolder Rules Events InvStack InvRefs Calls InvCtx InvAff InvCv InvPack Replay ReplayObj
  ThmObj Count Contract ContractLib InvLock InvThrow ThmStuck InvGuard InvTab InvCheck InvUb InvRelock.

(** ** What a thread does above the frame that holds a lock *)
Section Zone.
Variable l : lockid.
Hypothesis In_l : internal l = true.
Variable Z : tid -> list event -> frame -> Prop.
Variable B : tid -> list event -> Prop.
Hypothesis Z_app : forall t tr l' f, Z t tr f -> Z t (tr ++ l') f.
Hypothesis B_app : forall t tr l', (forall e, In e l' -> relock l e = false) -> B t tr -> B t (tr ++ l').
Hypothesis Z_step : forall s t pre rest h n, reachable s -> lock_holder l (trace s) = Some t -> stk s t = pre ++ rest -> lstep (hp s) t pre h n -> Forall (Z t (trace s)) pre ->
  Forall (Z t (tr_of h)) (next_frames n) \/ B t (tr_of h).
Hypothesis Z_new : forall h t pre h' n ab g r, lstep h t pre h' n -> next_frames n = ab ++ g :: r -> holds l g = true -> Forall (Z t (tr_of h')) ab.
Definition zoneh (t : tid) (tr : list event) (fs : list frame) : Prop :=
  forall ab f rest, fs = ab ++ f :: rest -> holds l f = true -> Forall (Z t tr) ab \/ B t tr.
Theorem zoneh_reachable : forall s, reachable s -> forall t, zoneh t (trace s) (stk s t).
Proof.
  apply (reachable_ind'' (fun s => forall t, zoneh t (trace s) (stk s t))).
  - intros t ab f rest E H. exfalso. assert (If : In f (stk st0 t)) by (rewrite E; apply in_or_app; right; now left).
    destruct t; cbn in If; [|contradiction]. destruct If as [<-|[<-|[]]]; discriminate H.
  - intros s s' R R' IH U Tr.
    assert (S : exists l', trace s' = trace s ++ l' /\ forall t e, In e l' -> (exists f, In f (stk s t) /\ holds l f = true) -> relock l e = false).
    { destruct Tr as [d|t pre rest u E L|t pre rest h n E L].
      - exists [EvTick (Zpos d)]. split; [reflexivity|]. intros t e [<-|[]] _. reflexivity.
      - exists []. split; [now rewrite app_nil_r|]. intros t0 e [].
      - destruct (lstep_tr _ _ _ _ _ L) as [X|[e X]].
        + exists []. split; [unfold trace, tr_of; cbn [hp]; now rewrite X, app_nil_r|]. intros t' e [].
        + exists [e]. assert (Y : trace (mkSt h (set_next (stk s) t n rest) None) = trace s ++ [e]) by (unfold trace, tr_of; cbn [hp]; rewrite X; reflexivity).
          split; [exact Y|]. intros t' e' [<-|[]] (f & If & Hf). pose proof (hold_in l s t' f In_l R If Hf) as Hl.
          pose proof (lock_events _ R' (trace s) e [] Y) as LE. destruct e; auto. cbn. match goal with |- lock_eqb ?a l = _ => destruct (lock_eqb a l) eqn:EQ end; auto. apply lock_eq in EQ. subst. congruence. }
    destruct S as (l' & Et & Nl).
    assert (Keep : forall t, zoneh t (trace s') (stk s t)).
    { intros t ab f rest E H. assert (N : forall e, In e l' -> relock l e = false).
      { intros e Ie. eapply (Nl t); eauto. exists f. split; auto. rewrite E. apply in_or_app. right. now left. }
      rewrite Et. destruct (IH t ab f rest E H) as [Q|Q]; [left|right; now apply B_app].
      eapply Forall_impl; [|exact Q]. intros. now apply Z_app. }
    destruct Tr as [d|t pre rest u E L|t pre rest h n E L]; [exact Keep|exact Keep|].
    change (trace (mkSt h _ _)) with (tr_of h) in Keep, Et. assert (Mv : zoneh t (tr_of h) (next_frames n ++ rest)).
    { intros ab f r Ef Hf.
      destruct (app_split _ (next_frames n) rest ab f r Ef) as [(r1 & E1 & E2)|(a2 & E1 & E2)].
      - left. eapply Z_new; eauto.
      - assert (Eo : stk s t = (pre ++ a2) ++ f :: r) by (rewrite E, E1; now rewrite <- app_assoc). subst ab.
        assert (N : forall e, In e l' -> relock l e = false).
        { intros e Ie. eapply (Nl t); eauto. exists f. split; auto. rewrite Eo. apply in_or_app. right. now left. }
        destruct (IH t _ f r Eo Hf) as [Q|Q]; [|right; rewrite Et; now apply B_app].
        apply Forall_app in Q as [Z1 Z2]. destruct (Z_step s t pre rest h n R (hold_in l s t f In_l R ltac:(rewrite Eo; apply in_or_app; right; now left) Hf) E L Z1) as [Q|Q]; [|now right].
        left. apply Forall_app. split; auto. rewrite Et. eapply Forall_impl; [|exact Z2]. intros. now apply Z_app. }
    intros u. cbn [stk]. change (trace (mkSt h _ _)) with (tr_of h). unfold set_next. destruct n as [fs|c cfs fs]; cbn [next_frames] in Mv; rewrite !upd_eq.
    + destruct (Nat.eqb_spec u t) as [->|]; auto.
    + destruct (Nat.eqb_spec u t) as [->|]; auto. destruct (Nat.eqb_spec u c) as [->|]; [|apply Keep].
      destruct (InvRefs.lstep_spawned _ _ _ _ _ c cfs L eq_refl) as (_ & _ & b & ->).
      intros ab f r Ef Hf. exfalso. assert (If : In f (tframes b)) by (rewrite Ef; apply in_or_app; right; now left).
      destruct b; cbn in If; repeat (destruct If as [<-|If]; [discriminate Hf|]); destruct If.
Qed.
End Zone.

(** ** Pools *)
Section Pool.
Variable pl : nat.
Definition zq (t : tid) (tr : list event) (f : frame) : Prop :=
  match f with
  | FPNotify q _ | FPDisp q _ | FDisp _ (TCheck q _) LkDisc | FRun (TCheck q _) | FCheck q _ | FCheck1 q _ => q = pl
  | FRel _ | FDrop (TCheck _ _) | FInvoke _ (TCheck _ _) LkDisc | FPush _ (TCheck _ _) LkDisc => True
  | FDestroy l => alltask l
  | _ => False
  end.
Definition bq (t : tid) (tr : list event) : Prop := destroyed_since t (LPool pl) tr.
Lemma zq_app : forall t tr l f, zq t tr f -> zq t (tr ++ l) f.
Proof. intros t tr l f H. exact H. Qed.
Lemma bq_app : forall t tr l', (forall e, In e l' -> relock (LPool pl) e = false) -> bq t tr -> bq t (tr ++ l').
Proof. intros t tr l' N (k & H & C). exists k; split; auto; now apply since_app. Qed.
Lemma zq_destroy : forall t tr ks, Forall (zq t tr) (destroy ks).
Proof. intros t tr ks. apply Forall_forall. intros f I. apply alltask_destroy in I as (l & -> & A). exact A. Qed.
Lemma zq_step : forall s t pre rest h n, reachable s -> lock_holder (LPool pl) (trace s) = Some t -> stk s t = pre ++ rest -> lstep (hp s) t pre h n -> Forall (zq t (trace s)) pre ->
  Forall (zq t (tr_of h)) (next_frames n) \/ bq t (tr_of h).
Proof.
  intros s t pre rest h n R Hl E L F0. rewrite <- replay_locks in Hl by auto.
  lstep_cases L; cbn [next_frames]; inversion F0 as [|? ? F1 F2]; subst; cbn [zq] in F1; try contradiction.
  all: try (left; repeat constructor; assumption).
  all: try (inversion F1 as [|? ? (k9 & X9) F9]; discriminate X9).
  all: try (inversion F1 as [|? ? (k9 & X9) F9]; subst).
  all: try (left; repeat constructor; assumption).
  all: try (left; apply zq_destroy).
  all: try (destruct k; try contradiction; destruct c; try contradiction).
  all: try match goal with |- context [if ?b then _ else _] => destruct b eqn:Eb end.
  all: try (left; cbn; repeat constructor; eauto; fail).
  all: try (right; cbn [atom] in A; injection A as <-; apply drop_since; exact Logic.I).
  subst pl0. cbn [atom] in A. rewrite Hl in A. now brki A.
Qed.
Lemma zq_new : forall h t pre h' n ab g r, lstep h t pre h' n -> next_frames n = ab ++ g :: r -> holds (LPool pl) g = true -> Forall (zq t (tr_of h')) ab.
Proof.
  intros h t pre h' n ab g0 r L E H.
  assert (Q : ab = [] \/ (exists lv, ab = [FPNotify pl lv]) \/ exists ks, ab = destroy ks); [|destruct Q as [-> | [(lv & ->)|(ks & ->)]]; [constructor|repeat constructor|apply zq_destroy]].
  assert (Z : forall fs, fs = ab ++ g0 :: r -> Forall (fun f => holds (LPool pl) f = false) fs -> False).
  { intros fs -> F. rewrite Forall_forall in F. rewrite (F g0) in H; [discriminate|]. apply in_or_app. right. now left. }
  assert (Z1 : forall f fs, f :: fs = ab ++ g0 :: r -> Forall (fun f => holds (LPool pl) f = false) fs -> ab = []).
  { intros f fs X F. destruct ab as [|a ab]; auto. injection X as -> X. exfalso. rewrite Forall_forall in F. rewrite (F g0) in H; [discriminate|]. rewrite X. apply in_or_app. right. now left. }
  assert (Fl : forall fs, Forall (fun f => holds (LPool pl) f = false) fs -> fs = ab ++ g0 :: r -> ab = []) by (intros fs F X; exfalso; eauto).
  assert (Z2 : forall ks q, destroy ks ++ [FPUnl q] = ab ++ g0 :: r -> exists ks, ab = destroy ks).
  { intros ks q X. destruct ks as [|k ks]; cbn [destroy app] in X.
    - exists []. destruct ab as [|a ab]; auto. injection X as _ X. now destruct ab.
    - destruct ab as [|a [|b ab]]; cbn [app] in X; injection X as <- X; [now exists []|now exists (k :: ks)|now destruct ab]. }
  assert (Z3 : forall q lv fs, FPNotify q lv :: FPUnl q :: fs = ab ++ g0 :: r -> Forall (fun f => holds (LPool pl) f = false) fs ->
    ab = [] \/ (exists lv, ab = [FPNotify pl lv]) \/ exists ks, ab = destroy ks).
  { intros q lv fs X F. destruct ab as [|a [|b ab]]; auto; cbn [app] in X.
    - injection X as <- <- <-. cbn in H. unfold holds in H. cbn in H. apply Nat.eqb_eq in H. subst q. right. left. now exists lv.
    - injection X as <- <- X. exfalso. rewrite Forall_forall in F. rewrite (F g0) in H; [discriminate|]. rewrite X. apply in_or_app. right. now left. }
  lstep_cases L; cbn [next_frames] in E.
  all: try (left; eapply Z1; [exact E|]; repeat constructor; fail).
  all: try (left; eapply Fl; [|exact E]; fl_; reflexivity).
  all: try (left; match type of E with context [match ?x with _ => _ end] => destruct x end; (eapply Z1; [exact E|]; repeat constructor; fail)).
  all: try (eapply Z3; [exact E|]; repeat constructor; fail).
  all: try (right; right; eapply Z2; exact E).
  - destruct x; [eapply Z3; [exact E|constructor]|left; eapply Z1; [exact E|constructor]].
  - destruct x as [k|]; [right; right; eapply Z2; exact E|left; eapply Z1; [exact E|constructor]].
  - left. destruct (snd x) as [[j k]|]; (eapply Z1; [exact E|]; repeat constructor).
Qed.
End Pool.

Lemma exec_some : forall s t T (o : op T) k fs, atom (hp s) t o 0 <> ABlock -> exists s', exec s t (Do o k) fs 0 = Some s'.
Proof. intros s t T o k fs N. unfold exec. destruct (atom (hp s) t o 0); [congruence| |]; eauto. Qed.

Ltac nb_ := cbn [atom]; unfold do_release, with_local; repeat match goal with |- (match ?x with _ => _ end) <> _ => destruct x end; try discriminate.

(** The frames that hold a mutex do not block. *)
Lemma holder_front : forall l s t f r, internal l = true -> reachable s -> lock_holder l (trace s) = Some t -> stk s t = f :: r -> holds l f = true -> ubs s = None -> moves s t.
Proof.
  intros l s t f r Il R H Ef Hf U. unfold moves, step. rewrite U, Ef.
  assert (HL : h_locks (hp s) l = Some t) by (rewrite replay_locks by auto; exact H).
  pose proof (lkf_reachable s R t) as F. rewrite Ef in F. inversion F as [|? ? K _]; subst. clear F.
  assert (UN : forall q, lock_eqb q l = true -> atom (hp s) t (OUnlock q) 0 <> ABlock) by (intros q Q; apply lock_eq in Q; subst; cbn [atom]; rewrite HL, Nat.eqb_refl; discriminate).
  destruct f; try discriminate Hf; cbn [focus code]; unfold holds in Hf; cbn [hold] in Hf.
  all: try (match goal with d : option _ |- context [match ?d with Some _ => Do _ _ | None => _ end] => destruct d end).
  all: try match goal with |- context [exec _ _ (match ?x with _ => _ end)] => destruct x end.
  all: try (apply exec_some; try (now apply UN); nb_; fail).
Qed.

Lemma pool_front : forall pl s t tr a r, stk s t = a :: r -> zq pl t tr a -> ubs s = None -> lock_holder (LPool pl) (trace s) = Some t -> reachable s -> moves s t.
Proof.
  intros pl s t tr a r Ef Z U H R. unfold moves, step. rewrite U, Ef.
  assert (HL : h_locks (hp s) (LPool pl) = Some t) by (rewrite replay_locks by auto; exact H).
  destruct a; try contradiction; cbn [focus code]; cbn [zq] in Z.
  all: repeat match goal with |- context [exec _ _ (match ?x with _ => _ end)] => destruct x; try contradiction end.
  all: try (apply exec_some; nb_; fail).
  subst. unfold exec. cbn [atom]. rewrite HL, Nat.eqb_refl. eauto.
Qed.
Lemma when_front : forall s t tr a r, stk s t = a :: r -> zw t tr a -> ubs s = None -> r <> [] -> reachable s ->
  moves s t \/ exists u, behind s t u.
Proof.
  intros s t tr a r Ef Z U Ne R. unfold moves, step. rewrite U, Ef.
  destruct a; try contradiction; cbn [focus code]; cbn [zw] in Z.
  all: repeat match goal with |- context [exec _ _ (match ?x with _ => _ end)] => destruct x; try contradiction end.
  all: try (left; apply exec_some; nb_; fail).
  - left. destruct (focus_do s t _ _ R Ef) as [(u & fin & X)|(T & o & k & rest & F & Sl)]; [discriminate X|]. cbn [focus] in F |- *.
    destruct r as [|g r]; [discriminate F|]. injection F as F <-. destruct g; cbn [catch] in F |- *; try discriminate F.
    all: apply exec_some; nb_.
  - destruct (h_locks (hp s) (LState p)) as [u|] eqn:HL; [|left; apply exec_some; cbn [atom]; rewrite HL; discriminate].
    destruct (Nat.eqb_spec u t) as [->|N]; [left; apply exec_some; cbn [atom]; rewrite HL, Nat.eqb_refl; discriminate|].
    right. exists u, p. rewrite replay_locks in HL by auto. repeat split; auto. eapply guard_moves; eauto.
Qed.

Theorem holder_moves : forall s t l, reachable s -> ubs s = None -> internal l = true -> lock_holder l (trace s) = Some t ->
  detour t l (trace s) \/ moves s t \/ ((exists w, l = LWhen w) /\ exists u, behind s t u).
Proof.
  intros s t l R U Il H. destruct (holder_in l s t Il R H) as (f & If & Hf). apply in_split in If as (ab & r & Ef).
  destruct ab as [|a ab]; [right; left; eapply holder_front; eauto|]. cbn [app] in Ef.
  destruct l as [m|p|w|pl]; try discriminate Il; cbn [detour].
  all: rewrite app_comm_cons in Ef.
  - destruct (guard_moves s t p R U H) as [Q|Q]; auto.
  - destruct (zoneg_reachable (LWhen w) eq_refl zw (bw w) zw_app (bw_app w) (zw_step w) (zw_new w) s R t _ f r Ef Hf) as [F|F]; auto.
    inversion F; subst. cbn [app] in Ef. destruct (when_front s t _ a _ Ef ltac:(eassumption) U ltac:(now destruct ab) R); eauto.
  - destruct (zoneh_reachable (LPool pl) eq_refl (zq pl) (bq pl) (zq_app pl) (bq_app pl) (zq_step pl) (zq_new pl) s R t _ f r Ef Hf) as [F|F]; auto.
    inversion F; subst. right. left. eapply pool_front; eauto.
Qed.

Theorem some_holder_moves : forall s, reachable s -> ubs s = None ->
  (forall t l, internal l = true -> lock_holder l (trace s) = Some t -> ~ detour t l (trace s)) ->
  forall t l, internal l = true -> lock_holder l (trace s) = Some t -> exists u l', internal l' = true /\ lock_holder l' (trace s) = Some u /\ moves s u.
Proof.
  intros s R U N t l Il H. destruct (holder_moves s t l R U Il H) as [D|[M|(_ & u & p & Hu & _ & [D|M])]]; [now elim (N t l Il H)|eauto| |].
  - now elim (N u (LState p) eq_refl Hu).
  - exists u, (LState p). auto.
Qed.
