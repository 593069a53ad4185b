(** * InvBound: every object the program refers to has been created.
    Shared states, combinator contexts, pools and interrupt tokens are numbered in
    order of creation; everything on the stacks and in the memory is below the
    counters, and entries above them still have their initial value. *)
From Verif Require Import Types Core State Ops Code Machine Base Spec Rules Events InvCtx.

Record bnd := mkB { b_fs : nat; b_w : nat; b_pl : nat; b_tk : nat }.
Definition bof (h : heap) : bnd := mkB (h_nfs h) (h_nw h) (h_npool h) (h_ntok h).
Definition ble (a b : bnd) : Prop := b_fs a <= b_fs b /\ b_w a <= b_w b /\ b_pl a <= b_pl b /\ b_tk a <= b_tk b.

Section B.
Variable b : bnd.
Definition os (x : option sid) : Prop := match x with Some p => p < b_fs b | None => True end.
Fixpoint tb (k : task) : Prop :=
  match k with
  | TPack p y => p < b_fs b /\ bb y
  | TCheck pl _ => pl < b_pl b
  | _ => True
  end
with bb (y : body) : Prop :=
  match y with
  | BUser _ _ => True
  | BThen p _ _ _ => p < b_fs b
  | BTask k => tb k
  | BAll w _ p | BAny w _ p => w < b_w b /\ p < b_fs b
  end.
Definition cbb (c : callback) : Prop := tb (cb_task c).
Definition gkb (g : gk) : Prop := match g with GList ps => Forall (fun p => p < b_fs b) ps | _ => True end.
Definition semkb (k : semk) : Prop := match k with KState p _ g => p < b_fs b /\ gkb g | _ => True end.
Definition wkb (k : wk) : Prop := match k with WSem _ _ _ tk _ k => tk < b_tk b /\ semkb k | _ => True end.
Definition wrb (r : wrest) : Prop := match r with WrT l => Forall (fun x => snd x < b_fs b) l | WrH _ => True end.
Definition wab (a : wafter) : Prop := match a with WaRet => True | WaPack q => q < b_fs b end.
Definition lkb (c : lk) : Prop :=
  match c with
  | LkFire p rest lft => p < b_fs b /\ Forall cbb rest /\ Forall tb lft
  | LkHnd q => q < b_fs b
  | LkWhen w _ _ _ r => w < b_w b /\ wrb r
  | _ => True
  end.
Definition spkb (k : spk) : Prop := match k with SpPool pl _ _ _ => pl < b_pl b | _ => True end.
Definition dib (d : ditem) : Prop :=
  match d with
  | DTask k => tb k | DBody y => bb y | DProm p => p < b_fs b | DCap _ => True | DW w => w < b_w b
  end.
Definition wtb (w : waiter) : Prop := snd w < b_tk b.
Definition fib (f : ufin) : Prop := match f with UPack p => p < b_fs b | UPlain => True end.

Definition fb (f : frame) : Prop :=
  match f with
  | FUStart _ _ fin | FUser _ fin => fib fin
  | FRun k | FDrop k => tb k
  | FDestroy l => Forall dib l
  | FPromDtor p | FPackVal p | FPackGuard p => p < b_fs b
  | FInvoke _ k c | FPush _ k c | FDisp _ k c | FLaunch _ _ k c | FLaunch1 _ _ k c => tb k /\ lkb c
  | FWaitFor _ k | FWait _ k | FWait1 _ _ k | FSleep _ _ k => wkb k
  | FSpawn _ k | FSpReg _ k => spkb k
  | FSem _ _ _ k | FSemId _ _ _ k | FSemAdd _ _ _ _ k | FSemRem _ _ _ _ k => semkb k
  | FSemTok _ _ _ tk _ _ k | FSemExit _ _ _ tk _ _ k | FSemGo _ _ _ tk _ k | FSemRe _ _ _ tk _ _ k
  | FSemNow _ _ _ tk _ _ k => tk < b_tk b /\ semkb k
  | FNotifyL ws => Forall wtb ws
  | FSet p _ | FSet1 p _ | FSetFail p => p < b_fs b
  | FSet2 p cbs => p < b_fs b /\ Forall cbb cbs
  | FFire p cbs lft => p < b_fs b /\ Forall cbb cbs /\ Forall tb lft
  | FFire1 p cb c => p < b_fs b /\ cbb cb /\ lkb c
  | FSt p _ g | FStW1 p _ g | FStW2 p _ g | FStEnd p _ g => p < b_fs b /\ gkb g
  | FWaitList ps => Forall (fun p => p < b_fs b) ps
  | FGet3 p _ | FPNew1 p | FPGetF1 p | FHReady1 p | FHErr1 p | FMkReady1 p _ => p < b_fs b
  | FPAssign1 _ x | FHnd _ x => os x
  | FThen1 p _ _ _ _ _ _ => p < b_fs b
  | FThen2 p cb q => p < b_fs b /\ cbb cb /\ q < b_fs b
  | FWId w _ _ | FWFin w | FWFin1 w | FWRet w | FWRel w => w < b_w b
  | FWFillAll w _ _ _ acc => w < b_w b /\ Forall (fun x => snd x < b_fs b) acc
  | FWEach w _ _ _ r | FWProc w _ _ _ r => w < b_w b /\ wrb r
  | FWThen w _ _ _ _ p r | FWPack w _ _ _ p r => w < b_w b /\ p < b_fs b /\ wrb r
  | FWAtt w _ _ _ p q r => w < b_w b /\ p < b_fs b /\ q < b_fs b /\ wrb r
  | FWIn _ w _ par q => w < b_w b /\ par < b_fs b /\ q < b_fs b
  | FWMark w a | FWUnl w a => w < b_w b /\ wab a
  | FPoolEnd _ pl | FPoolB pl _ | FPoolW pl _ _ _ | FPWk pl _ _ _ | FPNotify pl _ | FPDisp pl _ | FPUnl pl | FPChg pl _ _ | FPChg1 pl _ _
  | FPClr pl _ _ | FPClr1 pl _ _ | FPStopAll pl | FPClrAll pl | FPWait pl _ | FPWaitAll pl | FPCount pl | FPJoin pl
  | FCheck pl _ | FCheck1 pl _ | FCheck2 pl _ => pl < b_pl b
  | FSched _ pl _ _ _ _ => pl < b_pl b
  | FSched1 _ pl _ p _ _ => pl < b_pl b /\ p < b_fs b
  | FSched2 _ pl _ p q _ _ | FSched3 _ pl _ p q _ _ => pl < b_pl b /\ p < b_fs b /\ q < b_fs b
  | FSched4 _ p _ => p < b_fs b
  | FCheckEnd pl _ k => pl < b_pl b /\ tb k
  | _ => True
  end.

(** Arguments and results of operations. *)
Definition opb {T} (o : op T) : Prop :=
  match o with
  | OPush _ k => tb k
  | OTokQ tk | OTokSet tk => tk < b_tk b
  | OReady p | OHasErr p | OTrySet p _ | OGetVal p _ | ORetr p | OPrmNew p => p < b_fs b
  | OAttach p cb => p < b_fs b /\ cbb cb
  | OPrmPut _ x | OHndNew _ x => os x
  | OWThen w _ _ | OWProcess w | OWFinal w | OWMark w | OWHandle w | OWRel w => w < b_w b
  | OWFill w _ => w < b_w b
  | OWAll w _ p q | OWAny w _ p q => w < b_w b /\ p < b_fs b
  | OPoolBind _ pl | OPLevel pl _ | OPWorker pl _ _ _ | OPWork pl _ | OPChange pl _ _ | OPClear pl _ _ | OPClearAll pl | OPTake pl _
  | OPFind pl _ | OPFuts pl | OPCount pl | OPMoveW pl => pl < b_pl b
  | OPAdd pl _ k p q => pl < b_pl b /\ tb k /\ p < b_fs b /\ q < b_fs b /\ exists u caps, k = TPack q (BTask (TPack p (BUser u caps)))
  | _ => True
  end.
Definition resb {T} (o : op T) : T -> Prop :=
  match o in op T return T -> Prop with
  | ORelease _ => fun ks => Forall tb ks
  | OProc _ | OTakeSleep _ => fun r => match r with WTask k => tb k | _ => True end
  | OWake _ _ => fun r => match snd r with Some k => tb k | None => True end
  | OAddW _ _ => fun tk => tk < b_tk b
  | ONotif _ _ => fun ws => Forall wtb ws
  | ONewState _ _ => fun p => p < b_fs b
  | OTrySet _ _ => fun x => match x with Some cbs => Forall cbb cbs | None => True end
  | OPrmGet _ | OPrmTake _ => fun x => os x
  | OHndGet _ | OHndTake _ => fun x => os (snd x)
  | OWNew _ _ => fun w => w < b_w b
  | OWFill _ _ => fun x => snd x < b_fs b
  | OWAll _ _ _ _ | OWAny _ _ _ _ | OWFinal _ => fun x => match x with Some (p, _) => p < b_fs b | None => True end
  | OWRel _ => fun x => os x
  | OPoolNew _ => fun pl => pl < b_pl b
  | OPoolGet _ => fun x => match fst x with Some pl => pl < b_pl b | None => True end
  | OPoolMove _ _ | OPoolKill _ => fun x => match x with Some pl => pl < b_pl b | None => True end
  | OPClear _ _ _ => fun x => match x with Some k => tb k | None => True end
  | OPClearAll _ => fun ks => Forall tb ks
  | OPTake _ _ => fun x => match snd x with Some (_, k) => tb k | None => True end
  | OPFind _ _ => fun x => os x
  | OPFuts _ => fun ps => Forall (fun p => p < b_fs b) ps
  | _ => fun _ => True
  end.

Record hb (h : heap) : Prop := {
  hb_ctx : forall i, Forall tb (cx_tasks (h_ctxs h i)) /\ Forall tb (cx_proc (h_ctxs h i));
  hb_job : forall pl, Forall (fun e => tb (jb_callable (snd e)) /\ jb_future (snd e) < b_fs b) (pl_jobs (h_pools h pl));
  hb_cbs : forall p, Forall cbb (fs_cbs (h_fsts h p));
  hb_hnd : forall n, os (snd (h_hnds h n));
  hb_prm : forall n, os (h_prms h n);
  hb_w : forall w, w < b_w b -> w_prom (h_wcs h w) < b_fs b;
  hb_pobj : forall o, match fst (h_pobj h o) with Some pl => pl < b_pl b | None => True end;
  hb_sem : forall s, Forall wtb (h_sems h s) }.
End B.

Definition virgin (h : heap) : Prop :=
  (forall p, h_nfs h <= p -> h_fsts h p = new_fs false) /\
  (forall w, h_nw h <= w -> h_wcs h w = no_w) /\
  (forall pl, h_npool h <= pl -> h_pools h pl = no_pool) /\
  (forall tk, h_ntok h <= tk -> h_toks h tk = false).

(** ** Monotonicity *)
Ltac bl := unfold os, cbb, wtb in *; cbn beta in *; try lia; auto.
Lemma tb_mono : forall b c, ble b c -> forall k, tb b k -> tb c k.
Proof.
  intros b c L. fix IH 1. intros k H. destruct k; cbn in *; try exact I.
  - destruct H as [H1 H2]. split; [unfold ble in L; lia|].
    destruct b0; cbn in *; auto; unfold ble in L; try lia. now apply IH.
  - unfold ble in L. lia.
Qed.
Lemma bb_mono : forall b c, ble b c -> forall y, bb b y -> bb c y.
Proof. intros b c L [] H; cbn in *; unfold ble in L; auto; try lia. eapply tb_mono; eauto. Qed.
Lemma Fmono : forall A (P Q : A -> Prop) l, (forall x, P x -> Q x) -> Forall P l -> Forall Q l.
Proof. intros. eapply Forall_impl; eauto. Qed.
Lemma os_mono : forall b c, ble b c -> forall x, os b x -> os c x.
Proof. intros b c L [p|] H; cbn in *; auto. unfold ble in L. lia. Qed.
Lemma fb_mono : forall b c, ble b c -> forall f, fb b f -> fb c f.
Proof.
  intros b c L f H.
  assert (T : forall k, tb b k -> tb c k) by (apply tb_mono; auto).
  assert (TT : forall l, Forall (tb b) l -> Forall (tb c) l) by (intros; eapply Fmono; eauto).
  assert (CC : forall l, Forall (cbb b) l -> Forall (cbb c) l) by (intros; eapply Fmono; [|eauto]; intros; unfold cbb in *; auto).
  assert (C : forall x, cbb b x -> cbb c x) by (unfold cbb; auto).
  assert (N : forall p, p < b_fs b -> p < b_fs c) by (unfold ble in L; intros; lia).
  assert (N1 : forall p, p < b_w b -> p < b_w c) by (unfold ble in L; intros; lia).
  assert (N2 : forall p, p < b_pl b -> p < b_pl c) by (unfold ble in L; intros; lia).
  assert (N3 : forall p, p < b_tk b -> p < b_tk c) by (unfold ble in L; intros; lia).
  assert (NN : forall l, Forall (fun p => p < b_fs b) l -> Forall (fun p => p < b_fs c) l) by (intros; eapply Fmono; [|eauto]; auto).
  assert (NW : forall l, Forall (fun x : bool * sid => snd x < b_fs b) l -> Forall (fun x => snd x < b_fs c) l)
    by (intros; eapply Fmono; [|eauto]; auto).
  assert (W : forall r, wrb b r -> wrb c r) by (intros []; cbn; auto).
  assert (G : forall g, gkb b g -> gkb c g) by (intros []; cbn; auto).
  assert (K : forall k, semkb b k -> semkb c k) by (intros []; cbn; intuition).
  destruct f; cbn in *; intuition; auto.
  all: try (eapply os_mono; eauto; fail).
  all: try match goal with |- fib _ ?x => destruct x; cbn in *; auto end.
  all: try match goal with |- lkb _ ?x => destruct x; cbn in *; intuition end.
  all: try match goal with |- wkb _ ?x => destruct x; cbn in *; intuition end.
  all: try match goal with |- spkb _ ?x => destruct x; cbn in *; intuition end.
  all: try match goal with |- wab _ ?x => destruct x; cbn in *; intuition end.
  - eapply Fmono; [|eauto]. intros []; cbn; auto. apply bb_mono; auto.
  - eapply Fmono; [|eauto]. unfold wtb. auto.
Qed.
Lemma hb_mono : forall b c h, ble b c -> (b_w b = b_w c) -> hb b h -> hb c h.
Proof.
  intros b c h L E H. assert (T : forall k, tb b k -> tb c k) by (apply tb_mono; auto).
  constructor.
  - intros i. destruct (hb_ctx _ _ H i). split; eapply Fmono; eauto.
  - intros pl. eapply Fmono; [|apply H]. cbn. intros x [A B]. split; auto. unfold ble in L. lia.
  - intros p. eapply Fmono; [|apply H]. unfold cbb. auto.
  - intros n. eapply os_mono; [eauto|]. apply H.
  - intros n. eapply os_mono; [eauto|]. apply H.
  - intros w Hw. rewrite <- E in Hw. apply (hb_w _ _ H) in Hw. unfold ble in L. lia.
  - intros o. pose proof (hb_pobj _ _ H o) as X. destruct (fst (h_pobj h o)); auto. unfold ble in L. lia.
  - intros s. eapply Fmono; [|apply H]. unfold wtb, ble in *. intros. lia.
Qed.

(** ** Operations *)
Definition ctb (b : bnd) (c : ctx) : Prop := Forall (tb b) (cx_tasks c) /\ Forall (tb b) (cx_proc c).
Lemma set_nth_Forall : forall A (P : A -> Prop) l n v, P v -> Forall P l -> Forall P (set_nth n v l).
Proof.
  induction l; intros n v Hv H; destruct n; cbn; auto; inversion H; subst; constructor; auto.
Qed.
Lemma nth_Forall : forall A (P : A -> Prop) l n d, P d -> Forall P l -> P (nth n l d).
Proof. induction l; intros n d Hd H; destruct n; cbn; auto; inversion H; auto. Qed.
Lemma take_b : forall b c x c', ctb b c -> take_task c = (x, c') ->
  ctb b c' /\ match x with Some k => tb b k | None => True end.
Proof.
  intros b c x c' [H1 H2] T. unfold take_task in T.
  assert (P : ctb b (prepare_tasks c)).
  { unfold prepare_tasks. destruct (_ && _); split; cbn; auto. }
  destruct P as [P1 P2]. destruct (has_tasks_to_process _); inversion T; subst; cbn.
  - split; [split; cbn; auto; apply set_nth_Forall; cbn; auto|]. apply nth_Forall; cbn; auto.
  - repeat split; auto.
Qed.
Lemma pending_b : forall b c, ctb b c -> Forall (tb b) (ctx_pending c).
Proof.
  intros b c [H1 H2]. unfold ctx_pending. apply Forall_app. split; auto.
  rewrite Forall_forall in *. intros x Hx. apply H2. rewrite <- (firstn_skipn (cx_idx c)). apply in_or_app; auto.
Qed.
Lemma clear_b : forall b c, ctb b c -> ctb b (clear_wakeup c).
Proof. intros b c H. exact H. Qed.

Definition jbb (b : bnd) (e : nat * job) : Prop := tb b (jb_callable (snd e)) /\ jb_future (snd e) < b_fs b.
Lemma find_b : forall b l j x, Forall (jbb b) l -> jobs_find l j = Some x -> tb b (jb_callable x) /\ jb_future x < b_fs b.
Proof.
  induction l as [|[k y] l IH]; cbn; intros j x H F; [discriminate|]. inversion H; subst.
  destruct (k =? j); [now inversion F; subst|]. eapply IH; eauto.
Qed.
Lemma jset_b : forall b l j x, Forall (jbb b) l -> tb b (jb_callable x) -> jb_future x < b_fs b -> Forall (jbb b) (jobs_set l j x).
Proof.
  induction l as [|[k y] l IH]; cbn; intros j x H F G; auto. inversion H; subst.
  destruct (k =? j); constructor; auto. split; auto.
Qed.
Lemma erase_b : forall b l j, Forall (jbb b) l -> Forall (jbb b) (jobs_erase l j).
Proof.
  intros b l j H. unfold jobs_erase. rewrite Forall_forall in *. intros x Hx. apply filter_In in Hx as [Hx _]. auto.
Qed.
Lemma ptake_b : forall b p lv inp p' x, Forall (jbb b) (pl_jobs p) -> pool_take p lv inp = (p', x) ->
  Forall (jbb b) (pl_jobs p') /\ match x with Some (_, k) => tb b k | None => True end.
Proof.
  intros b p lv inp p' x H T. unfold pool_take in T. brki T; inversion T; subst; cbn; auto.
  - destruct (find_b _ _ _ _ H Heqo). split; auto. apply jset_b; cbn; auto.
  - destruct (find_b _ _ _ _ H Heqo). split; auto. apply jset_b; cbn; auto.
Qed.

Lemma ble_refl : forall b, ble b b.
Proof. unfold ble. lia. Qed.

Ltac oc A :=
  match type of A with atom _ _ ?o _ = _ => destruct o end;
  cbn [atom] in A; try discriminate A; op_unfold A; brki A; try discriminate A; inversion A; subst; clear A.

Lemma atom_ble : forall h t T (o : op T) inp h' x, atom h t o inp = AOk h' x -> ble (bof h) (bof h').
Proof. intros h t T o inp h' x A. oc A; unfold ble, bof; hs; cbn; lia. Qed.

Lemma upd_P : forall A (P : A -> Prop) (f : nat -> A) k v, (forall i, P (f i)) -> P v -> forall i, P (upd f k v i).
Proof. intros A P f k v H Hv i. rewrite upd_eq. destruct (i =? k); auto. Qed.

Lemma ctb_mono : forall b c, ble b c -> forall x, ctb b x -> ctb c x.
Proof. intros b c L x [H1 H2]. split; eapply Fmono; try eassumption; apply tb_mono; auto. Qed.

Lemma atom_ctb : forall h t T (o : op T) inp h' x b, atom h t o inp = AOk h' x ->
  (forall i, ctb b (h_ctxs h i)) -> opb b o -> forall i, ctb b (h_ctxs h' i).
Proof.
  intros h t T o inp h' x b A H O.
  oc A; hs; try exact H;
    try (apply upd_P; [exact H|]); try exact (H _); try (split; cbn; constructor).
  all: try match goal with T : take_task _ = (_, ?c) |- ctb _ ?c => eapply take_b in T; [apply T|apply H] end.
  - destruct (H i). split; cbn; auto. apply Forall_app. auto.
  - match goal with T : take_task _ = (_, ?c) |- _ => eapply take_b in T; [apply T|apply H] end.
Qed.

Lemma atom_jbb : forall h t T (o : op T) inp h' x b, atom h t o inp = AOk h' x ->
  (forall pl, Forall (jbb b) (pl_jobs (h_pools h pl))) -> opb b o -> forall pl, Forall (jbb b) (pl_jobs (h_pools h' pl)).
Proof.
  intros h t T o inp h' x b A H O.
  assert (HP : forall pl p, Forall (jbb b) (pl_jobs p) -> forall q, Forall (jbb b) (pl_jobs (upd (h_pools h) pl p q))).
  { intros pl p Hp q. rewrite upd_eq. destruct (q =? pl); auto. }
  oc A; hs; try exact H; try (apply HP; cbn; auto; fail).
  - apply HP. unfold pool_add in *. match goal with E : _ = _ |- _ => injection E as <- <- end. cbn.
    apply Forall_app. split; auto. constructor; auto. cbn in O. split; cbn; tauto.
  - apply HP. match goal with E : _ = _ |- _ => unfold pool_change in E; brki E; injection E as <-; try discriminate end.
    cbn. match goal with E : jobs_find _ _ = _ |- _ => destruct (find_b _ _ _ _ (H _) E) end. apply jset_b; auto.
  - apply HP. match goal with E : _ = _ |- _ => unfold pool_clear in E; brki E; inversion E; subst end. cbn. apply erase_b; auto.
  - apply HP; match goal with E : pool_take _ _ _ = _ |- _ => apply (ptake_b b) in E; auto; apply E end.
  - apply HP; match goal with E : pool_take _ _ _ = _ |- _ => apply (ptake_b b) in E; auto; apply E end.
  - apply HP; match goal with E : pool_take _ _ _ = _ |- _ => apply (ptake_b b) in E; auto; apply E end.
Qed.

Lemma atom_cbb : forall h t T (o : op T) inp h' x b, atom h t o inp = AOk h' x ->
  (forall p, Forall (cbb b) (fs_cbs (h_fsts h p))) -> opb b o -> forall p, Forall (cbb b) (fs_cbs (h_fsts h' p)).
Proof.
  intros h t T o inp h' x b A H O.
  assert (HP : forall q f, Forall (cbb b) (fs_cbs f) -> forall p, Forall (cbb b) (fs_cbs (upd (h_fsts h) q f p))).
  { intros q f Hp p. rewrite upd_eq. destruct (p =? q); auto. }
  oc A; hs; try exact H; try (apply HP; cbn; auto; fail).
  - match goal with E : fs_set _ _ = _ |- _ => unfold fs_set in E; injection E as <- <- end.
    apply HP. match goal with |- context [match ?x with _ => _ end] => destruct x end; cbn; constructor.
  - apply HP. cbn. apply Forall_app. split; auto. constructor; auto. cbn in O. tauto.
Qed.

Lemma atom_obj : forall h t T (o : op T) inp h' x b, atom h t o inp = AOk h' x ->
  b_fs b = h_nfs h' -> h_nfs h <= h_nfs h' -> b_w b = h_nw h' -> b_pl b = h_npool h' -> h_npool h <= h_npool h' ->
  (forall n, os b (snd (h_hnds h n))) -> (forall n, os b (h_prms h n)) ->
  (forall w, w < h_nw h -> w_prom (h_wcs h w) < b_fs b) ->
  (forall o, match fst (h_pobj h o) with Some pl => pl < b_pl b | None => True end) ->
  opb b o -> opb (bof h) o ->
  (forall n, os b (snd (h_hnds h' n))) /\ (forall n, os b (h_prms h' n)) /\
  (forall w, w < h_nw h' -> w_prom (h_wcs h' w) < b_fs b) /\
  (forall o, match fst (h_pobj h' o) with Some pl => pl < b_pl b | None => True end).
Proof.
  intros h t T o inp h' x b A E1 E2 E3 E4 E5 H1 H2 H3 H4 O Oh.
  assert (PH : forall k v, os b (snd v) -> forall n, os b (snd (upd (h_hnds h) k v n))).
  { intros k v Hv n. rewrite upd_eq. destruct (n =? k); auto. }
  assert (PP : forall k v, os b v -> forall n, os b (upd (h_prms h) k v n)).
  { intros k v Hv n. rewrite upd_eq. destruct (n =? k); auto. }
  assert (PW : forall k v, (k < h_nw h -> w_prom v = w_prom (h_wcs h k)) -> forall n, n < h_nw h -> w_prom (upd (h_wcs h) k v n) < b_fs b).
  { intros k v Hv n Hn. rewrite upd_eq. destruct (Nat.eqb_spec n k); auto. subst. rewrite Hv by auto. auto. }
  oc A; hs; (split; [|split; [|split]]); auto; try (apply PH; cbn; auto; fail); try (apply PP; cbn; auto; fail);
    try (apply PW; cbn; auto; fail).
  all: try (cbn in E1, E2, E3, E4, E5).
  - apply PH. cbn. match goal with E : (_ <? _) = true |- _ => apply Nat.ltb_lt in E; lia end.
  - intros w Hw. rewrite upd_eq. destruct (Nat.eqb_spec w (h_nw h)); cbn; [lia|]. apply H3. lia.
  - apply PW. intros _. match goal with E : wall_step _ _ _ = _ |- _ => unfold wall_step in E; brki E; inversion E; reflexivity end.
  - apply PW. intros _. match goal with E : wany_step _ _ _ = _ |- _ => unfold wany_step in E; brki E; inversion E; reflexivity end.
  - apply PW. intros _. match goal with E : wany_final _ = _ |- _ => unfold wany_final in E; brki E; inversion E; reflexivity end.
  - intros o. rewrite upd_eq. destruct (o =? n); [exact O|apply H4].
  - intros o. rewrite !upd_eq. destruct (o =? n); [cbn; apply H4|]. destruct (o =? n0); [exact Logic.I|apply H4].
  - intros o. rewrite !upd_eq. destruct (o =? n); [cbn; apply H4|]. destruct (o =? n0); cbn; apply H4.
  - intros o. rewrite !upd_eq. destruct (o =? n); [cbn; apply H4|]. destruct (o =? n0); cbn; apply H4.
  - intros o. rewrite !upd_eq. destruct (o =? n); [exact Logic.I|apply H4].
  - intros o. rewrite !upd_eq. destruct (o =? n); [exact Logic.I|apply H4].
Qed.

Lemma atom_wtb : forall h t T (o : op T) inp h' x b, atom h t o inp = AOk h' x ->
  b_tk b = h_ntok h' -> (forall s, Forall (wtb b) (h_sems h s)) -> forall s, Forall (wtb b) (h_sems h' s).
Proof.
  intros h t T o inp h' x b A E H.
  assert (P : forall k v, Forall (wtb b) v -> forall s, Forall (wtb b) (upds (h_sems h) k v s)).
  { intros k v Hv s. unfold upds. destruct (sem_eqb s k); auto. }
  oc A; hs; auto.
  - apply P. apply Forall_app. split; auto. constructor; auto. unfold wtb. cbn in *. lia.
  - apply P. apply Forall_forall. intros w Hw. apply filter_In in Hw. destruct Hw.
    eapply Forall_forall in H; eauto.
  - match goal with |- context [upds (h_sems h) ?s] => apply P; specialize (H s); destruct (h_sems h s); cbn; [constructor|inversion H; auto] end.
Qed.

Lemma atom_virgin : forall h t T (o : op T) inp h' x, atom h t o inp = AOk h' x ->
  opb (bof h) o -> virgin h -> virgin h'.
Proof.
  intros h t T o inp h' x A O (V1 & V2 & V3 & V4).
  assert (P1 : forall k v, k < h_nfs h -> forall p, h_nfs h <= p -> upd (h_fsts h) k v p = new_fs false).
  { intros. rewrite upd_eq. destruct (Nat.eqb_spec p k); auto. lia. }
  assert (P2 : forall k v, k < h_nw h -> forall p, h_nw h <= p -> upd (h_wcs h) k v p = no_w).
  { intros. rewrite upd_eq. destruct (Nat.eqb_spec p k); auto. lia. }
  assert (P3 : forall k v, k < h_npool h -> forall p, h_npool h <= p -> upd (h_pools h) k v p = no_pool).
  { intros. rewrite upd_eq. destruct (Nat.eqb_spec p k); auto. lia. }
  assert (P4 : forall k v, k < h_ntok h -> forall p, h_ntok h <= p -> upd (h_toks h) k v p = false).
  { intros. rewrite upd_eq. destruct (Nat.eqb_spec p k); auto. lia. }
  oc A; hs; cbn in O; unfold bof in O; cbn in O; (split; [|split; [|split]]); hs; auto;
    try (apply P1; tauto); try (apply P2; tauto); try (apply P3; tauto); try (apply P4; tauto).
  all: intros y Hy; rewrite ?upd_eq; try match goal with |- context [?a =? ?c] => destruct (Nat.eqb_spec a c) as [Q|Q] end; subst; auto; try lia.
  all: try (apply V1; lia); try (apply V2; lia); try (apply V3; lia); try (apply V4; lia).
Qed.

Lemma atom_resb : forall h t T (o : op T) inp h' x, atom h t o inp = AOk h' x ->
  hb (bof h) h -> opb (bof h) o -> resb (bof h') o x.
Proof.
  intros h t T o inp h' x A [H1 H2 H3 H4 H5 H6 H7 H8] O.
  oc A; cbn [resb]; auto; try exact Logic.I; try apply Forall_nil; hs; unfold bof; cbn.
  all: repeat match goal with |- context [mkB (h_nfs ?h) (h_nw ?h) (h_npool ?h) (h_ntok ?h)] => change (mkB (h_nfs h) (h_nw h) (h_npool h) (h_ntok h)) with (bof h) end; try (match goal with T : take_task ?c = (Some ?k, _) |- tb _ ?k => eapply take_b in T; [apply T|apply H1] end; fail).
  - apply pending_b. apply H1.
  - unfold find_waiter in *. match goal with E : option_map _ (find ?p ?l) = Some _ |- _ =>
      destruct (find p l) eqn:Q; [|discriminate E]; injection E as <-; apply find_some in Q as [Q _];
      pose proof (H8 s) as W; rewrite Forall_forall in W; apply W in Q; exact Q end.
  - specialize (H8 s). destruct (h_sems h s); constructor; auto. now inversion H8.
  - match goal with E : fs_set _ _ = _ |- _ => unfold fs_set in E; injection E as <- <- end. apply H3.
  - match goal with E : h_hnds h ?n = (_, Some _) |- _ => specialize (H4 n); rewrite E in H4; exact H4 end.
  - match goal with E : h_hnds h ?n = (_, Some _) |- _ => specialize (H4 n); rewrite E in H4; exact H4 end.
  - destruct o; cbn; auto. cbn in O. match goal with E : wall_step _ _ _ = _ |- _ => unfold wall_step in E; brki E; inversion E; subst; apply H6, O end.
  - destruct o; cbn; auto. cbn in O. match goal with E : wany_step _ _ _ = _ |- _ => unfold wany_step in E; brki E; inversion E; subst; apply H6, O end.
  - destruct o; cbn; auto. cbn in O. match goal with E : wany_final _ = _ |- _ => unfold wany_final in E; brki E; inversion E; subst; apply H6, O end.
  - apply H6, O.
  - apply H7.
  - apply H7.
  - match goal with E : h_pobj h ?n = (?x, _) |- _ => specialize (H7 n); rewrite E in H7; exact H7 end.
  - match goal with E : h_pobj h ?n = (?x, _) |- _ => specialize (H7 n); rewrite E in H7; exact H7 end.
  - match goal with E : pool_clear _ _ _ = _ |- _ => unfold pool_clear in E; brki E; inversion E; subst end.
    match goal with E : jobs_find _ _ = _ |- _ => apply (find_b _ _ _ _ (H2 _)) in E; apply E end.
  - apply Forall_map. eapply Fmono; [|apply H2]. cbn. tauto.
  - match goal with E : pool_take _ _ _ = _ |- _ => apply (ptake_b (bof h)) in E; auto; apply E end.
  - match goal with E : pool_take _ _ _ = _ |- _ => apply (ptake_b (bof h)) in E; auto; apply E end.
  - destruct (jobs_find _ _) eqn:E; cbn; auto. apply (find_b _ _ _ _ (H2 _)) in E; apply E.
  - apply Forall_map. eapply Fmono; [|apply H2]. cbn. tauto.
Qed.

Lemma opb_mono : forall b c, ble b c -> forall T (o : op T), opb b o -> opb c o.
Proof.
  intros b c L T o H. pose proof (tb_mono b c L) as Tm.
  destruct o; cbn in *; unfold cbb in *; unfold ble in L; intuition (auto; try lia).
  all: try (eapply os_mono; eauto; unfold ble; lia).
Qed.

Theorem atom_b : forall h t T (o : op T) inp h' x, atom h t o inp = AOk h' x ->
  hb (bof h) h -> virgin h -> opb (bof h) o -> hb (bof h') h' /\ virgin h' /\ resb (bof h') o x /\ ble (bof h) (bof h').
Proof.
  intros h t T o inp h' x A H V O.
  pose proof (atom_ble _ _ _ _ _ _ _ A) as L.
  pose proof (opb_mono _ _ L _ o O) as O'.
  split; [|split; [|split]]; auto; try (eapply atom_virgin; eauto; fail); try (eapply atom_resb; eauto; fail).
  destruct H as [H1 H2 H3 H4 H5 H6 H7 H8].
  assert (G : (forall n, os (bof h') (snd (h_hnds h' n))) /\ (forall n, os (bof h') (h_prms h' n)) /\
    (forall w, w < h_nw h' -> w_prom (h_wcs h' w) < b_fs (bof h')) /\
    (forall o, match fst (h_pobj h' o) with Some pl => pl < b_pl (bof h') | None => True end)).
  { eapply atom_obj; eauto; try (unfold ble in L; cbn in L; lia); try reflexivity.
    - intros n. eapply os_mono; eauto.
    - intros n. eapply os_mono; eauto.
    - intros w Hw. specialize (H6 w Hw). unfold ble in L. lia.
    - intros n. specialize (H7 n). destruct (fst _); auto. unfold ble in L. lia. }
  destruct G as (G1 & G2 & G3 & G4).
  constructor; auto.
  - eapply (atom_ctb _ _ _ _ _ _ _ (bof h') A); auto. intros i. eapply ctb_mono; eauto. apply H1.
  - eapply (atom_jbb _ _ _ _ _ _ _ (bof h') A); auto. intros i. eapply Fmono; [|apply H2].
    intros e [E1 E2]. split; [eapply tb_mono; eauto|unfold ble in L; lia].
  - eapply (atom_cbb _ _ _ _ _ _ _ (bof h') A); auto. intros i. eapply Fmono; [|apply H3].
    intros e. apply tb_mono; auto.
  - eapply (atom_wtb _ _ _ _ _ _ _ (bof h') A); auto. intros s. eapply Fmono; [|apply H8].
    unfold wtb. intros. unfold ble in L. lia.
Qed.

(** ** Frames *)
Lemma destroy_fb : forall b ks, Forall (tb b) ks -> Forall (fb b) (destroy ks).
Proof. intros b [|k ks] H; cbn [destroy]; constructor; auto. change (Forall (dib b) (map DTask (k :: ks))). apply Forall_map. exact H. Qed.
Lemma tframes_fb : forall b y, Forall (fb b) (tframes y).
Proof. intros b []; cbn; repeat constructor. Qed.
Lemma wresume_fb : forall b k o, wkb b k -> Forall (fb b) (wresume k o).
Proof. intros b [] o H; cbn in *; repeat constructor; cbn; tauto. Qed.
Lemma gresume_fb : forall b k o, gkb b k -> Forall (fb b) (gresume k o).
Proof. intros b [] o H; cbn in *; repeat constructor; cbn; auto. Qed.
Lemma semresume_fb : forall b k o, semkb b k -> Forall (fb b) (semresume k o).
Proof. intros b [| |p [d|] g|] [] H; cbn in *; repeat constructor; cbn; tauto. Qed.
Lemma lresume_fb : forall b k o x, lkb b k -> match x with Some t => tb b t | None => True end -> Forall (fb b) (lresume k o x).
Proof.
  intros b k o x H Hx. unfold lresume.
  assert (D : Forall (tb b) (match x with Some k => [k] | None => [] end)) by (destruct x; auto).
  destruct k; cbn in H; try (apply Forall_app; split; [apply destroy_fb; auto|repeat constructor; cbn; tauto]).
  - apply destroy_fb; auto.
  - constructor; auto. cbn. intuition. apply Forall_app. auto.
Qed.
Lemma wafter_fb : forall b w a, w < b_w b -> wab b a -> Forall (fb b) (wresume_after w a).
Proof. intros b w [] H Hx; cbn in *; repeat constructor; cbn; tauto. Qed.
Lemma pact_fb : forall b o pl a, pl < b_pl b -> Forall (fb b) (pact_frames o pl a).
Proof. intros b o pl [] H; cbn in *; repeat constructor; cbn; tauto. Qed.
Lemma sp_fb : forall b n i k, spkb b k -> Forall (fb b) (spresume n i k).
Proof. intros b n i [] H; cbn in *; repeat constructor; cbn; tauto. Qed.
Lemma api_fb : forall b c, Forall (fb b) (api_frames c).
Proof. intros b []; cbn; repeat constructor; cbn; auto. Qed.
Lemma ufin_fb : forall b f v, fib b f -> Forall (fb b) (ufin_ret f v).
Proof. intros b [] v H; cbn in *; repeat constructor; cbn; tauto. Qed.

Lemma caps_b : forall b l, Forall (dib b) (map DCap l).
Proof. induction l; cbn; constructor; auto. exact Logic.I. Qed.

Lemma lstep_b : forall h t pre h' n, lstep h t pre h' n -> hb (bof h) h -> virgin h -> Forall (fb (bof h)) pre ->
  hb (bof h') h' /\ virgin h' /\ ble (bof h) (bof h') /\ Forall (fb (bof h')) (next_frames n) /\
  match spawned n with Some (_, cfs) => Forall (fb (bof h')) cfs | None => True end.
Proof.
  intros h t pre h' n L H V F.
  assert (EM : forall e, hb (bof (emit h e)) (emit h e) /\ virgin (emit h e) /\ ble (bof h) (bof (emit h e))).
  { intros e. split; [destruct H; constructor; auto|split; [exact V|apply ble_refl]]. }
  lstep_cases L; inversion F as [|? ? F1 F']; subst; clear F.
  1: { destruct (EM (EvCall t c)) as (E1 & E2 & E3). split; [|split; [|split; [|split]]]; auto; [|exact Logic.I]. cbn [next_frames].
       apply Forall_app. split; [apply api_fb|]. repeat constructor. exact F1. }
  1: { destruct (EM (EvUserEnd t u (fin_sid fin) (RVal v))) as (E1 & E2 & E3). split; [|split; [|split; [|split]]]; auto; [|exact Logic.I].
       apply ufin_fb; exact F1. }
  1: { destruct (EM (EvUserEnd t u (fin_sid fin) (RExn e))) as (E1 & E2 & E3). split; [|split; [|split; [|split]]]; auto; [|exact Logic.I].
       repeat constructor. }
  all: try match goal with A : atom ?h ?t ?o _ = AOk ?h1 _ |- _ =>
    assert (O : opb (bof h) o) by (cbn in F1 |- *; try inversion F'; subst; unfold cbb, wtb in *; cbn in *;
      first [tauto | inversion F1; subst; assumption | match goal with |- context [wbody ?kd] => destruct kd end; cbn; tauto
            | repeat (split; [tauto|]); do 2 eexists; reflexivity]);
    destruct (atom_b _ _ _ _ _ _ _ A H V O) as (B1 & B2 & B3 & B4); clear A O;
    split; [|split; [|split]]; auto;
    (apply (fb_mono _ _ B4) in F1 || idtac) end.
  all: try match goal with |- context [emit ?h ?e] => destruct (EM e) as (E1 & E2 & E3); split; [|split; [|split; [|split]]]; auto; constructor end.
  all: (split; [|first [exact Logic.I|apply tframes_fb|cbn [spawned]; auto]]).
  all: cbn [next_frames] in *; cbn [fb resb] in F1, B3.
  all: try inversion F' as [|? ? F2 F'']; subst; clear F'; try (apply (fb_mono _ _ B4) in F2; cbn [fb] in F2).
  all: try (repeat match goal with |- context [match ?x with _ => _ end] => destruct x eqn:? end;
    cbn [fst snd] in *; subst;
    repeat match goal with
      | |- Forall _ (_ ++ _) => apply Forall_app; split
      | |- Forall _ (destroy _) => apply destroy_fb
      | |- Forall _ (wresume _ _) => apply wresume_fb
      | |- Forall _ (gresume _ _) => apply gresume_fb
      | |- Forall _ (semresume _ _) => apply semresume_fb
      | |- Forall _ (lresume _ _ _) => apply lresume_fb
      | |- Forall _ (wresume_after _ _) => apply wafter_fb
      | |- Forall _ (pact_frames _ _ _) => apply pact_fb
      | |- Forall _ (spresume _ _ _) => apply sp_fb
      | |- Forall _ (run_one _ _) => unfold run_one
      | |- Forall _ [] => constructor
      | |- Forall _ (_ :: _) => constructor
      end; cbn in *; unfold cbb in *; cbn in *; intuition; fail).
  all: repeat match goal with F : Forall _ (_ :: _) |- _ => inversion F; subst; clear F end.
  all: repeat match goal with F : _ /\ Forall _ (_ :: _) /\ _ |- _ => destruct F as (? & F & ?); inversion F; subst; clear F end.
  all: repeat match goal with F : _ /\ wrb _ (WrT (_ :: _)) |- _ => destruct F as (? & F); inversion F; subst; clear F end.
  all: repeat match goal with |- context [match ?x with _ => _ end] => destruct x eqn:? end.
  all: repeat constructor; cbn in *; auto; try tauto.
  all: try (apply Forall_app; split; [apply caps_b|]; auto; fail).
  - apply Forall_app. split; [tauto|]. constructor; auto.
  - destruct kd; cbn; tauto.
Qed.

Definition b_inv (s : st) : Prop :=
  hb (bof (hp s)) (hp s) /\ virgin (hp s) /\ forall t, Forall (fb (bof (hp s))) (stk s t).

Theorem b_inv_reachable : forall s, reachable s -> b_inv s.
Proof.
  apply reachable_ind'.
  - split; [|split].
    + constructor; cbn; auto; try (intros; constructor); try (intros; exact Logic.I). intros. lia.
    + repeat split; reflexivity.
    + intros t. cbn. destruct t; cbn; repeat constructor.
  - intros s s' R (H & V & F) U Tr. destruct Tr as [d|t pre rest u E L|t pre rest h n E L].
    + split; [destruct H; constructor; auto|split; [exact V|exact F]].
    + split; [|split]; auto.
    + pose proof (F t) as Ft. rewrite E in Ft. apply Forall_app in Ft as [F1 F2].
      destruct (lstep_b _ _ _ _ _ L H V F1) as (H' & V' & Bl & N1 & N2).
      split; [|split]; auto.
      assert (M : forall l, Forall (fb (bof (hp s))) l -> Forall (fb (bof h)) l)
        by (intros l; apply Fmono; apply fb_mono; auto).
      intros u. cbn [hp stk]. unfold set_next. destruct n as [fs|c cfs fs]; cbn in N1, N2.
      * destruct (Nat.eq_dec u t) as [->|Nu]; [rewrite upd_same; apply Forall_app; auto|].
        rewrite upd_other; auto.
      * destruct (Nat.eq_dec u t) as [->|Nu]; [rewrite upd_same; apply Forall_app; auto|].
        rewrite upd_other; auto.
        destruct (Nat.eq_dec u c) as [->|Nc]; [rewrite upd_same; auto|rewrite upd_other; auto].
Qed.

(** A move is one logged event or one operation on existing objects. *)
Inductive bstep (h : heap) (t : tid) : heap -> Prop :=
| bs_log : forall e, log_ok e -> bstep h t (emit h e)
| bs_op : forall T (o : op T) inp h' x, opb (bof h) o -> atom h t o inp = AOk h' x ->
    match o with OLog _ => False | _ => True end -> bstep h t h'.
Lemma lstep_bstep : forall h t pre h' n, lstep h t pre h' n -> Forall (fb (bof h)) pre -> bstep h t h'.
Proof.
  intros h t pre h' n L F. lstep_cases L; inversion F as [|? ? F1 F']; subst; clear F.
  all: try (apply bs_log; exact Logic.I).
  all: try match goal with A : atom _ _ (OLog _) _ = _ |- _ => cbn [atom] in A; inversion A; subst; apply bs_log; exact Logic.I end.
  all: match goal with A : atom ?h ?t ?o _ = AOk ?h1 _ |- _ =>
    assert (O : opb (bof h) o) by (cbn in F1 |- *; try inversion F'; subst; unfold cbb, wtb in *; cbn in *;
      first [tauto | inversion F1; subst; assumption | match goal with |- context [wbody ?kd] => destruct kd end; cbn; tauto
            | repeat (split; [tauto|]); do 2 eexists; reflexivity]);
    eapply bs_op; [exact O|exact A|exact Logic.I] end.
Qed.
