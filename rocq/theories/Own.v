(** * Own: counting who holds what: the promise of every shared state and the
    references to every combinator context. *)
From Verif Require Import Types Core State Ops Code Machine Base Spec Rules Events InvCtx InvBound InvStack InvRefs Contract Count Replay ReplayObj.
Local Open Scope Z_scope.

(** ** Sums over all objects of a kind *)
Definition sumN (f : nat -> Z) (n : nat) : Z := sumf f (seq 0 n).
Definition pt (f g : nat -> Z) (d : Z) : Prop := exists k, forall i, g i = f i + if (i =? k)%nat then d else 0.
Lemma sum_pt : forall f g k d l, NoDup l -> (forall i, g i = f i + if (i =? k)%nat then d else 0) ->
  sumf g l = sumf f l + if in_dec Nat.eq_dec k l then d else 0.
Proof.
  intros f g k d l D H. induction D as [|x l N D IH]; [reflexivity|]. cbn [sumf]. rewrite IH, H.
  destruct (in_dec Nat.eq_dec k l), (in_dec Nat.eq_dec k (x :: l)) as [J|J], (Nat.eqb_spec x k); subst; cbn in *; try tauto; try lia.
  all: exfalso; destruct J; auto.
Qed.
Lemma sumN_pt : forall f g d, pt f g d -> exists B0, forall B, (B0 <= B)%nat -> sumN g B = sumN f B + d.
Proof.
  intros f g d [k H]. exists (S k). intros B L. unfold sumN. rewrite (sum_pt f g k d) by (auto using seq_NoDup).
  destruct (in_dec Nat.eq_dec k (seq 0 B)) as [J|J]; auto. elim J. apply in_seq. lia.
Qed.
Lemma pt_refl : forall f, pt f f 0.
Proof. intros f. exists 0%nat. intros i. destruct (i =? 0)%nat; lia. Qed.
Lemma pt_ext : forall f g, (forall i, g i = f i) -> pt f g 0.
Proof. intros f g H. exists 0%nat. intros i. rewrite H. destruct (i =? 0)%nat; lia. Qed.
Lemma pt_at : forall f g k, (forall i, i <> k -> g i = f i) -> pt f g (g k - f k).
Proof. intros f g k H. exists k. intros i. destruct (Nat.eqb_spec i k); [subst; lia|]. rewrite H; auto. lia. Qed.
Lemma pt_upd : forall A (c : A -> Z) f k v, pt (fun i => c (f i)) (fun i => c (upd f k v i)) (c v - c (f k)).
Proof. intros A c f k v. exists k. intros i. rewrite upd_eq. destruct (Nat.eqb_spec i k); subst; lia. Qed.
Lemma pt_eq : forall f g d d', pt f g d -> d = d' -> pt f g d'.
Proof. intros. now subst. Qed.

(** Facts used below that hold in every reachable state. *)
Definition jobs_ok (p : pool) : Prop := NoDup (map fst (pl_jobs p)) /\ forall j, In j (map fst (pl_jobs p)) -> (j < pl_free p)%nat.
Definition xgood (h : heap) : Prop :=
  (forall n, (h_nprm h <= n)%nat -> h_prms h n = None) /\ forall pl, jobs_ok (h_pools h pl).
Lemma pool_clear_free : forall p j c p' x, pool_clear p j c = (p', x) -> pl_free p' = pl_free p.
Proof. unfold pool_clear. intros p j c p' x E. brki E; injection E as <- <-; reflexivity. Qed.
Lemma pool_take_free : forall p lv inp p' x, pool_take p lv inp = (p', x) -> pl_free p' = pl_free p.
Proof. unfold pool_take. cbv zeta. intros p lv inp p' x E. brki E; injection E as <- <-; reflexivity. Qed.
Lemma pool_change_free : forall p j g p' b, pool_change p j g = (p', b) -> pl_free p' = pl_free p.
Proof. unfold pool_change. intros p j g p' b E. brki E; injection E as <- <-; reflexivity. Qed.
Lemma jobs_ok_fst : forall p p', jobs_ok p -> map fst (pl_jobs p') = map fst (pl_jobs p) -> pl_free p' = pl_free p -> jobs_ok p'.
Proof. intros p p' H E F. unfold jobs_ok. now rewrite E, F. Qed.
Lemma upd_all : forall A (P : A -> Prop) f k v, (forall i, P (f i)) -> P v -> forall i, P (upd f k v i).
Proof. intros A P f k v H Hv i. rewrite upd_eq. destruct (i =? k)%nat; auto. Qed.
Lemma NoDup_app_one : forall A (l : list A) x, NoDup l -> ~ In x l -> NoDup (l ++ [x]).
Proof.
  intros A l x D N. induction D as [|y l Ny D IH]; cbn; [constructor; [intros []|constructor]|].
  constructor; [|apply IH; intros J; apply N; now right]. rewrite in_app_iff. intros [J|[<-|[]]]; [now apply Ny|apply N; now left].
Qed.
Lemma jobs_ok_clear : forall p j c p' x, jobs_ok p -> pool_clear p j c = (p', x) -> jobs_ok p'.
Proof.
  intros p j c p' [x|] [D L] E; [|unfold pool_clear in E; brki E; try discriminate E; injection E as <-; split; auto].
  unfold jobs_ok. rewrite (pool_clear_free _ _ _ _ _ E), (pool_clear_fst _ _ _ _ _ E). split; [now apply NoDup_filter|].
  intros k Hk. apply filter_In in Hk. apply L, Hk.
Qed.
Lemma jobs_ok_add : forall p g k q p' j, jobs_ok p -> pool_add p g k q = (p', j) -> jobs_ok p'.
Proof.
  intros p g k q p' j [D L] E. unfold jobs_ok. rewrite (pool_add_fst _ _ _ _ _ _ E). injection E as <- <-. cbn [pl_free]. split.
  - apply NoDup_app_one; auto. intros J. apply L in J. lia.
  - intros k' Hk. apply in_app_iff in Hk as [Hk|[<-|[]]]; [apply L in Hk|]; lia.
Qed.
Theorem xgood_reachable : forall s, reachable s -> xgood (hp s).
Proof.
  apply (replay_rule (fun h _ => xgood h)).
  - split; [reflexivity|]. intros pl. split; [constructor|intros j []].
  - intros h l d H. exact H.
  - intros h l e H _. exact H.
  - intros h ? ? [] ? ? ? G O [Hp Hj] At NN; try contradiction; atom_split At; try (split; [exact Hp|exact Hj]).
    all: split; hs; auto; try (intros i Hi; rewrite upd_eq; destruct (Nat.eqb_spec i (h_nprm h)); [lia|]; apply Hp; lia).
    all: try (intros i Hi; rewrite upd_eq; match goal with |- context [(?a =? ?b)%nat] => destruct (Nat.eqb_spec a b) end; [subst; auto; try (match goal with H : (_ <? _)%nat = true |- _ => apply Nat.ltb_lt in H end); lia|now apply Hp]).
    all: try (apply upd_all; [exact Hj|]).
    all: try (eapply jobs_ok_fst; [apply Hj| |]; reflexivity).
    all: try (split; [constructor|intros j []]; fail).
    all: first [eapply jobs_ok_add; [apply Hj|eassumption] | eapply jobs_ok_clear; [apply Hj|eassumption]
      | eapply jobs_ok_fst; [apply Hj|eapply pool_change_fst; eassumption|eapply pool_change_free; eassumption]
      | eapply jobs_ok_fst; [apply Hj|eapply pool_take_fst; eassumption|eapply pool_take_free; eassumption]].

Qed.

(** ** Weights
    [s0], [s1], [s2]: what the promise of a packaged task weighs while the closure
    is a callback that was not fired, a closure that was launched, and a closure
    that has been run or is being destroyed.  [cw]: a reference to a combinator
    context. *)
Section W.
Variables (s0 s1 s2 : sid -> Z) (cw : nat -> Z).
Fixpoint tw (s : sid -> Z) (k : task) : Z :=
  match k with
  | TPack p b => s p + match b with BTask k' => tw s k' | BAll w _ _ | BAny w _ _ => cw w | _ => 0 end
  | _ => 0
  end.
Definition bw (s : sid -> Z) (b : body) : Z := match b with BTask k' => tw s k' | BAll w _ _ | BAny w _ _ => cw w | _ => 0 end.
Definition rn (k : task) : Z := tw s1 k - tw s2 k.
Definition cbw (cb : callback) : Z := tw s0 (cb_task cb).
Definition dw (d : ditem) : Z := match d with DTask k => tw s2 k | DBody b => bw s2 b | DProm p => s2 p | DW w => cw w | DCap _ => 0 end.
Definition ow (x : option sid) : Z := match x with Some p => s2 p | None => 0 end.
Definition lw (c : lk) : Z :=
  match c with LkFire _ rest lft => sumf cbw rest + sumf (tw s2) lft | LkWhen w _ _ _ _ => cw w | _ => 0 end.
Definition fw (f : frame) : Z :=
  match f with
  | FRun k => rn k
  | FUStart _ _ (UPack p) | FWIn _ _ _ _ p => s1 p - s2 p
  | FDrop k | FCheckEnd _ _ k => tw s2 k
  | FDestroy l => sumf dw l
  | FPromDtor p | FPNew1 p | FMkReady1 p _ => s2 p
  | FPAssign1 _ x => ow x
  | FInvoke _ k c | FPush _ k c | FDisp _ k c | FLaunch _ _ k c | FLaunch1 _ _ k c => tw s1 k + lw c
  | FSet2 _ cbs => sumf cbw cbs
  | FFire _ cbs lft => sumf cbw cbs + sumf (tw s2) lft
  | FFire1 _ cb c => cbw cb + lw c
  | FThen2 _ cb _ => cbw cb
  | FWId w _ _ | FWFillAll w _ _ _ _ | FWEach w _ _ _ _ | FWThen w _ _ _ _ _ _ | FWProc w _ _ _ _
  | FWFin w | FWFin1 w | FWRet w | FWRel w | FWMark w WaRet | FWUnl w WaRet => cw w
  | FWPack w _ _ _ _ _ => cw w + cw w
  | FWAtt w _ _ _ _ q _ => cw w + cw w + s0 q
  | FSched1 _ _ _ p _ _ => s1 p
  | FSched2 _ _ _ p q _ _ | FSched3 _ _ _ p q _ _ => s1 p + s1 q
  | _ => 0
  end.

Definition ctxw (h : heap) (i : nat) : Z := if alive h i then sumf (tw s1) (ctx_pending (h_ctxs h i)) else 0.
Definition fsw (f : fstate) : Z := sumf cbw (fs_cbs f).
Definition wcw (w : wctx) : Z := if (w_refs w =? 0)%nat then 0 else s2 (w_prom w).
Definition jbw (p : pool) : Z := sumf (fun e => tw s1 (jb_callable (snd e))) (pl_jobs p).
Definition hw (B : nat) (h : heap) : Z :=
  sumN (ctxw h) B + sumN (fun i => fsw (h_fsts h i)) B + sumN (fun i => ow (h_prms h i)) B
  + sumN (fun i => wcw (h_wcs h i)) B + sumN (fun i => jbw (h_pools h i)) B.

(** [h'] weighs [d] more than [h]. *)
Definition hd (h h' : heap) (d : Z) : Prop := exists B0, forall B, (B0 <= B)%nat -> hw B h' = hw B h + d.
Lemma hd_pt : forall h h' d1 d2 d3 d4 d5 d,
  pt (ctxw h) (ctxw h') d1 -> pt (fun i => fsw (h_fsts h i)) (fun i => fsw (h_fsts h' i)) d2 ->
  pt (fun i => ow (h_prms h i)) (fun i => ow (h_prms h' i)) d3 ->
  pt (fun i => wcw (h_wcs h i)) (fun i => wcw (h_wcs h' i)) d4 ->
  pt (fun i => jbw (h_pools h i)) (fun i => jbw (h_pools h' i)) d5 ->
  d = d1 + d2 + d3 + d4 + d5 -> hd h h' d.
Proof.
  intros h h' d1 d2 d3 d4 d5 d P1 P2 P3 P4 P5 ->.
  apply sumN_pt in P1 as [B1 P1]. apply sumN_pt in P2 as [B2 P2]. apply sumN_pt in P3 as [B3 P3].
  apply sumN_pt in P4 as [B4 P4]. apply sumN_pt in P5 as [B5 P5].
  exists (B1 + B2 + B3 + B4 + B5)%nat. intros B L. unfold hw. rewrite P1, P2, P3, P4, P5 by lia. lia.
Qed.

Definition odelta (h : heap) {T} (o : op T) : T -> Z :=
  match o in op T return T -> Z with
  | ORelease i => fun ks => - sumf (tw s1) ks
  | OPush _ k => fun _ => tw s1 k
  | OProc _ => fun r => match r with WTask k => - tw s1 k | _ => 0 end
  | OTakeSleep _ => fun r => match r with WTask k => - tw s1 k | _ => 0 end
  | OWake _ _ => fun r => match snd r with Some k => - tw s1 k | None => 0 end
  | OTrySet p _ => fun x => match x with Some cbs => - sumf cbw cbs | None => 0 end
  | OAttach p cb => fun b => if b then cbw cb else 0
  | OPrmNew p => fun _ => s2 p
  | OPrmPut pr x => fun _ => ow x - ow (h_prms h pr)
  | OPrmTake pr => fun x => - ow x
  | OWNew _ _ => fun _ => s2 (h_nfs h)
  | OWThen w _ _ => fun _ => if (w_refs (h_wcs h w) =? 0)%nat then s2 (w_prom (h_wcs h w)) else 0
  | OWRel w => fun x => - ow x
  | OPAdd _ _ k _ _ => fun _ => tw s1 k
  | OPClear _ _ _ => fun x => match x with Some k => - tw s1 k | None => 0 end
  | OPClearAll _ => fun ks => - sumf (tw s1) ks
  | OPTake _ _ => fun x => match snd x with Some (_, k) => - tw s1 k | None => 0 end
  | _ => fun _ => 0
  end.
Definition opa (h : heap) {T} (o : op T) : Prop := match o with ORelease i => alive h i = true | _ => True end.

Lemma sumf_map : forall A B (f : A -> B) (w : B -> Z) l, sumf w (map f l) = sumf (fun x => w (f x)) l.
Proof. induction l as [|a l IH]; cbn; auto. now rewrite IH. Qed.
Lemma ctxw_upd : forall h h' i, h_regd h' = h_regd h -> (forall j, j <> i -> h_ctxs h' j = h_ctxs h j) ->
  pt (ctxw h) (ctxw h') (ctxw h' i - ctxw h i).
Proof. intros h h' i R C. apply pt_at. intros j N. unfold ctxw, alive. now rewrite R, C. Qed.
Lemma jbw_set : forall l j y x, NoDup (map fst l) -> jobs_find l j = Some y ->
  sumf (fun e => tw s1 (jb_callable (snd e))) (jobs_set l j x) = sumf (fun e => tw s1 (jb_callable (snd e))) l - tw s1 (jb_callable y) + tw s1 (jb_callable x).
Proof.
  induction l as [|[k z] l IH]; cbn [jobs_find jobs_set map fst sumf snd]; intros j y x D E; [discriminate|].
  inversion D; subst. destruct (k =? j)%nat.
  - injection E as ->. cbn [sumf snd]. lia.
  - cbn [sumf snd]. rewrite (IH j y x); auto. lia.
Qed.
Lemma jbw_erase : forall l j y, NoDup (map fst l) -> jobs_find l j = Some y ->
  sumf (fun e => tw s1 (jb_callable (snd e))) (jobs_erase l j) = sumf (fun e => tw s1 (jb_callable (snd e))) l - tw s1 (jb_callable y).
Proof.
  induction l as [|[k z] l IH]; cbn [jobs_find map fst sumf snd jobs_erase filter]; intros j y D E; [discriminate|].
  inversion D as [|? ? N D']; subst. destruct (Nat.eqb_spec k j) as [->|].
  - injection E as ->. cbn [negb]. assert (X : filter (fun e => negb (fst e =? j)%nat) l = l); [|rewrite X; lia].
    clear -N. induction l as [|[a b] l IH]; auto. cbn in *. destruct (Nat.eqb_spec a j); cbn.
    + elim N. now left.
    + now rewrite IH by tauto.
  - cbn [negb sumf snd]. unfold jobs_erase in IH. rewrite (IH j y); auto. lia.
Qed.
Lemma pool_take_w : forall p lv inp p' x, NoDup (map fst (pl_jobs p)) -> pool_take p lv inp = (p', x) ->
  jbw p' = jbw p - match x with Some (_, k) => tw s1 k | None => 0 end.
Proof.
  unfold pool_take, jbw. cbv zeta. intros p lv inp p' x D E.
  brki E; injection E as <- <-; cbn [pl_jobs]; try lia.
  all: erewrite jbw_set by eauto; cbn [jb_callable tw]; try lia.
  match goal with H : task_null ?k = true |- _ => destruct k; try discriminate H; cbn [tw]; lia end.
Qed.

Ltac ptr := first [apply pt_refl | apply pt_ext; intros; reflexivity].
Definition same_rest (h h' : heap) : Prop :=
  h_fsts h' = h_fsts h /\ h_prms h' = h_prms h /\ h_wcs h' = h_wcs h /\ h_pools h' = h_pools h.
Lemma hd_ctx : forall h h' i d, same_rest h h' -> (forall j, j <> i -> ctxw h' j = ctxw h j) -> d = ctxw h' i - ctxw h i -> hd h h' d.
Proof.
  intros h h' i d (E1 & E2 & E3 & E4) C ->.
  eapply hd_pt; [now apply (pt_at _ _ i)|rewrite E1; ptr|rewrite E2; ptr|rewrite E3; ptr|rewrite E4; ptr|lia].
Qed.
Lemma hd_upd : forall h h' i c d, same_rest h h' -> h_regd h' = h_regd h -> h_ctxs h' = upd (h_ctxs h) i c -> alive h i = true ->
  cx_refs c = cx_refs (h_ctxs h i) -> sumf (tw s1) (ctx_pending c) = sumf (tw s1) (ctx_pending (h_ctxs h i)) + d -> hd h h' d.
Proof.
  intros h h' i c d S G C A F P. apply (hd_ctx _ _ i); auto.
  - intros j N. unfold ctxw, alive. now rewrite G, C, upd_other by auto.
  - assert (A' : alive h' i = true) by (unfold alive in *; now rewrite G, C, upd_same, F).
    unfold ctxw. rewrite A, A', C, upd_same. lia.
Qed.
Lemma mem_cons_other : forall j i l, j <> i -> mem j (i :: l) = mem j l.
Proof. intros. unfold mem. cbn. now destruct (Nat.eqb_spec j i). Qed.
Lemma mem_rem_other : forall j i l, j <> i -> mem j (rem i l) = mem j l.
Proof.
  intros j i l N. destruct (mem j l) eqn:E.
  - apply mem_In. apply rem_In. split; auto. now apply mem_In.
  - destruct (mem j (rem i l)) eqn:F; auto. apply mem_In, rem_In in F as [F _]. apply mem_In in F. congruence.
Qed.
Lemma alive_refs : forall h i, cx_refs (h_ctxs h i) <> [] -> alive h i = true.
Proof. intros h i N. unfold alive. destruct (cx_refs _); [contradiction|apply orb_true_r]. Qed.
Ltac upc := eapply hd_upd; [repeat split|reflexivity|reflexivity|assumption|reflexivity|].
Ltac ptu c := first [ptr | apply (pt_upd _ c)].
Lemma atom_w : forall h t T (o : op T) inp h' x, reg_inv h -> virgin h -> xgood h -> opa h o -> atom h t o inp = AOk h' x ->
  hd h h' (odelta h o x).
Proof.
  intros h t T o inp h' x R V [XP XJ] A At.
  destruct o; cbn [opa odelta] in *;
    try solve [cbn [atom] in At; try discriminate At; atom_split At; (eapply hd_pt; [ptr|ptr|ptr|ptr|ptr|lia])].
  - (* OReg *) cbn [atom] in At. destruct (do_reg h t _) as [h1 i] eqn:D. inversion At; subst; clear At.
    destruct (do_reg_cases h t (match o with Some n => n | None => t end) R) as [(i & E & I & D')|(E & D')];
      rewrite D' in D; inversion D; subst; clear D D'.
    + apply (hd_ctx _ _ x); [repeat split| |].
      * intros j N. unfold ctxw, alive. hs. now rewrite upd_other by auto.
      * apply mem_In in I. unfold ctxw, alive. hs. rewrite I, upd_same. cbn [orb]. unfold ctx_pending. cbn. lia.
    + apply (hd_ctx _ _ (S (h_idgen h))); [repeat split| |].
      * intros j N. unfold ctxw, alive. hs. now rewrite mem_cons_other, upd_other by auto.
      * unfold ctxw. destruct (alive h (S (h_idgen h))) eqn:A1; [apply alive_range in A1; auto; lia|].
        rewrite alive_refs; hs; rewrite upd_same; [reflexivity|discriminate].
  - (* OUnreg *) atom_split At; try (eapply hd_pt; [ptr|ptr|ptr|ptr|ptr|lia]).
    all: apply (hd_ctx _ _ i); [repeat split| |].
    all: try (intros j N; unfold ctxw, alive; hs; rewrite ?upd_other by auto; first [now rewrite mem_rem_other by auto | rewrite <- Heql; now rewrite mem_rem_other by auto]).
    all: unfold ctxw; rewrite alive_refs; hs; rewrite upd_same; [|discriminate]; rewrite alive_mem by assumption; unfold ctx_pending; cbn; lia.
  - (* OFind *) atom_split At; try (eapply hd_pt; [ptr|ptr|ptr|ptr|ptr|lia]). apply (hd_ctx _ _ i); [repeat split| |].
    + intros j N. unfold ctxw, alive. hs. now rewrite upd_other by auto.
    + unfold ctxw. rewrite alive_refs; hs; rewrite upd_same; [|discriminate]. rewrite alive_mem by assumption. unfold ctx_pending. cbn. lia.
  - (* ORelease *) atom_split At; (apply (hd_ctx _ _ i); [repeat split| |]).
    + intros j N. unfold ctxw, alive. hs. now rewrite upd_other by auto.
    + unfold ctxw. rewrite A, Heqb. hs. rewrite upd_same. unfold ctx_pending. cbn. lia.
    + intros j N. unfold ctxw, alive. hs. now rewrite upd_other by auto.
    + unfold ctxw. rewrite A. match goal with |- context [alive (emit ?h ?e) i] => change (alive (emit h e) i) with (alive h i) end.
      rewrite Heqb. lia.
  - (* OPush *) atom_split At. upc. unfold ctx_pending. cbn. rewrite !sumf_app. cbn. lia.
  - atom_split At. upc. unfold ctx_pending. cbn. lia.
  - (* OProc *) atom_split At; try (eapply hd_pt; [ptr|ptr|ptr|ptr|ptr|lia]).
    + apply take_some in Heqp as (P & (_ & _ & F & _) & _). eapply hd_upd; [repeat split|reflexivity|reflexivity|assumption|exact F|].
      rewrite P. cbn. lia.
    + apply take_none in Heqp as [-> P]. upc. lia.
  - atom_split At; try (eapply hd_pt; [ptr|ptr|ptr|ptr|ptr|lia]).
    + apply take_some in Heqp as (P & (_ & _ & F & _) & _). eapply hd_upd; [repeat split|reflexivity|reflexivity|assumption|exact F|].
      rewrite P. cbn. lia.
    + apply take_none in Heqp as [-> P]. upc. lia.
    + apply take_none in Heqp as [-> P]. upc. unfold ctx_pending. cbn. lia.
  - atom_split At; try (eapply hd_pt; [ptr|ptr|ptr|ptr|ptr|lia]).
    all: first [apply take_some in Heqp as (P & (_ & _ & F & _) & _); eapply hd_upd; [repeat split|reflexivity|reflexivity|assumption|exact F|];
                  cbn [cx_tasks cx_proc cx_idx clear_wakeup] in P; change (ctx_pending (h_ctxs h i)) with (ctx_pending (clear_wakeup (h_ctxs h i))); rewrite P; cbn; lia
               | apply take_none in Heqp as [-> P]; upc; change (ctx_pending (h_ctxs h i)) with (ctx_pending (clear_wakeup (h_ctxs h i))); lia
               | upc; change (ctx_pending (h_ctxs h i)) with (ctx_pending (clear_wakeup (h_ctxs h i))); lia].
  - atom_split At. upc. unfold ctx_pending. cbn. lia.
  - (* ONewState *) atom_split At; (eapply hd_pt; [ptr|ptu fsw|ptu ow|ptu wcw|ptu jbw|]).
    destruct V as (V & _). rewrite V by lia. unfold fsw. cbn. lia.
  - (* OTrySet *) atom_split At; (eapply hd_pt; [ptr|ptu fsw|ptu ow|ptu wcw|ptu jbw|]); try lia.
    unfold fs_set in Heqp. injection Heqp as <- <-. unfold fsw. destruct o; cbn; lia.
  - (* OAttach *) atom_split At; (eapply hd_pt; [ptr|ptu fsw|ptu ow|ptu wcw|ptu jbw|]); try lia.
    all: unfold fsw, fs_attach; cbn; rewrite ?sumf_app; cbn; lia.
  - atom_split At; (eapply hd_pt; [ptr|ptu fsw|ptu ow|ptu wcw|ptu jbw|]); unfold fsw; cbn; lia.
  - atom_split At; (eapply hd_pt; [ptr|ptu fsw|ptu ow|ptu wcw|ptu jbw|]); unfold fsw; cbn; lia.
  - (* OPrm *) atom_split At; (eapply hd_pt; [ptr|ptu fsw|ptu ow|ptu wcw|ptu jbw|]). rewrite (XP (h_nprm h)) by lia. cbn. lia.
  - atom_split At; (eapply hd_pt; [ptr|ptu fsw|ptu ow|ptu wcw|ptu jbw|]); first [lia | cbn [ow]; lia].
  - atom_split At; (eapply hd_pt; [ptr|ptu fsw|ptu ow|ptu wcw|ptu jbw|]); first [lia | cbn [ow]; lia].
  - (* OWNew *) atom_split At; (eapply hd_pt; [ptr|ptu fsw|ptu ow|ptu wcw|ptu jbw|]).
    destruct V as (V & V2 & _). hs. rewrite V, V2 by lia. unfold fsw, wcw. cbn. lia.
  - atom_split At; (eapply hd_pt; [ptr|ptu fsw|ptu ow|ptu wcw|ptu jbw|]); unfold wcw; cbn; lia.
  - (* OWThen *) atom_split At; (eapply hd_pt; [ptr|ptu fsw|ptu ow|ptu wcw|ptu jbw|]); unfold wcw; cbn; destruct (w_refs _); cbn; lia.
  - atom_split At; (eapply hd_pt; [ptr|ptu fsw|ptu ow|ptu wcw|ptu jbw|]); unfold wcw; cbn; lia.
  - atom_split At; (eapply hd_pt; [ptr|ptu fsw|ptu ow|ptu wcw|ptu jbw|]).
    unfold wall_step in *. brki Heqp; injection Heqp as <- <-; unfold wcw; cbn; lia.
  - atom_split At; (eapply hd_pt; [ptr|ptu fsw|ptu ow|ptu wcw|ptu jbw|]).
    unfold wany_step in *. brki Heqp; injection Heqp as <- <-; unfold wcw; cbn; lia.
  - atom_split At; (eapply hd_pt; [ptr|ptu fsw|ptu ow|ptu wcw|ptu jbw|]).
    unfold wany_final in *. brki Heqp; injection Heqp as <- <-; unfold wcw; cbn; lia.
  - atom_split At; (eapply hd_pt; [ptr|ptu fsw|ptu ow|ptu wcw|ptu jbw|]); unfold wcw; cbn; lia.
  - (* OWRel *) atom_split At; (eapply hd_pt; [ptr|ptu fsw|ptu ow|ptu wcw|ptu jbw|]).
    all: unfold wcw; cbn; destruct (w_refs (h_wcs h n)) as [|[|m]]; cbn in *; try discriminate; lia.
  - (* OPoolNew *) atom_split At; (eapply hd_pt; [ptr|ptu fsw|ptu ow|ptu wcw|ptu jbw|]); destruct V as (_ & _ & V & _); rewrite V by lia; unfold jbw; cbn; lia.
  - atom_split At; (eapply hd_pt; [ptr|ptu fsw|ptu ow|ptu wcw|ptu jbw|]); unfold jbw; cbn; lia.
  - atom_split At; (eapply hd_pt; [ptr|ptu fsw|ptu ow|ptu wcw|ptu jbw|]); unfold jbw; cbn; lia.
  - (* OPAdd *) atom_split At; (eapply hd_pt; [ptr|ptu fsw|ptu ow|ptu wcw|ptu jbw|]); injection Heqp as <- <-; unfold jbw; cbn; rewrite ?sumf_app; cbn; lia.
  - (* OPChange *) atom_split At; (eapply hd_pt; [ptr|ptu fsw|ptu ow|ptu wcw|ptu jbw|]); try lia.
    unfold pool_change in Heqp. brki Heqp; try discriminate Heqp; injection Heqp as <-. unfold jbw. cbn [pl_jobs].
    erewrite jbw_set by (try apply XJ; eauto). cbn. lia.
  - (* OPClear *) atom_split At; (eapply hd_pt; [ptr|ptu fsw|ptu ow|ptu wcw|ptu jbw|]); try lia.
    unfold pool_clear in Heqp. brki Heqp; try discriminate Heqp; injection Heqp as <- <-. unfold jbw. cbn [pl_jobs].
    erewrite jbw_erase by (try apply XJ; eauto). lia.
  - (* OPClearAll *) atom_split At; (eapply hd_pt; [ptr|ptu fsw|ptu ow|ptu wcw|ptu jbw|]); unfold jbw; cbn; rewrite sumf_map; lia.
  - (* OPTake *) atom_split At; (eapply hd_pt; [ptr|ptu fsw|ptu ow|ptu wcw|ptu jbw|]).
    all: apply pool_take_w in Heqp; [|apply XJ]; rewrite Heqp; cbn [snd fst]; repeat match goal with |- context [match ?y with Some _ => _ | None => _ end] => destruct y as [[? ?]|] end; lia.
  - atom_split At; (eapply hd_pt; [ptr|ptu fsw|ptu ow|ptu wcw|ptu jbw|]); unfold jbw; cbn; lia.
Qed.

Hypothesis S12 : forall p, s2 p <= s1 p.
Lemma tw_le : forall k, tw s2 k <= tw s1 k.
Proof.
  fix IH 1. intros k. destruct k; cbn [tw]; try lia. pose proof (S12 p). destruct b; try lia. specialize (IH k). lia.
Qed.
Lemma tws_le : forall l, sumf (tw s2) l <= sumf (tw s1) l.
Proof. induction l as [|k l IH]; cbn; [lia|]. pose proof (tw_le k). lia. Qed.
Definition same_w : Prop := forall p, s1 p = s2 p.
Lemma tw_same : same_w -> forall k, tw s1 k = tw s2 k.
Proof. intros E. fix IH 1. intros k. destruct k; cbn [tw]; try lia. rewrite (E p). destruct b; try lia. now rewrite IH. Qed.
Lemma tws_same : same_w -> forall l, sumf (tw s1) l = sumf (tw s2) l.
Proof. intros E l. apply sumf_ext. now apply tw_same. Qed.

Definition gain (h : heap) (pre : list frame) : Z :=
  match pre with
  | [f] =>
      match f with
      | FRun (TPack p (BTask _)) => s2 p - s1 p
      | FUStart _ _ (UPack p) | FWIn _ _ _ _ p => s2 p - s1 p
      | FPNew _ | FMkReady _ _ => s2 (h_nfs h)
      | FThen1 _ _ _ _ _ _ _ | FWPack _ _ _ _ _ _ => s0 (h_nfs h)
      | FAsync _ _ _ _ _ | FSched _ _ _ _ _ _ | FSched1 _ _ _ _ _ _ => s1 (h_nfs h)
      | FWhen _ (_ :: _) => s2 (h_nfs h) + cw (h_nw h)
      | FWThen w _ _ _ _ _ _ => cw w + if (w_refs (h_wcs h w) =? 0)%nat then s2 (w_prom (h_wcs h w)) else 0
      | FPromDtor p | FMkReady1 p _ => - s2 p
      | FPAssign1 d _ => - ow (h_prms h d)
      | FWRel w => - cw w
      | FFire1 _ cb _ => tw s1 (cb_task cb) - tw s0 (cb_task cb)
      | _ => 0
      end
  | _ => 0
  end.

Lemma w_app : forall a b, sumf fw (a ++ b) = sumf fw a + sumf fw b.
Proof. intros. apply sumf_app. Qed.
Lemma w_destroy : forall ks, sumf fw (destroy ks) = sumf (tw s2) ks.
Proof.
  intros ks. assert (E : sumf dw (map DTask ks) = sumf (tw s2) ks) by (rewrite sumf_map; reflexivity).
  destruct ks; [reflexivity|]. unfold destroy. cbn [sumf fw]. rewrite E. cbn [sumf]. lia.
Qed.
Lemma w_lresume : forall c ok b, sumf fw (lresume c ok b) = lw c + match b with Some k => tw s2 k | None => 0 end.
Proof.
  intros c ok b. destruct c; unfold lresume; cbv zeta; rewrite ?w_app, ?w_destroy; destruct b; cbn [sumf fw lw]; rewrite ?sumf_app; cbn [sumf]; lia.
Qed.
Lemma w_wresume : forall k b, sumf fw (wresume k b) = 0.
Proof. intros [] b; reflexivity. Qed.
Lemma w_gresume : forall k b, sumf fw (gresume k b) = 0.
Proof. intros [] b; reflexivity. Qed.
Lemma w_semresume : forall k b, sumf fw (semresume k b) = 0.
Proof. intros [| |p [d|] g|] []; reflexivity. Qed.
Lemma w_wafter : forall w a, sumf fw (wresume_after w a) = match a with WaRet => cw w | _ => 0 end.
Proof. intros w []; cbn; lia. Qed.
Lemma w_pact : forall o pl a, sumf fw (pact_frames o pl a) = 0.
Proof. intros o pl []; reflexivity. Qed.
Lemma w_sp : forall n i k, sumf fw (spresume n i k) = 0.
Proof. intros n i []; reflexivity. Qed.
Lemma w_ufin : forall f v, sumf fw (ufin_ret f v) = 0.
Proof. intros [] v; reflexivity. Qed.
Lemma w_api : forall c, sumf fw (api_frames c) = 0.
Proof. intros []; reflexivity. Qed.
Lemma w_tframes : forall b, sumf fw (tframes b) = 0.
Proof. intros []; reflexivity. Qed.
Lemma w_caps : forall l, sumf dw (map DCap l) = 0.
Proof. intros l. rewrite sumf_map. now apply sumf_zero. Qed.
Ltac wfs := cbn [next_frames run_one app]; rewrite ?w_app, ?w_destroy, ?w_lresume, ?w_wresume, ?w_gresume,
  ?w_semresume, ?w_wafter, ?w_pact, ?w_sp, ?w_ufin, ?w_api; cbn [sumf fw lw dw bw tw ow]; rewrite ?sumf_app, ?w_caps; cbn [sumf fw lw dw bw tw ow].
Lemma lstep_w : forall h t pre h' n, reg_inv h -> virgin h -> xgood h -> lstep h t pre h' n ->
  (forall i, In (FRel i) pre -> alive h i = true) ->
  exists d, hd h h' d /\ d + sumf fw (next_frames n) <= sumf fw pre + gain h pre /\
            (same_w -> d + sumf fw (next_frames n) = sumf fw pre + gain h pre).
Proof.
  intros h t pre h' n R V X L F.
  assert (Z0 : forall e, hd h (emit h e) 0) by (intros e; eapply hd_pt; [ptr|ptr|ptr|ptr|ptr|lia]).
  lstep_cases L.
  all: try (eexists; split; [apply Z0|]; wfs; cbn [gain]; try (destruct fin); split; intros; lia).
  all: match goal with A : atom _ _ _ _ = AOk _ _ |- _ => pose proof (fun Ok => atom_w _ _ _ _ _ _ _ R V X Ok A) as D end;
    cbn [opa] in D; first [specialize (D Logic.I) | specialize (D (F _ (or_introl eq_refl)))];
    eexists; (split; [exact D|]); cbn [odelta].
  all: try solve [cbn [gain]; wfs; split; intros; lia].
  all: repeat match goal with
       | |- context [next_frames (Go (match ?x with _ => _ end))] => destruct x
       | |- context [next_frames (Go [FDestroy (match ?x with _ => _ end ++ _)])] => destruct x
       end.
  all: cbn [gain fst snd option_map] in *; try solve [wfs; split; intros; lia].
  all: wfs; wfs; unfold rn, cbw, bw; cbn [tw].
  all: try solve [destruct fin; split; intros; lia].
  all: try solve [split; intros; lia].
  all: try match goal with A : atom _ _ (OUb _) _ = _ |- _ => discriminate A end.
  all: try match goal with A : atom _ _ (ONewState _ _) _ = AOk _ ?x |- _ => cbn [atom] in A; assert (x = h_nfs h) by congruence; subst x end.
  all: try match goal with A : atom _ _ (OWNew _ _) _ = AOk _ ?x |- _ =>
    cbn [atom] in A; destruct (all_some _); [|discriminate A]; assert (x = h_nw h) by congruence; subst x end.
  all: try (destruct (snd x); unfold run_one; cbn [sumf fw]; unfold rn).
  all: try destruct kd; cbn [cb_task tw wbody].
  all: try solve [split; intros; lia].
  all: repeat match goal with |- context [sumf (tw s1) ?l] => lazymatch goal with _ : sumf _ l <= _ |- _ => fail | _ => pose proof (tws_le l) end
              | |- context [tw s1 ?l] => lazymatch goal with _ : tw s2 l <= _ |- _ => fail | _ => pose proof (tw_le l) end end.
  all: (split; [lia|intros E; try rewrite (tws_same E); try rewrite (tw_same E); lia]).
Qed.

(** ** The whole state *)
Definition total (B : nat) (s : st) : Z := sumN (fun t => sumf fw (stk s t)) B + hw B (hp s).
Definition tot (s : st) (z : Z) : Prop := exists B0, forall B, (B0 <= B)%nat -> total B s = z.
Lemma lstep_total : forall s t pre rest h n, reachable s -> stk s t = pre ++ rest -> lstep (hp s) t pre h n ->
  exists d B0, (forall B, (B0 <= B)%nat -> total B (mkSt h (set_next (stk s) t n rest) None) = total B s + d) /\
    d <= gain (hp s) pre /\ (same_w -> d = gain (hp s) pre).
Proof.
  intros s t pre rest h n R E L.
  destruct (lstep_w _ _ _ _ _ (reg_inv_reachable s R) (proj1 (proj2 (b_inv_reachable s R))) (xgood_reachable s R) L) as (d & (B1 & D) & G & G').
  { intros i J. apply (held_alive s t (FRel i) i); auto; [rewrite E; apply in_or_app; now left|]. cbn. rewrite Nat.eqb_refl. lia. }
  assert (P : pt (fun u => sumf fw (stk s u)) (fun u => sumf fw (set_next (stk s) t n rest u)) (sumf fw (next_frames n) - sumf fw pre)).
  { exists t. intros u.
    assert (M : sumf fw (next_frames n ++ rest) = sumf fw (stk s t) + (sumf fw (next_frames n) - sumf fw pre)) by (rewrite E, !sumf_app; lia).
    destruct (lstep_tst _ _ _ _ _ L) as [(b & k & inp & -> & F & N & T & ->)|[(-> & -> & _)|((fs & ->) & T & H)]]; unfold set_next.
    + rewrite upd_eq. destruct (Nat.eqb_spec u t) as [->|Nt]; [exact M|].
      rewrite upd_eq. destruct (Nat.eqb_spec u inp) as [->|]; [|lia]. rewrite w_tframes, (fresh_empty _ _ R F). reflexivity.
    + rewrite upd_eq. destruct (Nat.eqb_spec u t) as [->|Nt]; [exact M|]. lia.
    + rewrite upd_eq. destruct (Nat.eqb_spec u t) as [->|Nt]; [exact M|]. lia. }
  apply sumN_pt in P as [B2 P].
  exists (d + (sumf fw (next_frames n) - sumf fw pre)), (B1 + B2)%nat. split; [|split; [lia|intros S; specialize (G' S); lia]].
  intros B HB. unfold total. cbn [stk hp]. rewrite P, D by lia. lia.
Qed.
End W.
