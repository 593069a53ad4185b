(** * InvKind: every shared state is used for what it was created for. *)
From Verif Require Import Types Core State Ops Code Machine Base Spec SpecKind Rules Events InvCtx InvBound Replay.

Section K.
Variable R : sid -> purpose -> Prop.
Definition osk (x : option sid) : Prop := match x with Some p => R p PuPromise | None => True end.
Fixpoint tk (k : task) : Prop :=
  match k with
  | TPack p y => R p (bpur y) /\ match y with BTask k' => tk k' /\ k' <> TConfig | _ => True end
  | _ => True
  end.
Definition bk (y : body) : Prop := match y with BTask k => tk k /\ k <> TConfig | _ => True end.
Definition cbk (c : callback) : Prop := tk (cb_task c) /\ cb_task c <> TConfig.
Definition lkk (c : lk) : Prop := match c with LkFire _ rest lft => Forall cbk rest /\ Forall tk lft | _ => True end.
Definition dik (d : ditem) : Prop := match d with DTask k => tk k | DBody y => bk y | _ => True end.
Definition fk (f : frame) : Prop :=
  match f with
  | FUStart u _ (UPack p) | FUser u (UPack p) => R p (PuFun u)
  | FRun k | FDrop k | FCheckEnd _ _ k => tk k
  | FDestroy l => Forall dik l
  | FPackVal p => R p PuJob
  | FInvoke _ k c | FPush _ k c | FDisp _ k c => tk k /\ lkk c
  | FLaunch _ _ k c | FLaunch1 _ _ k c => (tk k /\ k <> TConfig) /\ lkk c
  | FSet2 _ cbs => Forall cbk cbs
  | FFire _ cbs lft => Forall cbk cbs /\ Forall tk lft
  | FFire1 _ cb c => cbk cb /\ lkk c
  | FPNew1 p => R p PuPromise
  | FMkReady1 p _ => R p PuReady
  | FPAssign1 _ x => osk x
  | FThen2 _ cb _ => cbk cb
  | FWAtt w kd _ idx p q _ => R q (PuHook (is_all kd) w idx p)
  | FWIn a w idx p q => R q (PuHook a w idx p)
  | FWMark w (WaPack q) | FWUnl w (WaPack q) => exists a idx p, R q (PuHook a w idx p)
  | FSched1 _ _ _ p u _ => R p (PuFun u)
  | FSched2 _ _ _ p q u _ | FSched3 _ _ _ p q u _ => R p (PuFun u) /\ R q PuJob
  | _ => True
  end.
Definition opk {T} (o : op T) : Prop :=
  match o with
  | OPush _ k => tk k
  | OAttach p cb => cbk cb
  | OPrmNew p => R p PuPromise
  | OPrmPut _ x => osk x
  | OPAdd pl _ k p q => tk k
  | _ => True
  end.
Definition resk {T} (o : op T) : T -> Prop :=
  match o in op T return T -> Prop with
  | ORelease _ => fun ks => Forall tk ks
  | OProc _ | OTakeSleep _ => fun r => match r with WTask k => tk k | _ => True end
  | OWake _ _ => fun r => match snd r with Some k => tk k | None => True end
  | ONewState _ u => fun p => R p u
  | OTrySet _ _ => fun x => match x with Some cbs => Forall cbk cbs | None => True end
  | OPrmGet _ | OPrmTake _ => fun x => osk x
  | OWAll w _ _ _ | OWAny w _ _ _ | OWFinal w => fun x => match x with Some (p, _) => R p (PuWhen w) | None => True end
  | OWRel w => fun x => match x with Some p => R p (PuWhen w) | None => True end
  | OPClear _ _ _ => fun x => match x with Some k => tk k | None => True end
  | OPClearAll _ => fun ks => Forall tk ks
  | OPTake _ _ => fun x => match snd x with Some (_, k) => tk k | None => True end
  | _ => fun _ => True
  end.
Definition ctk (c : ctx) : Prop := Forall tk (cx_tasks c) /\ Forall tk (cx_proc c).
Definition jbk (e : nat * job) : Prop := tk (jb_callable (snd e)).
Record hk (h : heap) : Prop := {
  hk_ctx : forall i, ctk (h_ctxs h i);
  hk_job : forall pl, Forall jbk (pl_jobs (h_pools h pl));
  hk_cbs : forall p, Forall cbk (fs_cbs (h_fsts h p));
  hk_prm : forall n, osk (h_prms h n);
  hk_w : forall w, w < h_nw h -> R (w_prom (h_wcs h w)) (PuWhen w) }.
End K.

Definition kle (R S : sid -> purpose -> Prop) : Prop := forall p x, R p x -> S p x.
Section M.
Variables (R S : sid -> purpose -> Prop).
Hypothesis L : kle R S.
Lemma tk_mono : forall k, tk R k -> tk S k.
Proof. fix IH 1. intros k H. destruct k; cbn in *; auto. destruct H as [H1 H2]. split; [auto|]. destruct b; auto. destruct H2. auto. Qed.
Lemma tks_mono : forall l, Forall (tk R) l -> Forall (tk S) l.
Proof. intros l. apply Fmono, tk_mono. Qed.
Lemma cbk_mono : forall c, cbk R c -> cbk S c.
Proof. intros c [H N]. split; auto. now apply tk_mono. Qed.
Lemma cbks_mono : forall l, Forall (cbk R) l -> Forall (cbk S) l.
Proof. intros l. apply Fmono, cbk_mono. Qed.
Lemma osk_mono : forall x, osk R x -> osk S x.
Proof. intros []; cbn; auto. Qed.
Lemma lkk_mono : forall c, lkk R c -> lkk S c.
Proof. intros []; cbn; auto. intros []. auto using tks_mono, cbks_mono. Qed.
Lemma dik_mono : forall d, dik R d -> dik S d.
Proof. intros []; cbn; auto using tk_mono. destruct b; cbn; auto. intros []. auto using tk_mono. Qed.
Lemma fk_mono : forall f, fk R f -> fk S f.
Proof.
  intros f H. destruct f; cbn in *; auto using tk_mono, osk_mono, cbk_mono, cbks_mono.
  all: try (match goal with |- match ?x with _ => _ end => destruct x end; auto).
  all: try (destruct H as [[] ?]; repeat split; auto using tk_mono, lkk_mono; fail).
  all: try (destruct H; split; auto using tk_mono, lkk_mono, cbks_mono, tks_mono, cbk_mono; fail).
  all: try (destruct H as (a0 & i & x & H); eauto; fail).
  eapply Fmono; [apply dik_mono|exact H].
Qed.
Lemma opk_mono : forall T (o : op T), opk R o -> opk S o.
Proof. intros T []; cbn; auto using tk_mono, cbk_mono, osk_mono. Qed.
Lemma hk_mono : forall h, hk R h -> hk S h.
Proof.
  intros h [H1 H2 H3 H4 H5]. constructor.
  - intros i. destruct (H1 i). split; apply tks_mono; auto.
  - intros pl. eapply Fmono; [|apply H2]. intros e. apply tk_mono.
  - intros p. apply cbks_mono, H3.
  - intros n. apply osk_mono, H4.
  - intros w Hw. auto.
Qed.
End M.

(** ** Operations *)
Section O.
Variable R : sid -> purpose -> Prop.
Lemma take_k : forall c x c', ctk R c -> take_task c = (x, c') -> ctk R c' /\ match x with Some k => tk R k | None => True end.
Proof.
  intros c x c' [H1 H2] T. unfold take_task in T.
  assert (P : ctk R (prepare_tasks c)).
  { unfold prepare_tasks. destruct (_ && _); split; cbn; auto. }
  destruct P as [P1 P2]. destruct (has_tasks_to_process _); inversion T; subst; cbn.
  - split; [split; cbn; auto; apply set_nth_Forall; cbn; auto|]. apply nth_Forall; cbn; auto.
  - repeat split; auto.
Qed.
Lemma pending_k : forall c, ctk R c -> Forall (tk R) (ctx_pending c).
Proof.
  intros c [H1 H2]. unfold ctx_pending. apply Forall_app. split; auto.
  rewrite Forall_forall in *. intros x Hx. apply H2. rewrite <- (firstn_skipn (cx_idx c)). apply in_or_app; auto.
Qed.
Lemma find_k : forall l j x, Forall (jbk R) l -> jobs_find l j = Some x -> tk R (jb_callable x).
Proof.
  induction l as [|[k y] l IH]; cbn; intros j x H F; [discriminate|]. inversion H; subst.
  destruct (k =? j); [now inversion F; subst|]. eapply IH; eauto.
Qed.
Lemma jset_k : forall l j x, Forall (jbk R) l -> tk R (jb_callable x) -> Forall (jbk R) (jobs_set l j x).
Proof.
  induction l as [|[k y] l IH]; cbn; intros j x H F; auto. inversion H; subst.
  destruct (k =? j); constructor; auto.
Qed.
Lemma erase_k : forall l j, Forall (jbk R) l -> Forall (jbk R) (jobs_erase l j).
Proof.
  intros l j H. unfold jobs_erase. rewrite Forall_forall in *. intros x Hx. apply filter_In in Hx as [Hx _]. auto.
Qed.
Lemma ptake_k : forall p lv inp p' x, Forall (jbk R) (pl_jobs p) -> pool_take p lv inp = (p', x) ->
  Forall (jbk R) (pl_jobs p') /\ match x with Some (_, k) => tk R k | None => True end.
Proof.
  intros p lv inp p' x H T. unfold pool_take in T. brki T; inversion T; subst; cbn; auto.
  - pose proof (find_k _ _ _ H Heqo). split; auto. apply jset_k; cbn; auto.
  - pose proof (find_k _ _ _ H Heqo). split; auto. apply jset_k; cbn; auto.
Qed.

Lemma atom_hk : forall h t T (o : op T) inp h' x, atom h t o inp = AOk h' x ->
  hk R h -> opk R o -> opb (bof h) o ->
  match o with OWNew _ _ => R (h_nfs h) (PuWhen (h_nw h)) | _ => True end -> hk R h'.
Proof.
  intros h t T o inp h' x A [H1 H2 H3 H4 H5] O B W.
  assert (HC : forall i c, ctk R c -> forall j, ctk R (upd (h_ctxs h) i c j)) by (intros i c Hc j; apply upd_P; auto).
  assert (HP : forall pl p, Forall (jbk R) (pl_jobs p) -> forall q, Forall (jbk R) (pl_jobs (upd (h_pools h) pl p q)))
    by (intros pl p Hp q; rewrite upd_eq; destruct (q =? pl); auto).
  assert (HF : forall q f, Forall (cbk R) (fs_cbs f) -> forall p, Forall (cbk R) (fs_cbs (upd (h_fsts h) q f p)))
    by (intros q f Hp p; rewrite upd_eq; destruct (p =? q); auto).
  assert (HR : forall k v, osk R v -> forall n, osk R (upd (h_prms h) k v n)) by (intros k v Hv n; rewrite upd_eq; destruct (n =? k); auto).
  assert (HW : forall k v, w_prom v = w_prom (h_wcs h k) -> forall n, n < h_nw h -> R (w_prom (upd (h_wcs h) k v n)) (PuWhen n)).
  { intros k v Hv n Hn. rewrite upd_eq. destruct (Nat.eqb_spec n k); auto. subst. rewrite Hv. auto. }
  oc A; (constructor; hs; auto); try (apply HC); try (apply HP); try (apply HF); try (apply HR); try (apply HW); cbn; auto; try (apply H1); try (split; cbn; constructor; fail).
  all: try match goal with T : take_task _ = (_, ?c) |- ctk _ ?c => eapply take_k in T; [apply T|apply H1] end.
  all: try match goal with E : pool_take _ _ _ = _ |- _ => apply ptake_k in E; auto; apply E end.
  all: try match goal with E : wall_step _ _ _ = _ |- _ => unfold wall_step in E; brki E; inversion E; reflexivity end.
  all: try match goal with E : wany_step _ _ _ = _ |- _ => unfold wany_step in E; brki E; inversion E; reflexivity end.
  all: try match goal with E : wany_final _ = _ |- _ => unfold wany_final in E; brki E; inversion E; reflexivity end.
  - destruct (H1 i). split; cbn; auto. apply Forall_app. auto.
  - match goal with T : take_task _ = (_, ?c) |- _ => eapply take_k in T; [destruct T as [[T1 T2] _]|apply H1] end. split; cbn; auto.
  - match goal with E : fs_set _ _ = _ |- _ => unfold fs_set in E; injection E as <- <- end.
    match goal with |- context [match ?x with _ => _ end] => destruct x end; cbn; constructor.
  - apply Forall_app. split; auto.
  - intros w Hw. rewrite upd_eq. destruct (Nat.eqb_spec w (h_nw h)); cbn; [subst; exact W|]. apply H5. lia.
  - match goal with E : _ = _ |- _ => unfold pool_add in E; injection E as <- <- end. cbn. apply Forall_app. split; auto.
  - match goal with E : _ = _ |- _ => unfold pool_change in E; brki E; injection E as <-; try discriminate end.
    cbn. match goal with E : jobs_find _ _ = _ |- _ => pose proof (find_k _ _ _ (H2 _) E) end. apply jset_k; auto.
  - match goal with E : _ = _ |- _ => unfold pool_clear in E; brki E; inversion E; subst end. cbn. apply erase_k; auto.
Qed.
Lemma atom_resk : forall h t T (o : op T) inp h' x, atom h t o inp = AOk h' x ->
  hk R h -> opb (bof h) o -> match o with ONewState _ u => R (h_nfs h) u | _ => True end -> resk R o x.
Proof.
  intros h t T o inp h' x A [H1 H2 H3 H4 H5] O N.
  oc A; cbn [resk snd]; auto; try exact Logic.I; try apply Forall_nil; hs.
  all: try match goal with T : take_task _ = (Some ?k, _) |- tk _ ?k => eapply take_k in T; [apply T|apply H1] end.
  all: try match goal with E : wall_step _ _ _ = _ |- _ => unfold wall_step in E; brki E; inversion E; subst; auto; apply H5, O end.
  all: try match goal with E : wany_step _ _ _ = _ |- _ => unfold wany_step in E; brki E; inversion E; subst; auto; apply H5, O end.
  all: try match goal with E : wany_final _ = _ |- _ => unfold wany_final in E; brki E; inversion E; subst; auto; apply H5, O end.
  - apply pending_k. apply H1.
  - match goal with E : fs_set _ _ = _ |- _ => unfold fs_set in E; injection E as <- <- end. apply H3.
  - match goal with E : pool_clear _ _ _ = _ |- _ => unfold pool_clear in E; brki E; inversion E; subst end.
    match goal with E : jobs_find _ _ = _ |- _ => apply (find_k _ _ _ (H2 _)) in E; apply E end.
  - apply Forall_map. exact (H2 n).
  - match goal with E : pool_take _ _ _ = _ |- _ => apply ptake_k in E; auto; apply E end.
  - match goal with E : pool_take _ _ _ = _ |- _ => apply ptake_k in E; auto; apply E end.
Qed.
End O.

(** ** Frames *)
Definition pur (h : heap) : sid -> purpose -> Prop := purpose_is (tr_of h).
Lemma pur_app : forall tr l, kle (purpose_is tr) (purpose_is (tr ++ l)).
Proof.
  intros tr l p x [(t & v & H)|(t & a & w & ins & H & E)]; [left; exists t, v|right; exists t, a, w, ins; split; auto]; apply in_or_app; auto.
Qed.
Lemma lstep_pur : forall h t pre h' n, lstep h t pre h' n -> kle (pur h) (pur h').
Proof.
  intros h t pre h' n L. unfold pur, tr_of. destruct (lstep_tr _ _ _ _ _ L) as [->|[e ->]]; [intros p x H; exact H|]. cbn [rev]. apply pur_app.
Qed.
Section F.
Variable R : sid -> purpose -> Prop.
Lemma destroy_fk : forall ks, Forall (tk R) ks -> Forall (fk R) (destroy ks).
Proof. intros [|k ks] H; cbn [destroy]; constructor; auto. change (Forall (dik R) (map DTask (k :: ks))). apply Forall_map. exact H. Qed.
Lemma tframes_fk : forall y, Forall (fk R) (tframes y).
Proof. intros []; cbn; repeat constructor. Qed.
Lemma wresume_fk : forall k o, Forall (fk R) (wresume k o).
Proof. intros [] o; cbn in *; repeat constructor. Qed.
Lemma gresume_fk : forall k o, Forall (fk R) (gresume k o).
Proof. intros [] o; cbn in *; repeat constructor. Qed.
Lemma semresume_fk : forall k o, Forall (fk R) (semresume k o).
Proof. intros [| |p [d|] g|] []; cbn in *; repeat constructor. Qed.
Lemma lresume_fk : forall k o x, lkk R k -> match x with Some t => tk R t | None => True end -> Forall (fk R) (lresume k o x).
Proof.
  intros k o x H Hx. unfold lresume.
  assert (D : Forall (tk R) (match x with Some k => [k] | None => [] end)) by (destruct x; auto).
  destruct k; cbn in H; try (apply Forall_app; split; [apply destroy_fk; auto|repeat constructor; cbn; tauto]).
  - apply destroy_fk; auto.
  - constructor; auto. cbn. intuition. apply Forall_app. auto.
Qed.
Lemma wafter_fk : forall w a, Forall (fk R) (wresume_after w a).
Proof. intros w []; cbn in *; repeat constructor. Qed.
Lemma pact_fk : forall o pl a, Forall (fk R) (pact_frames o pl a).
Proof. intros o pl []; cbn in *; repeat constructor. Qed.
Lemma sp_fk : forall n i k, Forall (fk R) (spresume n i k).
Proof. intros n i []; cbn in *; repeat constructor. Qed.
Lemma api_fk : forall c, Forall (fk R) (api_frames c).
Proof. intros []; cbn; repeat constructor; cbn; auto. Qed.
Lemma ufin_fk : forall f v, Forall (fk R) (ufin_ret f v).
Proof. intros [] v; cbn in *; repeat constructor. Qed.
Lemma caps_k : forall l, Forall (dik R) (map DCap l).
Proof. induction l; cbn; constructor; auto. exact Logic.I. Qed.
End F.
Lemma atom_new : forall h t T (o : op T) inp h' x, atom h t o inp = AOk h' x ->
  match o with ONewState _ u => pur h' (h_nfs h) u | OWNew _ _ => pur h' (h_nfs h) (PuWhen (h_nw h)) | _ => True end.
Proof.
  intros h t T o inp h' x A. oc A; auto; unfold pur, tr_of; hs; cbn [rev].
  - left. eexists _, _. apply in_or_app. right. left. reflexivity.
  - right. eexists _, _, _, _. split; [apply in_or_app; right; left; reflexivity|reflexivity].
Qed.

Lemma lstep_k : forall h t pre h' n, lstep h t pre h' n -> hk (pur h) h -> Forall (fb (bof h)) pre -> Forall (fk (pur h)) pre ->
  hk (pur h') h' /\ Forall (fk (pur h')) (next_frames n) /\
  match spawned n with Some (_, cfs) => Forall (fk (pur h')) cfs | None => True end.
Proof.
  intros h t pre h' n L H Fb F. pose proof (lstep_pur _ _ _ _ _ L) as M.
  apply (Fmono _ _ _ _ (fk_mono _ _ M)) in F. apply (hk_mono _ _ M) in H. revert M H F. generalize (pur h) as R0. intros R0 M H F.
  lstep_cases L; inversion F as [|? ? F1 F']; subst; clear F.
  1: { split; [destruct H; constructor; auto|]. split; [|exact Logic.I]. cbn [next_frames].
       apply Forall_app. split; [apply api_fk|]. repeat constructor. exact F1. }
  1: { split; [destruct H; constructor; auto|]. split; [|exact Logic.I]. apply ufin_fk. }
  1: { split; [destruct H; constructor; auto|]. split; [|exact Logic.I]. repeat constructor. }
  all: try match goal with A : atom ?h ?t ?o _ = AOk ?h1 _ |- _ =>
    assert (Ob : opb (bof h) o) by (inversion Fb as [|? ? Fb1 Fb']; subst; cbn in Fb1 |- *; try inversion Fb'; subst; unfold cbb, wtb in *; cbn in *;
      first [tauto | inversion Fb1; subst; assumption | match goal with |- context [wbody ?kd] => destruct kd end; cbn; tauto
            | repeat (split; [tauto|]); do 2 eexists; reflexivity]) end.
  all: try match goal with A : atom ?h ?t ?o _ = AOk ?h1 _ |- _ =>
    assert (O : opk (pur h1) o) by (cbn in F1 |- *; unfold cbk in *; cbn in *;
      first [tauto | inversion F1; subst; assumption | match goal with |- context [wbody ?kd] => destruct kd end; cbn; intuition discriminate | solve [intuition discriminate]]) end.
  all: try match goal with A : atom ?h ?t ?o _ = AOk ?h1 _ |- _ =>
    pose proof (atom_new _ _ _ _ _ _ _ A) as Nw; cbn iota in Nw;
    first [pose proof (atom_resk _ _ _ _ _ _ _ _ A H Ob Nw) as B3|pose proof (atom_resk _ _ _ _ _ _ _ _ A H Ob Logic.I) as B3];
    (split; [first [exact (atom_hk _ _ _ _ _ _ _ _ A H O Ob Nw)|exact (atom_hk _ _ _ _ _ _ _ _ A H O Ob Logic.I)]|]); clear A O Ob end.
  all: try (lazymatch goal with |- hk _ _ /\ _ => idtac end; split; [destruct H; constructor; auto|]).
  all: (split; [|first [exact Logic.I|apply tframes_fk|cbn [spawned]; auto]]).
  all: cbn [next_frames] in *; cbn [fk] in F1; try (cbn [resk] in B3).
  all: try inversion F' as [|? ? F2 F'']; subst; clear F'; try (cbn [fk] in F2).
  all: try (repeat match goal with |- context [match ?x with _ => _ end] => destruct x eqn:? end;
    cbn [fst snd] in *; subst;
    repeat match goal with
      | |- Forall _ (_ ++ _) => apply Forall_app; split
      | |- Forall _ (destroy _) => apply destroy_fk
      | |- Forall _ (wresume _ _) => apply wresume_fk
      | |- Forall _ (gresume _ _) => apply gresume_fk
      | |- Forall _ (semresume _ _) => apply semresume_fk
      | |- Forall _ (lresume _ _ _) => apply lresume_fk
      | |- Forall _ (wresume_after _ _) => apply wafter_fk
      | |- Forall _ (pact_frames _ _ _) => apply pact_fk
      | |- Forall _ (spresume _ _ _) => apply sp_fk
      | |- Forall _ (run_one _ _) => unfold run_one
      | |- Forall _ [] => constructor
      | |- Forall _ (_ :: _) => constructor
      end; cbn in *; unfold cbk in *; cbn in *; intuition; fail).
  all: repeat match goal with F : Forall _ (_ :: _) |- _ => inversion F; subst; clear F end.
  all: try match goal with F : Forall _ (_ :: _) /\ _ |- _ => destruct F as [F ?]; inversion F; subst; clear F end.
  all: repeat match goal with |- context [match ?x with _ => _ end] => destruct x eqn:? end.
  all: repeat (apply Forall_cons || apply Forall_nil); cbn [app fk dik bk lkk tk] in *; auto; try tauto; eauto.
  all: repeat (apply Forall_cons || apply Forall_nil); cbn [app fk dik bk lkk tk] in *; auto; try tauto; eauto.
  all: try (apply Forall_app; split; [apply caps_k|]; auto; fail).
  1, 2: unfold cbk; cbn; intuition discriminate.
  destruct kd; unfold cbk; cbn in *; intuition discriminate.
Qed.

Definition k_inv (s : st) : Prop := hk (purpose_is (trace s)) (hp s) /\ forall t, Forall (fk (purpose_is (trace s))) (stk s t).
Theorem k_inv_reachable : forall s, reachable s -> k_inv s.
Proof.
  apply reachable_ind''.
  - split.
    + constructor; cbn; try (intros; lia); try (intros; exact Logic.I); try (intros; constructor; constructor); try (intros; constructor).
    + intros t. cbn. destruct t; cbn; repeat constructor.
  - intros s s' R R' (H & F) U Tr. destruct Tr as [d|t pre rest u E L|t pre rest h n E L].
    + assert (M : kle (purpose_is (trace s)) (purpose_is (trace (mkSt (emit (put_now (hp s) (h_now (hp s) + Zpos d)) (EvTick (Zpos d))) (stk s) None)))).
      { unfold trace, tr_of. cbn [hp]. hs. cbn [rev]. apply pur_app. }
      split; [apply (hk_mono _ _ M) in H; destruct H; constructor; auto|]. intros t. eapply Fmono; [apply (fk_mono _ _ M)|apply F].
    + split; auto.
    + pose proof (F t) as Ft. rewrite E in Ft. apply Forall_app in Ft as [F1 F2].
      pose proof (b_inv_reachable s R) as (_ & _ & Fb). specialize (Fb t). rewrite E in Fb. apply Forall_app in Fb as [Fb _].
      destruct (lstep_k _ _ _ _ _ L H Fb F1) as (H' & N1 & N2).
      split; auto.
      assert (M : forall l, Forall (fk (purpose_is (trace s))) l -> Forall (fk (pur h)) l)
        by (intros l; apply Fmono; apply fk_mono; exact (lstep_pur _ _ _ _ _ L)).
      intros u. change (Forall (fk (pur h)) (set_next (stk s) t n rest u)). unfold set_next. destruct n as [fs|c cfs fs]; cbn in N1, N2.
      * destruct (Nat.eq_dec u t) as [->|Nu]; [rewrite upd_same; apply Forall_app; auto|].
        rewrite upd_other; auto.
      * destruct (Nat.eq_dec u t) as [->|Nu]; [rewrite upd_same; apply Forall_app; auto|].
        rewrite upd_other; auto.
        destruct (Nat.eq_dec u c) as [->|Nc]; [rewrite upd_same; auto|rewrite upd_other; auto].
Qed.

(** ** A state has one purpose *)
Lemma pur_snoc : forall l e p x, purpose_is (l ++ [e]) p x -> purpose_is l p x \/
  match e with EvState _ q _ y => q = p /\ y = x | EvWhen _ _ w q _ => q = p /\ x = PuWhen w | _ => False end.
Proof.
  intros l e p x [(t & v & H)|(t & a & w & ins & H & ->)]; apply in_app_iff in H as [H|[->|[]]]; auto; left; [left|right]; eauto 8.
Qed.
Theorem purpose_one : forall s, reachable s ->
  (forall p x, purpose_is (trace s) p x -> p < h_nfs (hp s)) /\
  (forall p x y, purpose_is (trace s) p x -> purpose_is (trace s) p y -> x = y).
Proof.
  apply (replay_rule (fun h l => (forall p x, purpose_is l p x -> p < h_nfs h) /\ (forall p x y, purpose_is l p x -> purpose_is l p y -> x = y))).
  - split; [intros p x|intros p x y]; intros [(? & ? & [])|(? & ? & ? & ? & [] & _)].
  - intros h l d [H1 H2]. hs. split; [intros p x X|intros p x y X Y]; apply pur_snoc in X as [X|[]]; eauto. apply pur_snoc in Y as [Y|[]]; eauto.
  - intros h l e [H1 H2] Ok. hs.
    split; [intros p x X|intros p x y X Y]; apply pur_snoc in X as [X|X]; try (destruct e; contradiction); eauto. apply pur_snoc in Y as [Y|Y]; try (destruct e; contradiction); eauto.
  - intros h t T o inp h' x G O [H1 H2] At N.
    assert (D : match op_event h t o x with
                | Some (EvState _ q _ _) | Some (EvWhen _ _ _ q _) => q = h_nfs h /\ h_nfs h' = S (h_nfs h)
                | _ => h_nfs h' = h_nfs h end).
    { destruct o; try contradiction; cbn [op_event]; atom_split At; auto; hs; auto. }
    destruct (op_event h t o x) as [e|]; [|rewrite D; split; auto].
    assert (D' : h_nfs h <= h_nfs h' /\ match e with EvState _ q _ _ => q = h_nfs h /\ h_nfs h' = S (h_nfs h) | EvWhen _ _ _ q _ => q = h_nfs h /\ h_nfs h' = S (h_nfs h) | _ => True end)
      by (destruct e; try (split; [lia|auto]); destruct D; split; auto; lia).
    clear D. destruct D' as [D1 D2].
    split; [intros p y X|intros p y z X Y]; apply pur_snoc in X as [X|X]; try apply pur_snoc in Y as [Y|Y]; eauto.
    + apply H1 in X. lia.
    + destruct e; try contradiction; lia.
    + apply H1 in X. destruct e; try contradiction; lia.
    + apply H1 in Y. destruct e; try contradiction; lia.
    + destruct e; try contradiction; destruct X, Y; congruence.
Qed.
Lemma purpose_inj : forall s p x y, reachable s -> purpose_is (trace s) p x -> purpose_is (trace s) p y -> x = y.
Proof. intros s p x y R. apply (purpose_one s R). Qed.
