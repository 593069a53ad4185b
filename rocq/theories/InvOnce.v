(** * InvOnce: when_any sets its result once; setting it never fails. *)
From Verif Require Import Types Core State Ops Code Machine Base Spec SpecKind SpecOwn SpecWhen SpecFire Rules Events Calls InvCtx InvBound InvStack InvRefs Contract Count Replay ReplayObj InvCv InvKind Adj Own OwnRefs OwnProm OwnRun OwnDead OwnTask InvLock InvPack InvFire InvWhen InvFill InvHook InvComb InvBroken InvArmed ThmWhen InvThrow ApiSet.

(** ** Who sets the result *)
Definition sets_of (s : st) (t : tid) (f : frame) (b : list frame) : Prop :=
  match f with
  | FPackGuard p => exists x, purpose_is (trace s) p x /\ not_when x = true
  | FSet p o | FSet1 p o => p < h_nfs (hp s) /\ forall w ins, combines (trace s) false w p ins -> (exists a r, b = FWMark w a :: r) \/ dead p s
  | _ => True
  end.
Lemma sets_of_step : forall s t pre rest h n u f b, reachable s -> stk s t = pre ++ rest -> lstep (hp s) t pre h n -> sets_of s u f b -> sets_of (mkSt h (set_next (stk s) t n rest) None) u f b.
Proof.
  intros s t pre rest h n u f b R E L H. destruct (lstep_trl _ _ _ _ _ L) as [l Et]. pose proof (nfs_mono _ _ _ _ _ L). set (s' := mkSt h (set_next (stk s) t n rest) None) in *.
  assert (Et' : trace s' = trace s ++ l) by exact Et.
  assert (Dd : forall p, p < h_nfs (hp s) -> dead p s -> dead p s') by (intros p Hp D; exact (dead_step p s t pre rest h n R E L Hp D)).
  destruct f; cbn [sets_of] in *; auto.
  1: { destruct H as (x & H & N). exists x. split; auto. rewrite Et'. now apply pur_app. }
  all: destruct H as [P H]; (split; [cbn [hp s']; lia|]); intros w ins C; apply (combines_back _ _ _ _ _ _ _ _ _ L P) in C.
  all: destruct (H _ _ C) as [H1|H1]; auto.
Qed.
Theorem sets_of_reachable : forall s, reachable s -> forall t, adj (fun _ f b => sets_of s t f b) None (stk s t).
Proof.
  apply (adj_rule (fun s t _ f b => sets_of s t f b)).
  - intros s d t a f r R J H. set (s' := mkSt _ _ _).
    assert (Et : trace s' = trace s ++ [EvTick (Zpos d)]) by reflexivity.
    assert (Cb : forall w p ins, combines (trace s') false w p ins -> combines (trace s) false w p ins).
    { rewrite Et. intros w p ins [t1 X]. exists t1. apply in_app_or in X as [X|[X|[]]]; [exact X|discriminate X]. }
    destruct f; cbn [sets_of] in *; auto.
    1: { destruct H as (x & H & N). exists x. split; auto. rewrite Et. now apply pur_app. }
    all: destruct H as [P H]; (split; [exact P|]); intros w ins C; exact (H _ _ (Cb _ _ _ C)).
  - auto.
  - intros t. cbn. destruct t; cbn; auto.
  - intros. eapply sets_of_step; eauto.
  - intros s t pre rest h n R R' E L Fp. split; [|split].
    2: { destruct rest as [|g r]; auto. intros Hg. eapply sets_of_step; eauto. }
    2: { destruct (spawned n) as [[c cfs]|] eqn:Sp; auto. destruct (lstep_spawned _ _ _ _ _ _ _ L Sp) as (_ & _ & b & ->). destruct b; cbn; auto. }
    cbn [hp] in *.
    destruct (k_inv_reachable s R) as (K & Kf). specialize (Kf t). rewrite E in Kf. apply Forall_app in Kf as [Kf _].
    pose proof (b_inv_reachable s R) as (_ & _ & Fb). specialize (Fb t). rewrite E in Fb. apply Forall_app in Fb as [Fb _].
    assert (Nm : forall f, In f (next_frames n) -> fb (bof h) f).
    { intros f J. destruct (b_inv_reachable _ R') as (_ & _ & F). specialize (F t). eapply Forall_forall in F; [exact F|]. cbn [stk]. rewrite next_own. apply in_or_app; auto. }
    pose proof L as L0. destruct (lstep_trl _ _ _ _ _ L) as [l Et].
    assert (Ns : forall p x b, purpose_is (trace s) p x -> not_when x = true -> forall w ins, combines (tr_of h) false w p ins -> (exists a r, b = FWMark w a :: r) \/ dead p (mkSt h (set_next (stk s) t n rest) None)).
    { intros p x o P N w ins C. exfalso. apply combines_purpose in C. assert (P' : purpose_is (tr_of h) p x) by (rewrite Et; now apply pur_app).
      rewrite (purpose_inj _ p _ _ R' P' C) in N. discriminate N. }
    lstep_cases L; cbn [next_frames] in *; cbn [adj] in Fp; inversion Kf as [|? ? Kf1 Kf2]; subst; inversion Fb as [|? ? Fb1 Fb2]; subst; clear Kf Fb; sh_; try exact Logic.I; cbn [sets_of]; unfold trace; cbn [hp]; try match goal with |- context [rev (h_tr ?z)] => change (rev (h_tr z)) with (tr_of z) end.
    all: try (split; [first [exact (Nm _ (or_introl eq_refl))|exact (Nm _ (or_intror (or_introl eq_refl)))]|]).
    all: cbn [fk tk] in Kf1; cbn [fb] in Fb1.
    all: try (eapply Ns; [eassumption || apply Kf1|reflexivity]; fail).
    all: try (eexists; split; [rewrite Et; apply pur_app; apply Kf1|reflexivity]; fail).
    all: try match goal with A : atom _ _ (OWAll _ _ _ _) _ = _ |- _ => apply w_set_prom in A as W | A : atom _ _ (OWAny _ _ _ _) _ = _ |- _ => apply w_set_prom in A as W | A : atom _ _ (OWFinal _) _ = _ |- _ => apply w_set_prom in A as W end.
    all: try (cbn in W; intros w1 ins1 C; match type of W with _ = w_prom (h_wcs _ ?w0) => assert (W0 : w0 < h_nw (hp s)) by apply Fb1; pose proof (hk_w _ _ K w0 W0) as Pw end;
      rewrite <- W in Pw; assert (Pl : s0 < h_nfs (hp s)) by exact (proj1 (purpose_one s R) _ _ Pw);
      apply (combines_back _ _ _ _ _ _ _ _ _ L0 Pl) in C; pose proof (purpose_inj _ _ _ _ R (combines_purpose _ _ _ _ _ C) Pw) as Q; injection Q as ->;
      assert (C1 : comb (hp s) false w ins1) by (exists s0; exact C)).
    all: try (left; eexists; eexists; reflexivity).
    + intros w ins _. right. eapply dtor_dead; eauto.
    + pose proof (sets_of_step _ _ _ _ _ _ _ _ _ R E L0 (proj1 Fp)) as X. apply X.
    + apply (hk_prm) with (n := pr) in K. assert (Q : h_prms (hp s) pr = Some s0) by (cbn [atom] in A; now injection A as _ ->). rewrite Q in K. eapply Ns; [exact K|reflexivity].
    + exfalso. destruct (hook_kind s t true w idx par q false ins1 R) as [X _]; [rewrite E; left; reflexivity|exact C1|]. discriminate X.
    + destruct Kf1 as (aw & idx & pw & Kf1). eapply Ns; [exact Kf1|reflexivity].
    + destruct Fp as (_ & (xp & P & N) & _). eapply Ns; [exact P|exact N].
Qed.

(** ** One step of an invariant about neighbours *)
Lemma adj_step : forall (P P' : tid -> option frame -> frame -> list frame -> Prop) s t pre rest h n,
  stk s t = pre ++ rest -> lstep (hp s) t pre h n ->
  (forall u a f r, (u <> t /\ In f (stk s u)) \/ (u = t /\ exists g r0, rest = g :: r0 /\ In f r0) -> P u a f r -> P' u a f r) ->
  (adj (fun a f r => P' t a f (r ++ rest)) None (next_frames n) /\
   match rest with [] => True | g :: r => P t (lasto None pre) g r -> P' t (lasto None (next_frames n)) g r end /\
   match spawned n with Some (c, cfs) => adj (P' c) None cfs | None => True end) ->
  (forall u, adj (P u) None (stk s u)) -> forall u, adj (P' u) None (stk (mkSt h (set_next (stk s) t n rest) None) u).
Proof.
  intros P P' s t pre rest h n E L Hst (N1 & N2 & N3) IH.
  pose proof (IH t) as I. rewrite E in I. apply adj_app in I as [I1 I2].
  assert (Ot : forall v, v <> t -> adj (P' v) None (stk s v)).
  { intros v Nv. eapply adj_impl; [|apply IH]. intros b f r J. apply Hst. auto. }
  assert (Own : adj (P' t) None (next_frames n ++ rest)).
  { apply adj_app. split; auto. destruct rest as [|g r]; cbn; auto. destruct I2 as [J1 J2]. split; auto.
    eapply adj_impl; [|exact J2]. intros b f r0 Jn. apply Hst. right. split; auto. eauto. }
  intros v. cbn [stk]. destruct n as [fs|c cfs fs]; unfold set_next.
  - destruct (Nat.eq_dec v t) as [->|Nv]; [rewrite upd_same; exact Own|rewrite upd_other by auto; auto].
  - destruct (Nat.eq_dec v t) as [->|Nv]; [rewrite upd_same; exact Own|rewrite upd_other by auto].
    destruct (Nat.eq_dec v c) as [->|Nc]; [rewrite upd_same; exact N3|rewrite upd_other by auto; auto].
Qed.

(** ** The block that sets the result *)
Definition marking (s : st) (w : nat) : Prop := exists t a, In (FWMark w a) (stk s t).
(** The result is set only through the flag or by the destructor of the promise. *)
Definition set_why (s : st) (w : nat) : Prop := is_ready (w_prom (h_wcs (hp s) w)) (trace s) ->
  w_set (h_wcs (hp s) w) = true \/ marking s w \/ dead (w_prom (h_wcs (hp s) w)) s.
Definition settled (s : st) (p : sid) (g : frame) : Prop := match g with FSet q _ | FSet1 q _ => q = p /\ ~ is_ready p (trace s) | _ => False end.
Definition calm (s : st) (w : nat) (a : option frame) : Prop :=
  match a with
  | None => True
  | Some g => settled s (w_prom (h_wcs (hp s) w)) g \/ shield g = true \/ fires_for (w_prom (h_wcs (hp s) w)) g
  end.
Definition block (s : st) (t : tid) (a : option frame) (f : frame) (b : list frame) : Prop :=
  match f with FWMark w _ => (exists ins, comb (hp s) false w ins) -> calm s w a | _ => True end.

Definition locked_by (w : nat) (f : frame) : bool := match f with FWMark w' _ | FWFin1 w' | FWIn _ w' _ _ _ => w' =? w | _ => false end.
(** At most one frame is inside the block. *)
Lemma one_block : forall s t a f b u g w, reachable s -> stk s t = a ++ f :: b -> locked_by w f = true -> locked_by w g = true ->
  (u <> t /\ In g (stk s u)) \/ (u = t /\ In g b) -> False.
Proof.
  intros s t a f b u g w R E F G J.
  pose proof (hold_reachable (LWhen w) eq_refl s R t) as H1. pose proof (hold_reachable (LWhen w) eq_refl s R u) as H2.
  assert (W : forall f, locked_by w f = true -> hw (LWhen w) f = 1%Z).
  { intros x X. destruct x; try discriminate X; cbn in X; apply Nat.eqb_eq in X; subst; unfold hw, holds; cbn; now rewrite Nat.eqb_refl. }
  assert (P : forall l, (0 <= sumf (hw (LWhen w)) l)%Z) by (intros l; apply sumf_nonneg; intros x; unfold hw; destruct (holds _ x); lia).
  assert (I : forall l x, In x l -> locked_by w x = true -> (1 <= sumf (hw (LWhen w)) l)%Z).
  { intros l x Jx X. rewrite <- (W x X). apply sumf_in; auto. intros y. unfold hw. destruct (holds _ y); lia. }
  rewrite E, sumf_app in H1. cbn [sumf] in H1. rewrite (W f F) in H1. pose proof (P a). pose proof (P b). unfold is_holder in *.
  destruct J as [[Ne J]|[-> J]].
  - pose proof (I _ _ J G). destruct (lock_holder (LWhen w) (trace s)) as [v|]; [|lia].
    destruct (Nat.eqb_spec v t); [|lia]. destruct (Nat.eqb_spec v u); [congruence|lia].
  - pose proof (I _ _ J G). destruct (lock_holder (LWhen w) (trace s)) as [v|]; [|lia]. destruct (v =? t); lia.
Qed.
(** The combinator lives while the block runs. *)
Lemma block_alive : forall s t f w, reachable s -> In f (stk s t) -> locked_by w f = true -> ~ dead (w_prom (h_wcs (hp s) w)) s.
Proof.
  intros s t f w R J F D. assert (Z0 : w_refs (h_wcs (hp s) w) = 0) by (eapply dead_wctx; eauto).
  assert (Cb : forall b, cbelow w b -> (forall g, In g b -> In g (stk s t)) -> False).
  { intros b (g & Jg & G) In_. apply (wrefs_frame s t g w R); auto. }
  pose proof J as J0. apply in_split in J as (x & y & E). pose proof (adj_in _ _ _ _ _ _ (cshape_reachable s R t) E) as Cs.
  assert (Iy : forall g, In g y -> In g (stk s t)) by (intros g Jg; rewrite E; apply in_or_app; right; now right).
  destruct f; try discriminate F; cbn in F; apply Nat.eqb_eq in F; subst; cbn [cshape] in Cs.
  - apply (wrefs_frame s t (FWFin1 w) w R J0); auto. cbn [fw]. rewrite one_same. lia.
  - eauto.
  - destruct a; [|eauto]. apply (wrefs_frame s t (FWMark w WaRet) w R J0); auto. cbn [fw]. rewrite one_same. lia.
Qed.
Lemma ready_new : forall s t pre rest h n p, reachable s -> stk s t = pre ++ rest -> lstep (hp s) t pre h n ->
  is_ready p (tr_of h) -> ~ is_ready p (trace s) -> exists o, pre = [FSet1 p o].
Proof.
  intros s t pre rest h n p R E L Rd N. destruct (lstep_tr _ _ _ _ _ L) as [Et|[e Et]].
  - exfalso. apply N. unfold trace, tr_of in *. now rewrite Et in Rd.
  - unfold tr_of in Rd. rewrite Et in Rd. cbn [rev] in Rd. change (rev (h_tr (hp s))) with (trace s) in Rd.
    assert (X : exists u1 o, e = EvReady u1 p o).
    { unfold is_ready, outcome_of in *. rewrite latest_snoc in Rd. destruct e; try contradiction. destruct (Nat.eqb_spec p0 p); [subst; eauto|contradiction]. }
    destruct X as (u1 & o1 & ->). ev_cases L Et. destruct x as [cbs|]; [|discriminate Et]. injection Et as <- <- <-. eauto.
Qed.
Lemma wset_mono : forall h t pre h' n w, lstep h t pre h' n -> w < h_nw h -> w_set (h_wcs h w) = true -> w_set (h_wcs h' w) = true.
Proof.
  intros h t pre h' n w L W S. destruct (lstep_weq _ _ _ _ _ w L W) as [[(_ & _ & _ & X & _) _]|(f & -> & T)]; [congruence|].
  pose proof (touch_effect _ _ _ _ _ _ L T) as Ef. destruct f; cbn [touches] in T; try contradiction T; cbn [effect] in Ef.
  all: try (destruct Ef as (q9 & Ef & _); rewrite Ef; cbn; auto; fail).
  all: destruct Ef as (Ef & _); rewrite Ef; cbn [w_then w_process w_mark w_set]; auto.
  - unfold wany_final. destruct (_ && _); auto.
  - destruct all; [unfold wall_step; cbn zeta; destruct (_ =? _); auto|]. unfold wany_step. destruct (w_ready _); auto. destruct (_ && _); auto.
Qed.
(** What replaces a frame directly above the block. *)
Lemma calm_next : forall s t pre x rest h n w, reachable s -> stk s t = pre ++ rest -> lstep (hp s) t pre h n -> lasto None pre = Some x -> calm s w (Some x) ->
  w < h_nw (hp s) -> calm (mkSt h (set_next (stk s) t n rest) None) w (lasto None (next_frames n)).
Proof.
  intros s t pre x rest h n w R E L La C W. set (s' := mkSt h (set_next (stk s) t n rest) None) in *.
  assert (Pw : w_prom (h_wcs (hp s') w) = w_prom (h_wcs (hp s) w)) by exact (prom_same _ _ _ _ _ _ L W).
  assert (Sh : forall fs, shielded fs -> calm s' w (lasto None fs)).
  { intros fs H. destruct fs as [|f fs _] using rev_ind; [exact Logic.I|]. unfold shielded in H. rewrite hd_of_app in H by discriminate. cbn in H.
    rewrite lasto_app. cbn [lasto calm]. auto. }
  assert (Fi : forall fs f, fires_for (w_prom (h_wcs (hp s) w)) f -> calm s' w (lasto None (fs ++ [f]))).
  { intros fs f H. rewrite lasto_app. cbn [lasto calm]. rewrite Pw. auto. }
  destruct L as [c u fin|v u fin|e u fin|inp f h n Ru|inp e g h n Ru|x9 c9]; cbn [lasto] in La; injection La as <-; cbn [calm] in C.
  all: try (exfalso; destruct C as [C|[C|C]]; [contradiction C|discriminate C|contradiction C]).
  - assert (L : lstep (hp s) t [f] h n) by (econstructor; eauto). destruct C as [C|[C|C]].
    + destruct f; try contradiction C; cbn [settled] in C; destruct C as [-> N].
      * assert (N' : ~ is_ready (w_prom (h_wcs (hp s) w)) (trace s')) by (intros Rd; destruct (ready_new s t _ rest h n _ R E L Rd N) as [o9 X]; discriminate X).
        code_cases Ru. cbn [next_frames lasto calm settled]. rewrite Pw. auto.
      * assert (Q : fs_ready (h_fsts (hp s) (w_prom (h_wcs (hp s) w))) = false).
        { destruct (fs_ready (h_fsts (hp s) (w_prom (h_wcs (hp s) w)))) eqn:Q; auto. apply (ready_iff s _ R) in Q. contradiction. }
        code_cases Ru; cbn [next_frames]; cbn [atom] in A; rewrite Q in A. destruct (fs_set _ _) as [f9 cbs9] in A. destruct x as [cbs|]; [|discriminate A].
        apply (Fi [_]). cbn. reflexivity.
    + apply Sh. eapply shield_step; eauto.
    + destruct (fires_last _ _ _ _ _ _ _ C Ru) as [(y & g & -> & F)|(lft & -> & ->)]; [now apply Fi|]. apply Sh. destruct lft; [exact Logic.I|reflexivity].
  - exfalso. destruct C as [C|[C|C]]; destruct g; try discriminate C; try contradiction C; code_cases Ru; cbn [atom] in A; discriminate A.
Qed.
Theorem once_reachable : forall s, reachable s ->
  (forall w ins, comb (hp s) false w ins -> set_why s w) /\ forall t, adj (block s t) None (stk s t).
Proof.
  apply (reachable_ind'' (fun s => (forall w ins, comb (hp s) false w ins -> set_why s w) /\ forall t, adj (block s t) None (stk s t))).
  - split; [intros w ins (p & t & [])|]. intros t. cbn. destruct t; cbn; auto.
  - intros s s' R R' [IA IB] U Tr. destruct Tr as [d|t pre rest u E L|t pre rest h n E L].
    + set (s' := mkSt _ _ _) in *. assert (Rd : forall p, is_ready p (trace s') -> is_ready p (trace s)).
      { intros p H. change (is_ready p (trace s ++ [EvTick (Zpos d)])) in H. unfold is_ready, outcome_of in *. now rewrite latest_snoc in H. }
      split.
      * intros w ins C H. apply tick_comb in C. exact (IA w ins C (Rd _ H)).
      * intros t. eapply adj_impl; [|apply IB]. intros a f r J H. destruct f; auto. cbn [block] in *. intros [ins C]. apply tick_comb in C. specialize (H (ex_intro _ ins C)).
        destruct a as [g|]; auto. destruct H as [H|H]; [left|right; exact H]. destruct g; try contradiction H; destruct H as [H1 H2]; split; auto.
    + split; [exact IA|exact IB].
    + set (s' := mkSt h (set_next (stk s) t n rest) None) in *. split.
      * intros w ins C H.
        destruct (comb_back _ _ _ _ _ _ _ _ _ R E L C) as [C0|(kd & hs & -> & -> & _)].
        2: { exfalso. apply (ready_iff s' _ R') in H. cbn [hp s'] in H. remember [FWhen kd hs] as pre eqn:Ep. lstep_cases L; try discriminate Ep. injection Ep as <- <-.
          all: cbn [atom] in A; try (injection A as <- <-; pose proof (comb_lt s _ _ _ R C); lia).
          all: match type of A with context [all_some ?x] => destruct (all_some x) in A; [|discriminate A] end; injection A as <- <-; hs.
          all: rewrite upd_same in H; cbn [w_prom] in H; rewrite upd_same in H; discriminate H. }
        pose proof (comb_lt _ _ _ _ R C0) as W. pose proof (prom_same _ _ _ _ _ _ L W) as Pw. cbn [hp s'] in *. rewrite Pw in *.
        assert (Pl : w_prom (h_wcs (hp s) w) < h_nfs (hp s)).
        { destruct C0 as (p0 & t0 & J0). pose proof (when_heap_reachable s R) as [_ Wh]. destruct (Wh _ _ _ _ _ J0) as (_ & _ & ->).
          apply (proj1 (purpose_one s R) _ (PuWhen w)). right. eauto 6. }
        assert (Dd : dead (w_prom (h_wcs (hp s) w)) s -> dead (w_prom (h_wcs (hp s) w)) s') by (intros D; exact (dead_step _ s t pre rest h n R E L Pl D)).
        assert (Keep : forall t1 a, In (FWMark w a) (if t1 =? t then rest else stk s t1) -> marking s' w).
        { intros t1 a J. exists t1, a. cbn [stk s']. destruct (Nat.eqb_spec t1 t) as [->|Nt]; [rewrite next_own; apply in_or_app; auto|].
          unfold set_next. destruct n as [fs|c cfs fs]; rewrite upd_other by auto; auto.
          destruct (Nat.eq_dec t1 c) as [->|Nc]; [|rewrite upd_other by auto; auto]. exfalso. destruct (lstep_spawned _ _ _ _ _ _ _ L eq_refl) as (Fr & _). rewrite (fresh_empty s c R Fr) in J. exact J. }
        assert (Rc : is_ready (w_prom (h_wcs (hp s) w)) (trace s) \/ exists o, pre = [FSet1 (w_prom (h_wcs (hp s) w)) o]).
        { destruct (fs_ready (h_fsts (hp s) (w_prom (h_wcs (hp s) w)))) eqn:Q; [left; now apply (ready_iff s _ R)|]. right. apply (ready_new s t pre rest h n _ R E L H).
          intros X. apply (ready_iff s _ R) in X. congruence. }
        destruct Rc as [Rd|[o ->]].
        -- destruct (IA w ins C0 Rd) as [S|[(t1 & a & J)|D]]; [left; exact (wset_mono _ _ _ _ _ _ L W S)| |auto].
           destruct (Nat.eq_dec t1 t) as [->|Nt]; [|right; left; apply (Keep t1 a); destruct (Nat.eqb_spec t1 t); [contradiction|exact J]].
           rewrite E in J. apply in_app_or in J as [J|J]; [|right; left; apply (Keep t a); now rewrite Nat.eqb_refl].
           left. assert (S2 : pre = [FWMark w a] \/ exists e, pre = [FThrow e; FWMark w a]).
           { clear -J L. lstep_cases L; cbn [In] in J; repeat destruct J as [J|J]; try discriminate J; try contradiction J; injection J as <- <-; eauto. }
           destruct S2 as [->|(e & ->)].
           ++ pose proof (touch_effect _ _ _ _ _ w L eq_refl) as [Ef _]. rewrite Ef. reflexivity.
           ++ exfalso. specialize (IB t). rewrite E in IB. cbn [app adj block] in IB. destruct IB as (_ & IB & _). specialize (IB (ex_intro _ ins C0)). destruct IB as [X|[X|X]]; [contradiction X|discriminate X|contradiction X].
        -- pose proof (sets_of_reachable s R t) as F. rewrite E in F. cbn [app adj sets_of] in F. destruct F as [[_ F] _].
           destruct C0 as (p0 & C0). assert (p0 = w_prom (h_wcs (hp s) w)) as -> by (destruct C0 as [t0 J0]; apply (when_heap_reachable s R) in J0 as (_ & _ & ->); reflexivity).
           destruct (F _ _ C0) as [(a & r & ->)|D]; [|auto]. right. left. apply (Keep t a). rewrite Nat.eqb_refl. now left.
      * apply (adj_step (block s) (block s') s t pre rest h n E L); [| |exact IB].
        -- (* other frames *)
           intros u a f r J H. destruct f; try exact Logic.I. cbn [block] in *. intros [ins C].
           assert (Jw : In (FWMark w a0) (stk s u)).
           { destruct J as [[_ J]|(-> & g & r0 & -> & J)]; auto. rewrite E. apply in_or_app. right. now right. }
           assert (W : w < h_nw (hp s)). { apply in_split in Jw as (x & y & Es). pose proof (adj_in _ _ _ _ _ _ (mark_reachable s R u) Es) as [W _]. exact W. }
           destruct (comb_back _ _ _ _ _ _ _ _ _ R E L C) as [C0|(kd & hs & _ & -> & _)]; [|lia]. specialize (H (ex_intro _ ins C0)).
           pose proof (prom_same _ _ _ _ _ _ L W) as Pw. unfold calm in *. destruct a as [g|]; auto. cbn [hp s'] in *. rewrite Pw. destruct H as [H|H]; [left|right; exact H].
           assert (Go_ : forall p, p = w_prom (h_wcs (hp s) w) /\ ~ is_ready p (trace s) -> p = w_prom (h_wcs (hp s) w) /\ ~ is_ready p (trace s')).
           { intros p [Ep N]. split; auto. intros Rd. destruct (ready_new s t pre rest h n p R E L Rd N) as [o ->].
             pose proof (sets_of_reachable s R t) as F. rewrite E in F. cbn [app adj sets_of] in F. destruct F as [[_ F] _].
             destruct C0 as (p0 & C0). assert (p0 = p) as -> by (destruct C0 as [t0 J0]; apply (when_heap_reachable s R) in J0 as (_ & _ & <-); congruence).
             destruct (F _ _ C0) as [(a1 & r1 & ->)|D].
             - apply (one_block s t [FSet1 p o] (FWMark w a1) r1 u (FWMark w a0) w R E); [apply Nat.eqb_refl|apply Nat.eqb_refl|].
               destruct J as [J|(-> & g9 & r0 & Er & J)]; [now left|right]. injection Er as _ ->. auto.
             - subst p. apply (block_alive s u (FWMark w a0) w R Jw); [apply Nat.eqb_refl|exact D]. }
           destruct g; try contradiction H; cbn [settled] in *; destruct H as [-> H]; apply Go_; auto.
        -- split; [|split].
           ++ (* the block is entered *)
              assert (En : forall w f, pre = [f] -> locked_by w f = true -> (forall o, f <> FSet1 (w_prom (h_wcs (hp s) w)) o) -> w < h_nw (hp s) -> (exists ins, comb h false w ins) -> w_set (h_wcs (hp s) w) = false ->
                ~ marking s w -> ~ is_ready (w_prom (h_wcs (hp s) w)) (trace s')).
              { intros w f -> Lf Nf W [ins C] S Nm Rd. destruct (comb_back _ _ _ _ _ _ _ _ _ R E L C) as [C0|(kd & hs & _ & -> & _)]; [|lia].
                destruct (fs_ready (h_fsts (hp s) (w_prom (h_wcs (hp s) w)))) eqn:Q.
                - apply (ready_iff s _ R) in Q. destruct (IA w ins C0 Q) as [X|[X|X]]; [congruence|contradiction|].
                  apply (block_alive s t f w R); auto. rewrite E. now left.
                - destruct (ready_new s t [f] rest h n _ R E L Rd) as [o X]; [intros X; apply (ready_iff s _ R) in X; congruence|]. injection X as X. now apply (Nf o). }
              assert (Nm : forall w f, pre = [f] -> (forall w a, f <> FWMark w a) -> locked_by w f = true -> ~ marking s w).
              { intros w f -> Nf Lf (t1 & a & J). destruct (Nat.eq_dec t1 t) as [->|Nt].
                - rewrite E in J. destruct J as [J|J]; [now apply (Nf w a)|]. apply (one_block s t [] f rest t (FWMark w a) w R E Lf); [apply Nat.eqb_refl|auto].
                - apply (one_block s t [] f rest t1 (FWMark w a) w R E Lf); [apply Nat.eqb_refl|auto]. }
              pose proof (b_inv_reachable s R) as (_ & _ & Fb). specialize (Fb t). rewrite E in Fb. apply Forall_app in Fb as [Fb _].
              pose proof L as L0. lstep_cases L; cbn [next_frames] in *; sh_; try exact Logic.I; cbn [block].
              all: inversion Fb as [|? ? Fb1 _]; subst; cbn [fb] in Fb1.
              all: match goal with |- context [h_wcs _ ?w] => assert (W : w < h_nw (hp s)) by apply Fb1 | |- context [comb _ _ ?w] => assert (W : w < h_nw (hp s)) by apply Fb1 end.
              all: intros [ins C]; pose proof A as A0; apply w_set_prom in A as W1; cbn in W1.
              all: assert (Sw : w_set (h_wcs (hp s) w) = false) by (clear -A0; cbn [atom] in A0; unfold wany_final, wany_step in A0;
                destruct (w_ready _) in A0; cbn [andb] in A0; try discriminate A0; destruct (w_set _); auto; try rewrite andb_false_r in A0; discriminate A0).
              all: left; cbn [settled hp s']; rewrite (prom_same _ _ _ _ _ _ L0 W); split; [exact W1|].
              all: eapply (En w); [reflexivity|apply Nat.eqb_refl|intros; discriminate|exact W|eauto|exact Sw|].
              all: eapply (Nm w); [reflexivity|intros; discriminate|apply Nat.eqb_refl].
           ++ destruct rest as [|g r]; auto. intros H. destruct g; auto. cbn [block] in *. intros [ins C].
              assert (W : w < h_nw (hp s)). { pose proof (adj_in _ _ _ _ _ _ (mark_reachable s R t) E) as [W _]. exact W. }
              destruct (comb_back _ _ _ _ _ _ _ _ _ R E L C) as [C0|(kd & hs & _ & -> & _)]; [|lia]. specialize (H (ex_intro _ ins C0)).
              destruct (lasto None pre) as [x|] eqn:La; [|destruct L; discriminate La].
              exact (calm_next s t pre x _ h n w R E L La H W).
           ++ destruct (spawned n) as [[c cfs]|] eqn:Sp; auto. destruct (lstep_spawned _ _ _ _ _ _ _ L Sp) as (_ & _ & b & ->). destruct b; cbn; auto.
Qed.
(** The block never throws. *)
Corollary mark_no_throw : forall s t e w a b, reachable s -> (exists ins, comb (hp s) false w ins) -> stk s t = FThrow e :: FWMark w a :: b -> False.
Proof.
  intros s t e w a b R C E. pose proof (proj2 (once_reachable s R) t) as H. rewrite E in H. cbn [adj block] in H. destruct H as (_ & H & _).
  destruct (H C) as [X|[X|X]]; [contradiction X|discriminate X|contradiction X].
Qed.
