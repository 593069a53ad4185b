(** * InvThrow: every exception in flight has a handler below it, and every result an API call to return from. *)
From Verif Require Import Types Core State Ops Code Machine Base Spec SpecKind Rules Events InvCtx InvBound InvStack InvRefs InvCv InvKind Adj InvPack InvFire InvFill InvTab ThmCheck InvReady OwnJob Replay ReplayObj OwnProm.

(** ** Frames an exception may leave, and frames that end in a result *)
Definition tesc (k : task) : bool := match k with TUser _ _ => true | _ => false end.
Definition lkesc (c : lk) : bool := match c with LkWhen _ _ _ _ _ => true | _ => false end.
Definition spesc (k : spk) : bool := match k with SpThen _ _ _ _ _ => true | _ => false end.
Definition pesc (a : pact) : bool := match a with PaWait _ | PaWaitAll => true | _ => false end.
Definition esc (f : frame) : bool :=
  match f with
  | FUStart _ _ _ | FUser _ _ | FThrow _ | FPackVal _ => true
  | FRun k | FDrop k => tesc k
  | FInvoke _ _ c | FPush _ _ c | FLaunch _ _ _ c | FLaunch1 _ _ _ c | FFire1 _ _ c => lkesc c
  | FDisp _ k c => tesc k || lkesc c
  | FProcess | FProc _ | FProcessFor _ | FPf0 _ _ | FPf _ _ _ | FPfNow _ _ | FPoEnd _ => true
  | FWaitUntil _ | FWaitFor _ _ | FWait _ _ | FWait1 _ _ _ | FSleep _ _ _ => true
  | FSleepUntil _ | FSleepFor _ | FSl _ _ | FSlNow _ | FLoop => true
  | FSpawn _ k | FSpReg _ k => spesc k
  | FThJoin _ | FThJoin1 _ | FThDetach _ => true
  | FSem _ _ _ _ | FSemId _ _ _ _ | FSemAdd _ _ _ _ _ | FSemTok _ _ _ _ _ _ _ | FSemExit _ _ _ _ _ _ _ | FSemGo _ _ _ _ _ _
  | FSemRe _ _ _ _ _ _ _ | FSemNow _ _ _ _ _ _ _ | FSemRem _ _ _ _ _ => true
  | FMLock _ | FMTas _ _ | FMOwnQ _ _ | FMUnlock _ | FMUn1 _ _ => true
  | FSet _ _ | FSet1 _ _ | FSetFail _ => true
  | FSt _ _ _ | FStW1 _ _ _ | FStW2 _ _ _ | FStEnd _ _ _ | FWaitList _ => true
  | FGet _ | FGet2 _ | FGet3 _ _ | FPSet _ _ | FPGetF _ | FPGetF1 _ | FHReady _ | FHErr _ | FHWait _ _ => true
  | FThen _ _ _ _ _ _ => true
  | FWhen _ _ | FWId _ _ _ | FWFillAll _ _ _ _ _ | FWEach _ _ _ _ _ | FWThen _ _ _ _ _ _ _ | FWPack _ _ _ _ _ _ | FWAtt _ _ _ _ _ _ _
  | FWProc _ _ _ _ _ | FWFin _ | FWFin1 _ | FWIn _ _ _ _ _ | FWMark _ _ | FWUnl _ _ => true
  | FPApi _ a | FJob _ _ a => pesc a
  | FPWait _ _ | FPWaitAll _ => true
  | _ => false
  end.
Definition lkrs (c : lk) : bool := match c with LkUser | LkHnd _ | LkWhen _ _ _ _ _ => true | _ => false end.
Definition gkrs (g : gk) : bool := match g with GFor | GGet _ => true | _ => false end.
Definition semrs (k : semk) : bool := match k with KCvFor => true | KState _ _ g => gkrs g | _ => false end.
Definition wkrs (k : wk) : bool := match k with WApiFor => true | WSem _ _ _ _ _ k => semrs k | _ => false end.
Definition sprs (k : spk) : bool := match k with SpPool _ _ _ _ => false | _ => true end.
Definition prs (a : pact) : bool := match a with PaSched _ _ _ _ | PaCount => true | _ => false end.
Definition wars (a : wafter) : bool := match a with WaRet => true | _ => false end.
Definition rs (f : frame) : bool :=
  match f with
  | FRes _ | FReg _ | FShut _ | FShut1 _ | FShut2 _ | FShut3 _ _ | FShut4 _ | FCount _ | FCount1 _ => true
  | FGetAll | FMainId | FMyId | FDepth | FIsReg | FExitQ => true
  | FInvoke _ _ c | FPush _ _ c | FDisp _ _ c | FLaunch _ _ _ c | FLaunch1 _ _ _ c | FFire1 _ _ c => lkrs c
  | FWaitUntil _ => true
  | FWaitFor _ k | FWait _ k | FWait1 _ _ k | FSleep _ _ k => wkrs k
  | FSpawn _ k | FSpReg _ k => sprs k
  | FThNew _ _ | FThId _ => true
  | FSem _ _ _ k | FSemId _ _ _ k | FSemAdd _ _ _ _ k | FSemTok _ _ _ _ _ _ k | FSemExit _ _ _ _ _ _ k | FSemGo _ _ _ _ _ k
  | FSemRe _ _ _ _ _ _ k | FSemNow _ _ _ _ _ _ k | FSemRem _ _ _ _ k => semrs k
  | FMTry _ | FMTry1 _ => true
  | FSt _ _ g | FStW1 _ _ g | FStW2 _ _ g | FStEnd _ _ g => gkrs g
  | FGet _ | FGet2 _ | FGet3 _ _ | FPNew _ | FPNew1 _ | FPGetF _ | FPGetF1 _ | FHnd _ _ | FHFrom _ _ => true
  | FHValid _ | FHReady _ | FHReady1 _ | FHErr _ | FHErr1 _ | FHShare _ | FHCopy _ => true
  | FHWait _ d => match d with Some _ => true | None => false end
  | FThen _ _ _ _ _ _ | FThen1 _ _ _ _ _ _ _ | FThen2 _ _ _ | FAsync _ _ _ _ _ | FMkReady _ _ | FMkReady1 _ _ => true
  | FWhen _ _ | FWId _ _ _ | FWFillAll _ _ _ _ _ | FWEach _ _ _ _ _ | FWThen _ _ _ _ _ _ _ | FWPack _ _ _ _ _ _ | FWAtt _ _ _ _ _ _ _
  | FWProc _ _ _ _ _ | FWFin _ | FWFin1 _ | FWRet _ => true
  | FWMark _ a | FWUnl _ a => wars a
  | FPApi _ a | FJob _ _ a => prs a
  | FSched _ _ _ _ _ _ | FSched1 _ _ _ _ _ _ | FSched2 _ _ _ _ _ _ _ | FSched3 _ _ _ _ _ _ _ | FSched4 _ _ _ | FSched5 _ _ _ | FPCount _ => true
  | _ => false
  end.
(** Frames at which an exception stops. *)
Definition stops (f : frame) : bool :=
  match f with FApi _ | FNoexcept | FEnd | FPackGuard _ | FSwallow | FDestroy _ | FNotifyL _ => true | _ => false end.
(** Frames that pass an exception on. *)
Definition passes (f : frame) : bool :=
  match f with
  | FDrop _ | FCheckEnd _ _ _ | FWMark _ _ | FWUnl _ _ | FPUnl _ | FPoEnd _ | FRes _ | FProc _ | FPfNow _ _ | FLoop | FSlNow _
  | FSemRe _ _ _ _ _ _ _ | FUnreg | FPackVal _ => true
  | _ => false
  end.
Definition hd_stops (l : list frame) : Prop := match l with g :: _ => stops g = true | [] => False end.
Definition hd_api (l : list frame) : Prop := match l with FApi _ :: _ => True | _ => False end.
Lemma api_stops : forall l, hd_api l -> hd_stops l.
Proof. intros [|f r]; cbn; auto. destruct f; cbn; auto. Qed.
Definition caught (f : frame) (b : list frame) : Prop := stops f = true \/ passes f = true /\ (esc f = true \/ hd_stops b).
Definition making (s : st) (a f : frame) : Prop :=
  match a, f with
  | FSet p _, FHnd _ (Some q) | FSet1 p _, FHnd _ (Some q) => p = q /\ purpose_is (trace s) p PuReady
  | _, _ => False
  end.
Definition fine (f : frame) : Prop :=
  match f with
  | FDisp _ k c => tesc k = true -> c = LkUser
  | FLaunch _ _ k _ | FLaunch1 _ _ k _ => tesc k = false
  | _ => True
  end.
Definition flow (s : st) (a : option frame) (f : frame) (b : list frame) : Prop :=
  (rs f = true -> hd_api b) /\ (esc f = true -> b <> []) /\ fine f /\
  match a with Some x => esc x = true -> caught f b \/ making s x f | None => True end.
Lemma making_app : forall s s' a f, (exists l, trace s' = trace s ++ l) -> making s a f -> making s' a f.
Proof.
  intros s s' a f [l Et] H. destruct a; try exact H; destruct f; try contradiction; destruct x; try contradiction; destruct H as [H1 H2]; split; auto; rewrite Et; now apply pur_app.
Qed.
Lemma flow_app : forall s s' a f b, (exists l, trace s' = trace s ++ l) -> flow s a f b -> flow s' a f b.
Proof.
  intros s s' a f b Et (H1 & H2 & H3 & H4). repeat split; auto. destruct a; auto. intros E. destruct (H4 E); auto. right. eapply making_app; eauto.
Qed.
Lemma lasto_app : forall l1 l2 a, lasto a (l1 ++ l2) = lasto (lasto a l1) l2.
Proof. induction l1 as [|f l1 IH]; intros l2 a; cbn; auto. Qed.
Theorem flow_reachable : forall s, reachable s -> forall t, adj (flow s) None (stk s t).
Proof.
  apply (adj_rule (fun s t => flow s)).
  - intros s d t a f r R J H. eapply flow_app; [|exact H]. exists [EvTick (Zpos d)]. reflexivity.
  - intros s u t a f r R H. eapply flow_app; [|exact H]. exists []. now rewrite app_nil_r.
  - intros [|t]; cbn; auto. unfold flow; cbn. repeat split; auto; try discriminate. left. left. reflexivity.
  - intros s t pre rest h n u a f r R R' E L J H. eapply flow_app; [|exact H]. exact (lstep_trl _ _ _ _ _ L).
  - intros s t pre rest h n R R' E L Fp. split; [|split].
    3: { destruct (spawned n) as [[c cfs]|] eqn:Sp; auto. destruct (lstep_spawned _ _ _ _ _ _ _ L Sp) as (_ & _ & b & ->).
      destruct b; cbn [tframes adj]; unfold flow, caught; cbn; repeat split; auto; try discriminate; try (intros; left; right; auto; fail); intros; left; left; reflexivity. }
    + pose proof L as L0. assert (Mk : forall a f, making s a f -> making (mkSt h (set_next (stk s) t n rest) None) a f) by (intros a f; apply making_app; exact (lstep_trl _ _ _ _ _ L)).
      assert (Pm : forall p x, purpose_is (trace s) p x -> purpose_is (trace (mkSt h (set_next (stk s) t n rest) None)) p x) by (intros p x Hp; destruct (lstep_trl _ _ _ _ _ L) as [l El]; change (purpose_is (tr_of h) p x); rewrite El; now apply pur_app).
      set (s' := mkSt h (set_next (stk s) t n rest) None) in *. clearbody s'. clear R'.
      lstep_cases L; cbn [next_frames] in *; cbn [adj] in Fp; sh_; try exact Logic.I.
      all: unfold flow, caught in *; cbn [rs esc fine tesc lkesc spesc pesc lkrs gkrs semrs wkrs sprs prs wars stops passes hd_stops hd_api app orb] in *.
      all: try (repeat match goal with H : _ /\ _ |- _ => destruct H end; repeat split; auto; try discriminate; intros; try discriminate; auto; fail).
      all: unfold run_one in *; cbn [lasto destroy esc] in *; cbn [rs esc fine tesc lkesc spesc pesc lkrs gkrs semrs wkrs sprs prs wars stops passes hd_stops hd_api app orb] in *.
      all: try match goal with |- context [tesc ?k] => destruct (tesc k) eqn:Tk; cbn [orb] in * end.
      all: try (repeat match goal with H : _ /\ _ |- _ => destruct H end; repeat split; auto; try discriminate; intros; try discriminate; auto; fail).
      all: try (repeat match goal with H : _ /\ _ |- _ => destruct H end; match goal with H : true = true -> _ = LkUser |- _ => specialize (H eq_refl); try discriminate H; subst; cbn end; repeat split; auto; try discriminate; intros; try discriminate; auto; fail).
      all: repeat match goal with H : _ /\ _ |- _ => destruct H end.
      all: try match goal with |- context [snd ?x] => destruct (snd x) as [tx|]; cbn [lasto esc] end.
      all: try match goal with |- context [destroy ?x] => destruct x; cbn [lasto esc destroy map] end.
      all: try (repeat split; auto; intros; first [discriminate|now destruct k; cbn; auto; try discriminate|auto using api_stops]; fail).
      all: try (match goal with H : true = true -> hd_api ?r |- _ => pose proof (api_stops r (H eq_refl)) end; repeat split; auto; intros; try discriminate; auto; fail).
      all: try (repeat split; auto; intros; try discriminate; auto; intros ->; cbn in *; intuition; try discriminate; fail).
      * repeat split; auto; try discriminate. destruct (lasto None (api_frames c)); auto.
      * destruct (fire_task s t p cb c R) as (q & b & Q); [rewrite E; now left|]. rewrite Q in Tk. discriminate Tk.
      * repeat split; auto; try discriminate. intros _. right. split; auto. apply Pm. destruct (k_inv_reachable s R) as (_ & Kf). specialize (Kf t). rewrite E in Kf. inversion Kf; subst. assumption.
      * exfalso. destruct x as [d y]. cbn [snd] in Heqo. subst y. cbn [atom] in A. destruct (pool_take (h_pools (hp s) pl) lv inp) as [p' r'] eqn:T.
        assert (r' = Some (n, t0)) by (destruct (pool_top _ _ _); destruct r' as [[]|]; try discriminate A; now inversion A). subst r'. destruct (take_closure _ _ _ _ _ _ T) as (y & J & K & _).
        pose proof (tab_inv pl s R) as F. rewrite Forall_forall in F. destruct (F _ J) as (? & ? & ? & ? & _ & _ & [C|(? & ? & C)]); cbn in C; rewrite K in C; rewrite C in Tk; discriminate Tk.
    + pose proof L as L0. assert (Mk : forall a f, making s a f -> making (mkSt h (set_next (stk s) t n rest) None) a f) by (intros a f; apply making_app; exact (lstep_trl _ _ _ _ _ L)).
      destruct rest as [|gg rr]; auto. intros (G1 & G2 & G3 & G4). split; auto. split; auto. split; auto.
      set (s' := mkSt h (set_next (stk s) t n (gg :: rr)) None) in *.
        lstep_cases L; cbn [next_frames lasto adj] in *; auto.
      all: repeat match goal with
        | |- context [lasto _ (_ ++ _)] => rewrite lasto_app
        | |- context [lasto _ (if ?b then _ else _)] => destruct b eqn:?
        | |- context [lasto _ (match ?b with _ => _ end)] => destruct b eqn:?
        | |- context [destroy ?b] => destruct b; cbn [destroy]
        | |- context [lasto _ (wresume ?b _)] => destruct b; cbn [wresume]
        | |- context [lasto _ (gresume ?b _)] => destruct b; cbn [gresume]
        | |- context [lasto _ (semresume ?b ?c)] => destruct b as [| |? [?|] ?|], c; cbn [semresume]
        | |- context [lasto _ (lresume ?b _ _)] => destruct b; cbn [lresume]
        | |- context [lasto _ (wresume_after _ ?b)] => destruct b; cbn [wresume_after]
        | |- context [lasto _ (pact_frames _ _ ?b)] => destruct b; cbn [pact_frames]
        | |- context [lasto _ (spresume _ _ ?b)] => destruct b; cbn [spresume]
        | |- context [lasto _ (ufin_ret ?b _)] => destruct b; cbn [ufin_ret]
        end; cbn [lasto app esc tesc lkesc spesc pesc run_one]; auto.
      all: try (intros Ey; discriminate Ey).
      all: try intros Ey; cbn [esc tesc lkesc spesc pesc orb] in *.
      all: try (destruct (G4 Ey) as [Gc|Gm]; [now left|contradiction]; fail).
      all: try (destruct (G4 eq_refl) as [Gc|Gm]; [now left|contradiction]; fail).
      all: try (destruct Fp as (_ & (_ & _ & _ & Fc) & _); destruct (Fc eq_refl) as [[Fs|(_ & [Fe|Fh])]|[]]; [discriminate Fs| |left; left; exact Fh]; cbn [esc] in Fe; cbn [lasto] in G4; destruct (G4 Fe) as [Gc|Gm]; [now left|contradiction]).
      all: try (destruct Fp as ((_ & _ & F3 & _) & _); cbn [fine] in F3).
      all: try (rewrite Ey in G4; destruct (G4 eq_refl) as [Gc|Gm]; [now left|contradiction]).
      all: try (rewrite ?orb_true_r in G4; destruct (G4 eq_refl) as [Gc|Gm]; [now left|contradiction]).
      all: try (rewrite Ey, ?orb_true_r in G4; destruct (G4 eq_refl) as [Gc|Gm]; [now left|contradiction]).
      * destruct c; cbn [lresume lasto app destroy map]; cbn [esc lkesc] in *; try discriminate. intros _. destruct (G4 eq_refl) as [Gc|Gm]; [now left|contradiction].
      * destruct (G4 eq_refl) as [Gc|Gm]; [now left|]. right. apply (Mk (FSet1 p o) gg). exact Gm.
      * destruct (G4 eq_refl) as [Gc|Gm]; [now left|]. exfalso. destruct gg; try contradiction. destruct x0 as [q|]; [|contradiction]. destruct Gm as [<- Gm].
        eapply (ready_unset s t p (FSet1 p o) R Gm); [rewrite E; now left|reflexivity|]. apply ready_iff; auto. op_unfold A. cbn in A. destruct (fs_ready (h_fsts (hp s) p)); auto. inversion A.
Qed.
