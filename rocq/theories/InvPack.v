(** * InvPack: the result of a packaged function. *)
From Verif Require Import Types Core State Ops Code Machine Base Spec SpecKind SpecOwn SpecPack Rules Events InvCtx InvBound InvStack InvRefs Contract Count Replay ReplayObj InvCv InvKind Adj Own OwnRefs OwnProm OwnDead.

(** Further down the stack there is an owner of [q]. *)
Definition below (q : sid) (b : list frame) : Prop := exists g, In g b /\ frame_has q g = true.
Lemma below_app : forall q a b, below q b -> below q (a ++ b).
Proof. intros q a b (g & J & H). exists g. split; auto. apply in_or_app; auto. Qed.
Lemma below_cons : forall q f b, frame_has q f = true \/ below q b -> below q (f :: b).
Proof. intros q f b [H|(g & J & H)]; [exists f|exists g]; cbn; auto. Qed.
Definition shape (f : frame) (b : list frame) : Prop :=
  match f with
  | FRun k => forall q, has q k = true -> below q b
  | FUStart _ _ (UPack p) | FUser _ (UPack p) => exists r, b = FPackGuard p :: r
  | FPackGuard p => below p b
  | _ => True
  end.
Lemma has_destroy : forall q k r, has q k = true -> below q (destroy [k] ++ r).
Proof. intros q k r H. apply below_cons. left. cbn. now rewrite H. Qed.
Lemma has_lresume : forall q k c ok r, has q k = true -> below q (lresume c ok (Some k) ++ r).
Proof.
  intros q k c ok r H. destruct c; unfold lresume; rewrite <- ?app_assoc; try (now apply has_destroy).
  apply below_cons. left. cbn. rewrite existsb_app. cbn. rewrite H. now rewrite !orb_true_r.
Qed.
Ltac sh_ := repeat match goal with
  | |- adj _ _ (_ ++ _) => apply adj_app; split
  | |- adj _ _ (destroy ?k) => destruct k; cbn [destroy]
  | |- adj _ _ (wresume ?k _) => destruct k; cbn [wresume]
  | |- adj _ _ (gresume ?k _) => destruct k; cbn [gresume]
  | |- adj _ _ (semresume ?k _) => destruct k; cbn [semresume]
  | |- adj _ _ (lresume ?k _ _) => destruct k; cbn [lresume]
  | |- adj _ _ (wresume_after _ ?a) => destruct a; cbn [wresume_after]
  | |- adj _ _ (pact_frames _ _ ?a) => destruct a; cbn [pact_frames]
  | |- adj _ _ (spresume _ _ ?k) => destruct k; cbn [spresume]
  | |- adj _ _ (api_frames ?c) => destruct c; cbn [api_frames]
  | |- adj _ _ (ufin_ret ?f _) => destruct f; cbn [ufin_ret]
  | |- adj _ _ (tframes ?b) => destruct b; cbn [tframes]
  | |- adj _ _ (run_one _ _) => unfold run_one
  | |- adj _ _ (match ?x with _ => _ end) => destruct x eqn:?
  | |- adj _ _ [] => exact Logic.I
  | |- adj _ _ (_ :: _) => split
  | |- shape (FRun _) _ => idtac
  | |- shape _ _ => cbn [shape]; try exact Logic.I
  | |- True => exact Logic.I
  end.
Theorem shape_reachable : forall s, reachable s -> forall t, adj (fun _ => shape) None (stk s t).
Proof.
  apply (adj_rule (fun s t _ => shape)); auto.
  - intros t. cbn. destruct t; cbn; auto.
  - intros s t pre rest h n R R' E L Fp. split; [|split; [destruct rest; auto|]].
    2: { destruct (spawned n) as [[c cfs]|] eqn:Sp; auto. destruct (lstep_spawned _ _ _ _ _ _ _ L Sp) as (_ & _ & b & ->). destruct b; cbn; auto. }
    lstep_cases L; cbn [next_frames] in *; cbn [adj] in Fp; try destruct Fp as [Fp1 Fp2]; sh_.
  all: cbn [shape app] in *; try exact Fp1; eauto.
  all: try (apply Fp1; cbn [has]; rewrite Nat.eqb_refl; reflexivity).
  all: intros q Hq; try (apply has_lresume; exact Hq); try (apply below_cons; left; exact Hq).
  apply (below_app q [_; _]). apply Fp1. cbn [has]. rewrite Hq. apply orb_true_r.
Qed.

Lemma dead_not_below : forall q s t a b, dead q s -> stk s t = a ++ b -> below q b -> False.
Proof. intros q s t a b D E (g & J & H). apply (dead_no_frame q s t g D); auto. rewrite E. apply in_or_app; auto. Qed.

(** A step that begins a packaged function. *)
Lemma begun_step : forall s t pre rest h n p, stk s t = pre ++ rest -> lstep (hp s) t pre h n -> begun p (tr_of h) ->
  begun p (trace s) \/ exists u a, pre = [FUStart u a (UPack p)] /\ n = Go [FUser u (UPack p)].
Proof.
  intros s t pre rest h n p E L (t0 & u0 & a0 & J). unfold tr_of in J. rewrite <- in_rev in J.
  destruct (lstep_tr _ _ _ _ _ L) as [Q|[e Q]]; rewrite Q in J.
  - left. exists t0, u0, a0. unfold trace, tr_of. now rewrite <- in_rev.
  - destruct J as [->|J]; [|left; exists t0, u0, a0; unfold trace, tr_of; now rewrite <- in_rev].
    right. ev_cases L Q. injection Q as -> -> -> Q. destruct fin; [discriminate Q|]. injection Q as ->. eauto.
Qed.
Lemma nfs_mono : forall h t pre h' n, lstep h t pre h' n -> h_nfs h <= h_nfs h'.
Proof. intros h t pre h' n L. lstep_cases L; hs; auto; match goal with A : atom _ _ _ _ = AOk _ _ |- _ => rewrite (atom_nfs _ _ _ _ _ _ _ A) end; auto. Qed.
Lemma purpose_ex : forall s p, reachable s -> p < h_nfs (hp s) -> exists x, purpose_is (trace s) p x.
Proof.
  intros s p R H. apply (nfs_created p s R) in H as [(t & v & u & J)|(tw0 & aw & w & ins & J)]; [exists u; left; eauto|exists (PuWhen w); right; eauto 8].
Qed.
Lemma purpose_back : forall s t pre rest h n p x, reachable s -> reachable (mkSt h (set_next (stk s) t n rest) None) -> lstep (hp s) t pre h n ->
  p < h_nfs (hp s) -> purpose_is (tr_of h) p x -> purpose_is (trace s) p x.
Proof.
  intros s t pre rest h n p x R R' L N H. destruct (purpose_ex s p R N) as [y Y].
  assert (x = y) as ->; auto. apply (purpose_inj _ p x y R' H). apply (lstep_pur _ _ _ _ _ L). exact Y.
Qed.
Lemma unrun_step : forall s t pre rest h n p, reachable s -> stk s t = pre ++ rest -> lstep (hp s) t pre h n ->
  dead p s -> ~ begun p (trace s) -> ~ begun p (tr_of h).
Proof.
  intros s t pre rest h n p R E L D N B. destruct (begun_step s t pre rest h n p E L B) as [X|(u & a & -> & ->)]; auto.
  pose proof (shape_reachable s R t) as Sh. rewrite E in Sh. cbn in Sh. destruct Sh as ((r & ->) & Sh2 & _).
  apply (dead_not_below p s t [FUStart u a (UPack p); FPackGuard p] r); auto.
Qed.
Lemma computed_app : forall p u o tr l, computed p u o tr -> computed p u o (tr ++ l).
Proof. intros p u o tr l (t & r & J & G). exists t, r. split; auto. apply in_or_app; auto. Qed.

Definition about_fun (s : st) (t : tid) (a : option frame) (f : frame) (b : list frame) : Prop :=
  match f with
  | FPackGuard p => p < h_nfs (hp s) /\ forall u, purpose_is (trace s) p (PuFun u) -> is_ready p (trace s) \/
      match a with
      | Some (FUStart _ _ (UPack p')) | Some (FUser _ (UPack p')) => p' = p
      | Some (FThrow e) => computed p u (OExn e) (trace s)
      | Some (FSet p' _) | Some (FSet1 p' _) => p' = p
      | _ => False
      end
  | FSet p o | FSet1 p o => p < h_nfs (hp s) /\ forall u, purpose_is (trace s) p (PuFun u) -> is_ready p (trace s) \/
      (computed p u o (trace s) /\ below p b) \/ (o = OExn XBroken /\ dead p s)
  | _ => True
  end.
Lemma about_step : forall s t pre rest h n u a f r, reachable s -> reachable (mkSt h (set_next (stk s) t n rest) None) -> stk s t = pre ++ rest -> lstep (hp s) t pre h n ->
     about_fun s u a f r -> about_fun (mkSt h (set_next (stk s) t n rest) None) u a f r.
Proof.
  intros s t pre rest h n u a f r R R' E L H. set (s' := mkSt h (set_next (stk s) t n rest) None) in *.
  destruct (lstep_tr' _ _ _ _ _ L) as [l Et]. assert (Et' : trace s' = trace s ++ l) by exact Et.
  assert (Nm : h_nfs (hp s) <= h_nfs h) by (eapply nfs_mono; eauto).
  assert (Pb : forall p x, p < h_nfs (hp s) -> purpose_is (trace s') p x -> purpose_is (trace s) p x) by (intros p x; eapply purpose_back; eauto).
  assert (Rd : forall p, is_ready p (trace s) -> is_ready p (trace s')) by (intros p; rewrite Et'; apply ready_app).
  assert (Cm : forall p u o, computed p u o (trace s) -> computed p u o (trace s')) by (intros p v o; rewrite Et'; apply computed_app).
  assert (Dd : forall p, p < h_nfs (hp s) -> dead p s -> dead p s') by (intros p Hp D; exact (dead_step p s t pre rest h n R E L Hp D)).
  destruct f; cbn [about_fun] in *; auto; destruct H as [Hp H]; (split; [cbn [hp s']; lia|]); intros v Hv; apply Pb in Hv; auto; specialize (H v Hv).
  - destruct H as [H|H]; auto. right. destruct a as [[]|]; auto.
  - destruct H as [H|[[H1 H2]|(H1 & H2)]]; auto 6.
  - destruct H as [H|[[H1 H2]|(H1 & H2)]]; auto 6.
Qed.
Lemma dtor_dead : forall s t p rest h n, reachable s -> stk s t = FPromDtor p :: rest -> lstep (hp s) t [FPromDtor p] h n ->
  dead p (mkSt h (set_next (stk s) t n rest) None).
Proof.
  intros s t p rest h n R E L. destruct (own_le1 s p R) as [B1 U].
  destruct (lstep_total (one p) (one p) (one p) zero (fun _ => Z.le_refl _) s t [FPromDtor p] rest h n R E L) as (d & B2 & T & _ & G). specialize (G (fun p => eq_refl)).
  cbn [gain] in G. rewrite one_same in G. exists (B1 + B2). intros B HB. pose proof (own_nn p B (mkSt h (set_next (stk s) t n rest) None)) as P.
  specialize (U B ltac:(lia)). rewrite T in * by lia. lia.
Qed.
Lemma about_tick : forall s d t a f r, reachable s -> about_fun s t a f r -> about_fun (mkSt (emit (put_now (hp s) (h_now (hp s) + Zpos d)) (EvTick (Zpos d))) (stk s) None) t a f r.
Proof.
  intros s d t a f r R H. set (s' := mkSt _ _ _). assert (Et : trace s' = trace s ++ [EvTick (Zpos d)]) by reflexivity.
  assert (Pb : forall p x, purpose_is (trace s') p x -> purpose_is (trace s) p x).
  { rewrite Et. intros p x [(t0 & v & J)|(tw0 & aw & w & ins & J & ->)]; apply in_app_or in J as [J|[J|[]]]; try discriminate J; [left|right]; eauto 8. }
  assert (Rd : forall p, is_ready p (trace s) -> is_ready p (trace s')) by (intros p; rewrite Et; apply ready_app).
  assert (Cm : forall p u o, computed p u o (trace s) -> computed p u o (trace s')) by (intros p v o; rewrite Et; apply computed_app).
  assert (Dd : forall p, dead p s -> dead p s') by (intros p D; exact D).
  destruct f; cbn [about_fun] in *; auto; destruct H as [Hp H]; (split; [exact Hp|]); intros v Hv; apply Pb in Hv; auto; specialize (H v Hv).
  - destruct H as [H|H]; auto. right. destruct a as [[]|]; auto.
  - destruct H as [H|[[H1 H2]|(H1 & H2)]]; auto 6.
  - destruct H as [H|[[H1 H2]|(H1 & H2)]]; auto 6.
Qed.
Lemma w_set_prom : forall h t T (o : op T) inp h' x, atom h t o inp = AOk h' x ->
  match o in op T0 return T0 -> Prop with
  | OWAll w _ _ _ | OWAny w _ _ _ | OWFinal w => fun x => match x with Some (p, _) => p = w_prom (h_wcs h w) | None => True end
  | _ => fun _ => True
  end x.
Proof.
  intros h t T o inp h' x A. destruct o; auto; cbn [atom] in A.
  - revert A. unfold wall_step. destruct (_ =? _); cbn; intros A; injection A as <- <-; exact Logic.I || reflexivity.
  - revert A. unfold wany_step. destruct (w_ready _); [|destruct (_ && _)]; cbn; intros A; injection A as <- <-; exact Logic.I || reflexivity.
  - revert A. unfold wany_final. destruct (_ && _); cbn; intros A; injection A as <- <-; exact Logic.I || reflexivity.
Qed.
Theorem about_reachable : forall s, reachable s -> forall t, adj (about_fun s t) None (stk s t).
Proof.
  apply (adj_rule about_fun).
  - intros. now apply about_tick.
  - auto.
  - intros t. cbn. destruct t; cbn; auto.
  - intros. eapply about_step; eauto.
  - intros s t pre rest h n R R' E L Fp. set (s' := mkSt h (set_next (stk s) t n rest) None) in *.
    assert (Nm : forall f, In f (next_frames n) -> fb (bof h) f).
    { intros f J. destruct (b_inv_reachable s' R') as (_ & _ & F). specialize (F t). eapply Forall_forall in F; [exact F|]. cbn [stk s']. rewrite next_own. apply in_or_app; auto. }
    pose proof (b_inv_reachable s R) as (_ & _ & Fb). specialize (Fb t). rewrite E in Fb. apply Forall_app in Fb as [Fb _].
    destruct (k_inv_reachable s R) as (K & Kf). specialize (Kf t). rewrite E in Kf. apply Forall_app in Kf as [Kf _].
    pose proof (shape_reachable s R t) as Sh. rewrite E in Sh. apply adj_app in Sh as [Sh ShR].
    assert (Ot : forall p x u, purpose_is (trace s') p (PuFun u) -> purpose_is (trace s) p x -> x = PuFun u).
    { intros p x u Hu Hx. apply (purpose_inj s' p _ _ R'); auto. exact (lstep_pur _ _ _ _ _ L p x Hx). }
    destruct (lstep_tr' _ _ _ _ _ L) as [l Et]. assert (Et' : trace s' = trace s ++ l) by exact Et.
    assert (Nw : forall w, In (FWFin1 w) pre \/ (exists a i par q, In (FWIn a w i par q) pre) -> w < h_nw (hp s)).
    { intros w [J|(a & i & par & q & J)]; eapply Forall_forall in Fb; try exact J; cbn in Fb; try apply Fb. }
    split; [|split].
    + pose proof L as L0. lstep_cases L; cbn [next_frames] in *; cbn [adj] in Fp, Sh; try destruct Fp as [Fp1 Fp2]; try destruct Sh as [Sh1 Sh2]; inversion Kf as [|? ? Kf1 Kf2]; subst; inversion Fb as [|? ? Fb1 Fb2]; subst; clear Kf Fb Kf2 Fb2.
      all: repeat match goal with
  | |- adj _ _ (_ ++ _) => apply adj_app; split
  | |- adj _ _ (destroy ?k) => destruct k; cbn [destroy]
  | |- adj _ _ (wresume ?k _) => destruct k; cbn [wresume]
  | |- adj _ _ (gresume ?k _) => destruct k; cbn [gresume]
  | |- adj _ _ (semresume ?k _) => destruct k; cbn [semresume]
  | |- adj _ _ (lresume ?k _ _) => destruct k; cbn [lresume]
  | |- adj _ _ (wresume_after _ ?a) => destruct a; cbn [wresume_after]
  | |- adj _ _ (pact_frames _ _ ?a) => destruct a; cbn [pact_frames]
  | |- adj _ _ (spresume _ _ ?k) => destruct k; cbn [spresume]
  | |- adj _ _ (api_frames ?c) => destruct c; cbn [api_frames]
  | |- adj _ _ (ufin_ret ?f _) => destruct f; cbn [ufin_ret]
  | |- adj _ _ (tframes ?b) => destruct b; cbn [tframes]
  | |- adj _ _ (run_one _ _) => unfold run_one
  | |- adj _ _ (match ?x with _ => _ end) => destruct x eqn:?
  | |- adj _ _ [] => exact Logic.I
  | |- adj _ _ (_ :: _) => split
  | |- about_fun _ _ _ (FSet _ _) _ => idtac
  | |- about_fun _ _ _ (FSet1 _ _) _ => idtac
  | |- about_fun _ _ _ (FPackGuard _) _ => idtac
  | |- about_fun _ _ _ _ _ => exact Logic.I
  | |- True => exact Logic.I
  end.
      all: (split; [first [exact (Nm _ (or_introl eq_refl))|exact (Nm _ (or_intror (or_introl eq_refl)))|exact (Nm _ (or_intror (or_intror (or_introl eq_refl))))]|]).
      all: cbn [app] in *; intros v0 Hv; cbn [fk tk bpur] in Kf1; cbn [fb] in Fb1.
      all: try (let Hx := fresh in assert (Hx := Ot _ _ _ Hv ltac:(eassumption || apply Kf1)); try discriminate Hx; injection Hx as Hx; subst).
      all: try match goal with A : atom _ _ (OWAll _ _ _ _) _ = _ |- _ => apply w_set_prom in A as W | A : atom _ _ (OWAny _ _ _ _) _ = _ |- _ => apply w_set_prom in A as W | A : atom _ _ (OWFinal _) _ = _ |- _ => apply w_set_prom in A as W end; try (cbn in W; subst;
         match type of Hv with context [h_wcs _ ?w0] => discriminate (Ot _ _ _ Hv (hk_w _ _ K w0 ltac:(eauto 8 using in_eq))) end).
      * right. left. split.
        -- exists t, (RVal v). split; [|reflexivity]. unfold trace, tr_of. cbn [hp s']. hs. cbn [rev]. apply in_or_app. right. now left.
        -- destruct Sh1 as [r ->]. cbn in ShR. apply (below_app p [_]). apply ShR.
      * auto.
      * auto.
      * right. right. split; auto. exact (dtor_dead s t p rest _ _ R E L0).
      * pose proof (about_step s t [FSet p o] rest _ _ t None (FSet p o) rest R R' E L0 Fp1) as [_ X]. exact (X v0 Hv).
      * apply (hk_prm) with (n := pr) in K. assert (Q : h_prms (hp s) pr = Some s0) by (cbn [atom] in A; now injection A as _ ->).
        rewrite Q in K. discriminate (Ot _ _ _ Hv K).
      * destruct Kf1 as (aw & idx & pw & Kf1). discriminate (Ot _ _ _ Hv Kf1).
      * pose proof (about_step s t [FThrow e; FPackGuard p] rest _ _ t _ _ rest R R' E L0 (proj1 Fp2)) as [_ X]. destruct (X v0 Hv) as [X1|X1]; auto.
        right. left. split; auto. apply (below_app p [_]). exact (proj1 Sh2).
    + destruct rest as [|g r]; auto. intros Hg. pose proof (about_step s t pre (g :: r) h n t _ g r R R' E L Hg) as Hg'. fold s' in Hg'. clear Hg.
      destruct g; auto. destruct Hg' as [Hn Hg']. split; auto. intros v0 Hv. specialize (Hg' v0 Hv). destruct Hg' as [Hg'|Hg']; auto.
      assert (Rd : forall q, fs_ready (h_fsts h q) = true -> is_ready q (trace s')) by (intros q; apply (ready_iff s' q R')).
      pose proof L as L0. lstep_cases L; cbn [next_frames lasto] in *; try contradiction Hg'.
      * right. assert (Q : forall a l, lasto a (l ++ [FApi c; FUser u fin]) = Some (FUser u fin)) by (intros a l0; revert a; induction l0; intros; cbn; auto).
        rewrite Q. exact Hg'.
      * right. destruct fin; [contradiction|]. exact Hg'.
      * right. destruct fin; [contradiction|]. subst. exists t, (RExn e). split; [|reflexivity].
        assert (u = v0) as ->. { inversion Kf as [|? ? Kf1 ?]; subst. pose proof (Ot _ _ _ Hv Kf1) as X. now injection X. }
        unfold trace, tr_of. cbn [hp s']. hs. cbn [rev]. apply in_or_app. right. now left.
      * auto.
      * auto.
      * left. subst p0. apply Rd. cbn [atom] in A. destruct (fs_ready (h_fsts (hp s) p)) eqn:Er; [injection A as <- <-; auto|]. unfold fs_set in A. injection A as <- <-. hs. rewrite upd_same. now destruct o.

    + destruct (spawned n) as [[c cfs]|] eqn:Sp; auto. destruct (lstep_spawned _ _ _ _ _ _ _ L Sp) as (_ & _ & b & ->). destruct b; cbn; auto.
Qed.

(** ** A function that has begun has its result on the way *)
Definition pending_at (p : sid) (s : st) : Prop :=
  exists t a f b, stk s t = a ++ f :: b /\ below p b /\ match f with FPackGuard q | FSet q _ | FSet1 q _ => q = p | _ => False end.
Lemma begun_bound : forall s, reachable s -> forall p, begun p (trace s) -> p < h_nfs (hp s).
Proof.
  apply (reachable_ind'' (fun s => forall p, begun p (trace s) -> p < h_nfs (hp s))).
  - intros p (t & u0 & a & []).
  - intros s s' R R' IH U Tr p Hb. destruct Tr as [d|t pre rest ub E L|t pre rest h n E L].
    + change (begun p (trace s ++ [EvTick (Zpos d)])) in Hb. apply IH. destruct Hb as (t0 & u0 & a & J). apply in_app_or in J as [J|[J|[]]]; try discriminate J. exists t0, u0, a; auto.
    + auto.
    + cbn [hp]. pose proof (nfs_mono _ _ _ _ _ L). destruct (begun_step s t pre rest h n p E L Hb) as [B|(u0 & a0 & -> & ->)]; [specialize (IH p B); lia|].
      pose proof (b_inv_reachable s R) as (_ & _ & Fb). specialize (Fb t). rewrite E in Fb. inversion Fb as [|? ? F1 F2]; subst. cbn in F1. lia.
Qed.
Theorem begun_pending : forall s, reachable s -> forall p u, purpose_is (trace s) p (PuFun u) -> begun p (trace s) ->
  is_ready p (trace s) \/ pending_at p s.
Proof.
  apply (reachable_ind'' (fun s => forall p u, purpose_is (trace s) p (PuFun u) -> begun p (trace s) -> is_ready p (trace s) \/ pending_at p s)).
  - intros p u _ (t & u0 & a & []).
  - intros s s' R R' IH U Tr p w0 Hu Hb. destruct Tr as [d|t pre rest ub E L|t pre rest h n E L].
    + assert (Et : trace (mkSt (emit (put_now (hp s) (h_now (hp s) + Zpos d)) (EvTick (Zpos d))) (stk s) None) = trace s ++ [EvTick (Zpos d)]) by reflexivity.
      rewrite Et in *.
      assert (Hu' : purpose_is (trace s) p (PuFun w0)).
      { destruct Hu as [(t0 & v & J)|(tw0 & aw & w & ins & J & X)]; [|discriminate X]. apply in_app_or in J as [J|[J|[]]]; try discriminate J. left; eauto. }
      assert (Hb' : begun p (trace s)).
      { destruct Hb as (t0 & u0 & a & J). apply in_app_or in J as [J|[J|[]]]; try discriminate J. exists t0, u0, a; auto. }
      destruct (IH p w0 Hu' Hb') as [X|X]; auto using ready_app.
    + destruct (IH p w0 Hu Hb); auto.
    + set (s' := mkSt h (set_next (stk s) t n rest) None) in *.
      destruct (lstep_tr' _ _ _ _ _ L) as [l Et]. assert (Et' : trace s' = trace s ++ l) by exact Et.
      destruct (begun_step s t pre rest h n p E L Hb) as [B|(u0 & a0 & -> & ->)].
      * assert (Hp : p < h_nfs (hp s)).
        { now apply begun_bound. }
        assert (Hu' : purpose_is (trace s) p (PuFun w0)) by (eapply purpose_back; eauto).
        destruct (IH p w0 Hu' B) as [X|(t1 & a & f0 & b & Ev & Hbl & Hf)]; [rewrite Et'; auto using ready_app|].
        assert (Rd : forall q, fs_ready (h_fsts h q) = true -> is_ready q (trace s')) by (intros q; apply (ready_iff s' q R')).
        destruct (Nat.eq_dec t1 t) as [->|Nt1].
        2: { right. exists t1, a, f0, b. split; auto. cbn [stk s']. rewrite <- Ev. destruct n as [fs|c cfs fs]; cbn [set_next]; rewrite upd_other by auto; auto.
             destruct (lstep_spawned _ _ _ _ _ _ _ L eq_refl) as (F & _ & _). destruct (Nat.eq_dec t1 c) as [->|Nc]; [|now rewrite upd_other].
             rewrite (fresh_empty s c R F) in Ev. destruct a; discriminate Ev. }
        assert (Keep : forall l, rest = l ++ f0 :: b -> is_ready p (trace s') \/ pending_at p s').
        { intros l0 ->. right. exists t, (next_frames n ++ l0), f0, b. split; auto. cbn [stk s']. rewrite next_own. apply app_assoc. }
        pose proof Ev as Q. rewrite E in Q. symmetry in Q. apply app_eq_app in Q as [l0 [[_ Q]|[Q1 Q2]]]; [now apply (Keep l0)|].
        destruct l0 as [|f1 l0]; [now apply (Keep [])|]. injection Q2 as <- ->.
        pose proof (about_reachable s R t) as Ab. rewrite Ev in Ab. apply adj_in with (a := a) (f := f0) (b := l0 ++ rest) in Ab; auto.
        assert (Pre1 : forall g, pre = [g] -> a = [] /\ f0 = g /\ l0 = []).
        { intros g ->. destruct a as [|x1 a]; [injection Q1 as -> ->; auto|]. injection Q1 as _ Q1. destruct a; discriminate Q1. }
        assert (Pre2 : forall g1 g, pre = [g1; g] -> (a = [g1] /\ f0 = g /\ l0 = []) \/ f0 = g1).
        { intros g1 g ->. destruct a as [|x1 a]; [injection Q1 as -> _; auto|]. injection Q1 as -> Q1. left. destruct a as [|x2 a]; [injection Q1 as -> ->; auto|]. injection Q1 as _ Q1. destruct a; discriminate Q1. }
        clear Q1. lstep_cases L; first [destruct (Pre1 _ eq_refl) as (-> & -> & ->)|destruct (Pre2 _ _ eq_refl) as [(-> & -> & ->)| ->]]; try contradiction Hf; cbn [app lasto] in *.
        -- destruct Ab as [_ Ab]. destruct Hf. destruct (Ab w0 Hu') as [X|[]]. left. rewrite Et'. auto using ready_app.
        -- right. exists t, [], (FSet1 p0 o), rest. split; auto. cbn [stk s']. now rewrite next_own.
        -- left. subst p0. apply Rd. cbn [atom] in A. destruct (fs_ready (h_fsts (hp s) p)) eqn:Er; [injection A as <- <-; auto|]. unfold fs_set in A. injection A as <- <-. hs. rewrite upd_same. now destruct o.
        -- right. exists t, [], (FSet p0 (OExn e)), (FSwallow :: rest). split; [cbn [stk s']; now rewrite next_own|]. split; auto. now apply (below_app p [_]).
      * right. exists t, [FUser u0 (UPack p)]. pose proof (shape_reachable s R t) as Sh. rewrite E in Sh. cbn in Sh. destruct Sh as ((r & ->) & Sh2 & _).
        exists (FPackGuard p), r. split; [|auto]. cbn [stk s']. rewrite next_own. reflexivity.
Qed.

(** ** The outcome *)
Definition out_inv (s : st) : Prop := forall t p o tr1 tr2, trace s = tr1 ++ EvReady t p o :: tr2 ->
  p < h_nfs (hp s) /\ forall u, purpose_is (trace s) p (PuFun u) -> computed p u o tr1 \/ (o = OExn XBroken /\ dead p s /\ ~ begun p (trace s)).
Lemma last_split : forall A (l l1 l2 : list A) x e, l ++ [e] = l1 ++ x :: l2 -> (l2 = [] /\ l1 = l /\ x = e) \/ exists l3, l2 = l3 ++ [e] /\ l = l1 ++ x :: l3.
Proof.
  intros A l l1 l2 x e H. destruct l2 as [|y l2] using rev_ind; [left; apply app_inj_tail in H as [-> ->]; auto|right]. clear IHl2.
  rewrite app_comm_cons, app_assoc in H. apply app_inj_tail in H as [-> ->]. eauto.
Qed.
Theorem out_reachable : forall s, reachable s -> out_inv s.
Proof.
  apply (reachable_ind'' out_inv).
  - intros t p o tr1 tr2 H. destruct tr1; discriminate H.
  - intros s s' R R' IH U Tr t0 p o tr1 tr2 H. destruct Tr as [d|t pre rest ub E L|t pre rest h n E L].
    + change (trace s ++ [EvTick (Zpos d)] = tr1 ++ EvReady t0 p o :: tr2) in H.
      apply last_split in H as [(_ & _ & H)|(l3 & -> & H)]; [discriminate H|].
      destruct (IH _ _ _ _ _ H) as [Hn X]. split; [exact Hn|]. intros v Hv. change (purpose_is (trace s ++ [EvTick (Zpos d)]) p (PuFun v)) in Hv.
      change (computed p v o tr1 \/ o = OExn XBroken /\ dead p s /\ ~ begun p (trace s ++ [EvTick (Zpos d)])).
      destruct (X v) as [X1|(X1 & X2 & X3)]; auto.
      * destruct Hv as [(t1 & b & J)|(tw0 & aw & w & ins & J & Q)]; [|discriminate Q]. apply in_app_or in J as [J|[J|[]]]; try discriminate J. left; eauto.
      * right. repeat split; auto. intros (t1 & u1 & a & J). apply in_app_or in J as [J|[J|[]]]; try discriminate J. apply X3. exists t1, u1, a; auto.
    + exact (IH _ _ _ _ _ H).
    + set (s' := mkSt h (set_next (stk s) t n rest) None) in *. pose proof (nfs_mono _ _ _ _ _ L) as Nm.
      assert (Old : forall tr3, trace s = tr1 ++ EvReady t0 p o :: tr3 -> p < h_nfs (hp s') /\ forall u, purpose_is (trace s') p (PuFun u) -> computed p u o tr1 \/ (o = OExn XBroken /\ dead p s' /\ ~ begun p (trace s'))).
      { intros tr3 H'. destruct (IH _ _ _ _ _ H') as [Hn X]. split; [cbn [hp s']; lia|]. intros v Hv. destruct (X v) as [X1|(X1 & X2 & X3)]; auto.
        - eapply purpose_back; eauto.
        - right. repeat split; auto. + exact (dead_step p s t pre rest h n R E L Hn X2). + exact (unrun_step s t pre rest h n p R E L X2 X3). }
      destruct (lstep_tr _ _ _ _ _ L) as [Q|[e Q]]; unfold trace, tr_of in H; cbn [hp s'] in H; rewrite Q in H; [exact (Old _ H)|].
      cbn [rev] in H. apply last_split in H as [(_ & Hl & He)|(l3 & -> & H)]; [|exact (Old _ H)]. subst e.
      assert (F : t0 = t /\ pre = [FSet1 p o] /\ fs_ready (h_fsts (hp s) p) = false).
      { ev_cases L Q. cbn [atom] in A. destruct (fs_ready (h_fsts (hp s) p0)) eqn:Er.
        - injection A as <- <-. discriminate Q.
        - unfold fs_set in A. injection A as <- <-. injection Q as -> -> ->. auto. }
      destruct F as (-> & -> & Nr). pose proof (about_reachable s R t) as Ab. rewrite E in Ab. cbn [adj app] in Ab. destruct Ab as [[Hn Ab] _].
      split; [cbn [hp s']; lia|]. intros v Hv. assert (Hv' : purpose_is (trace s) p (PuFun v)) by (eapply purpose_back; eauto).
      assert (Nr' : ~ is_ready p (trace s)) by (intros X; apply (ready_iff s p R) in X; congruence).
      destruct (Ab v Hv') as [X|[[X _]|(X1 & X2)]]; [contradiction|subst tr1; auto|right]. split; auto. split; [exact (dead_step p s t _ rest h n R E L Hn X2)|].
      apply (unrun_step s t [FSet1 p o] rest h n p R E L X2). intros B. destruct (begun_pending s R p v Hv' B) as [X|(t1 & a & f0 & b & E1 & Hb & _)]; [contradiction|].
      apply (dead_not_below p s t1 (a ++ [f0]) b X2); auto. rewrite E1, <- app_assoc. reflexivity.
Qed.
