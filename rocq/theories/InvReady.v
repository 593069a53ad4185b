(** * InvReady: the state of a ready future is completed by the call that creates it. *)
From Verif Require Import Types Core State Ops Code Machine Base Spec SpecKind SpecFire Rules Events Calls InvCtx InvBound InvStack Contract Count Replay ReplayObj InvCv InvKind Adj Own OwnRefs InvLock InvPack InvFire InvWhen InvFill InvRefs.

Definition not_ready (x : purpose) : Prop := match x with PuReady => False | _ => True end.
Definition nr (tr : list event) (p : sid) : Prop := exists x, purpose_is tr p x /\ not_ready x.
Lemma nr_app : forall tr l p, nr tr p -> nr (tr ++ l) p.
Proof. intros tr l p (x & H & N). exists x. split; auto. now apply pur_app. Qed.
Definition dnr (tr : list event) (d : ditem) : Prop := match d with DProm p => nr tr p | _ => True end.
Definition fnr (tr : list event) (f : frame) : Prop :=
  match f with
  | FPromDtor p | FPackGuard p => nr tr p
  | FDestroy l => Forall (dnr tr) l
  | _ => True
  end.
Lemma fnr_app : forall tr l f, fnr tr f -> fnr (tr ++ l) f.
Proof.
  intros tr l f H. destruct f; cbn in *; auto using nr_app. eapply Forall_impl; [|exact H]. intros [] X; cbn in *; auto using nr_app.
Qed.
Lemma nr_pack : forall R k p, tk (purpose_is R) k -> match k with TPack q _ => q = p | _ => False end -> nr R p.
Proof. intros R k p H E. destruct k; try contradiction. subst. destruct H as [H _]. exists (bpur b). split; auto. destruct b; exact Logic.I. Qed.
Lemma fnr_destroy : forall tr ks, Forall (fnr tr) (destroy ks).
Proof.
  intros tr ks. destruct ks; [constructor|]. constructor; [|constructor]. unfold fnr. apply Forall_forall. intros d J. apply in_map_iff in J as (k & <- & _). exact Logic.I.
Qed.
Theorem nr_reachable : forall s, reachable s -> forall t, Forall (fnr (trace s)) (stk s t).
Proof.
  apply (frame_rule reachable (fun h t f => fnr (tr_of h) f)); auto; try exact Logic.I.
  - intros s d u f R J H. change (tr_of (emit (put_now (hp s) (h_now (hp s) + Zpos d)) (EvTick (Zpos d)))) with (tr_of (hp s) ++ [EvTick (Zpos d)]). now apply fnr_app.
  - intros s t pre rest h n u f R _ E L _ _ H. destruct (lstep_trl _ _ _ _ _ L) as [l ->]. now apply fnr_app.
  - intros s t pre rest h n R E L Fp Fr. split.
    2: { destruct (spawned n) as [[c cfs]|] eqn:Sp; auto. destruct (lstep_spawned _ _ _ _ _ _ _ L Sp) as (_ & _ & b & ->). destruct b; repeat constructor. }
    destruct (k_inv_reachable s R) as (K & Kf). specialize (Kf t). rewrite E in Kf. apply Forall_app in Kf as [Kf _].
    pose proof (b_inv_reachable s R) as (_ & _ & Fb). specialize (Fb t). rewrite E in Fb. apply Forall_app in Fb as [Fb _].
    destruct (lstep_trl _ _ _ _ _ L) as [l Et].
    lstep_cases L; cbn [next_frames] in *; inversion Kf as [|? ? Kf1 Kf2]; subst; inversion Fb as [|? ? Fb1 Fb2]; subst; inversion Fp as [|? ? Fp1 Fp2]; subst; clear Kf Fb Fp; fl_; auto using fnr_destroy; try exact Logic.I; try (repeat (constructor; try exact Logic.I); fail).
    all: try (unfold fnr; apply Forall_forall; intros d J; apply in_map_iff in J as (y & <- & _); exact Logic.I).
    all: rewrite Et; apply fnr_app; cbn [fnr fk] in *.
    all: try (eapply nr_pack; [exact Kf1|reflexivity]; fail).
    all: try (inversion Fp1; subst; try (apply Forall_app; split); auto; repeat constructor; try exact Logic.I; try (apply Forall_forall; intros d J; apply in_map_iff in J as (y & <- & _); exact Logic.I); fail).
    + inversion Fp1; subst. inversion Kf1; subst. constructor; [exact Logic.I|]. constructor; auto. eapply nr_pack; [eassumption|reflexivity].
    + cbn [atom] in A. injection A as _ Q. pose proof (hk_prm _ _ K pr) as P. rewrite Q in P. exists PuPromise. split; [exact P|exact Logic.I].
    + cbn [atom] in A. injection A as _ Q. pose proof (hk_prm _ _ K pr) as P. rewrite Q in P. exists PuPromise. split; [exact P|exact Logic.I].
    + exists (PuWhen w). split; [|exact Logic.I]. cbn [atom] in A. injection A as _ Q. destruct (_ =? 1) in Q; [|discriminate Q]. injection Q as <-. exact (hk_w _ _ K w Fb1).
Qed.

(** ** The state of a ready future is satisfied once, by its maker *)
Definition rw (p : sid) (f : frame) : Z := match f with FMkReady1 q _ | FSet q _ | FSet1 q _ => one p q | _ => 0%Z end.
Definition rd (p : sid) (e : event) : Z := match e with EvState _ q _ PuReady => one p q | EvReady _ q _ => (- one p q)%Z | _ => 0%Z end.
Lemma rw_destroy : forall i ks, sumf (rw i) (destroy ks) = 0%Z.
Proof. destruct ks; reflexivity. Qed.
Lemma rw_lresume : forall i c ok b, sumf (rw i) (lresume c ok b) = 0%Z.
Proof. intros i [] ok []; reflexivity. Qed.
Lemma rw_wresume : forall i k b, sumf (rw i) (wresume k b) = 0%Z.
Proof. intros i [] b; reflexivity. Qed.
Definition only_ready (p : sid) (tr : list event) : Prop := forall x, purpose_is tr p x -> x = PuReady.
Lemma only_back : forall p a b, only_ready p (a ++ b) -> only_ready p a.
Proof. intros p a b H x P. apply H. now apply pur_app. Qed.
Lemma rw_step : forall p s t pre rest h n, reachable s -> stk s t = pre ++ rest -> lstep (hp s) t pre h n ->
  only_ready p (tr_of h) -> (sumf (rw p) (next_frames n) <= sumf (rw p) pre + sumf (rd p) (new_acts t (hp s) h))%Z.
Proof.
  intros p s t pre rest h n R E L P. pose proof (one_nonneg p) as Op.
  destruct (k_inv_reachable s R) as (K & Kf). specialize (Kf t). rewrite E in Kf. apply Forall_app in Kf as [Kf _].
  pose proof (nr_reachable s R t) as Nr. rewrite E in Nr. apply Forall_app in Nr as [Nr _].
  pose proof (b_inv_reachable s R) as (_ & _ & Fb). specialize (Fb t). rewrite E in Fb. apply Forall_app in Fb as [Fb _].
  destruct (lstep_trl _ _ _ _ _ L) as [l Et].
  assert (No : forall q x, purpose_is (trace s) q x -> not_ready x -> one p q = 0%Z).
  { intros q x H N. apply one_other. intros ->. rewrite Et in P. apply only_back in P. rewrite (P _ H) in N. exact N. }
  lstep_cases L; cbn [next_frames] in *; inversion Kf as [|? ? Kf1 Kf2]; subst; inversion Fb as [|? ? Fb1 Fb2]; subst; inversion Nr as [|? ? Fp1 Fp2]; subst; clear Kf Fb Nr;
    try (rewrite (new_acts_op _ _ _ _ _ _ _ A); cbn [op_event]);
    try (erewrite (new_acts_one t (hp s)) by reflexivity); unfold by_thread; cbn [actor]; rewrite ?Nat.eqb_refl; cbn [sumf rd rw app];
    try exact (Z.le_refl _);
    try (repeat match goal with |- context [match ?x with _ => _ end] => 
      lazymatch x with context [match _ with _ => _ end] => fail | _ => destruct x end end; exact (Z.le_refl _)).
  all: repeat match goal with |- context [match ?x with _ => _ end] =>
      lazymatch x with context [match _ with _ => _ end] => fail | actor _ => fail | _ =>
        destruct x eqn:?; cbn [actor fst snd]; rewrite ?Nat.eqb_refl end end;
    unfold run_one; cbn [app]; rewrite ?sumf_app, ?rw_destroy, ?rw_lresume, ?rw_wresume; cbn [sumf rd rw]; rewrite ?rw_lresume, ?rw_wresume; try lia.
  all: try match goal with |- context [one _ ?q] => specialize (Op q) end; try lia.
  all: try match goal with |- context [api_frames ?c] => destruct c; cbn; lia end.
  all: try match goal with |- context [ufin_ret ?c _] => destruct c; cbn; try lia end.
  all: try match goal with |- context [semresume ?c ?b] => destruct c as [| |? [?|] ?|], b; cbn; lia end.
  all: try match goal with |- context [spresume _ _ ?c] => destruct c; cbn; lia end.
  all: try match goal with |- context [gresume ?c _] => destruct c; cbn; lia end.
  all: try match goal with |- context [pact_frames _ _ ?c] => destruct c; cbn; lia end.
  all: cbn [fk] in Kf1; cbn [fnr] in Fp1.
  all: try match goal with |- context [wresume_after _ ?c] => destruct c; cbn; try lia end.
  all: try (rewrite (No _ _ Kf1 Logic.I); lia).
  all: try (destruct Fp1 as (y & Py & Ny); rewrite (No _ _ Py Ny); lia).
  all: try (cbn [atom] in A; injection A as _ Q; pose proof (hk_prm _ _ K pr) as Pr; rewrite Q in Pr; rewrite (No _ _ Pr Logic.I); lia).
  all: try match goal with A : atom _ _ (OWAll _ _ _ _) _ = _ |- _ => apply w_set_prom in A as W | A : atom _ _ (OWAny _ _ _ _) _ = _ |- _ => apply w_set_prom in A as W | A : atom _ _ (OWFinal _) _ = _ |- _ => apply w_set_prom in A as W end.
  all: try (cbn in W; match type of W with _ = w_prom (h_wcs _ ?w0) => assert (W0 : w0 < h_nw (hp s)) by apply Fb1; pose proof (hk_w _ _ K w0 W0) as Pw end; rewrite <- W in Pw; rewrite (No _ _ Pw Logic.I); lia).
  - destruct Kf1 as (a & idx & p0 & Kf1). rewrite (No _ _ Kf1 Logic.I). lia.
  - inversion Fp2; subst. match goal with H : fnr _ (FPackGuard _) |- _ => destruct H as (y & Py & Ny) end. rewrite (No _ _ Py Ny). lia.
Qed.
Theorem rw_le : forall p s, reachable s -> only_ready p (trace s) -> forall t, (sumf (rw p) (stk s t) <= balance (rd p) t (trace s))%Z.
Proof.
  intros p. apply (reachable_ind'' (fun s => only_ready p (trace s) -> forall t, (sumf (rw p) (stk s t) <= balance (rd p) t (trace s))%Z)).
  - intros _ t. destruct t; cbn; lia.
  - intros s s' R R' IH U Tr G t. destruct Tr as [d0|t' pre rest u E L|t' pre rest h n E L]; cbn [stk]; auto.
    { assert (G' : only_ready p (trace s)) by (change (trace (mkSt _ _ _)) with (trace s ++ [EvTick (Zpos d0)]) in G; now apply only_back in G).
      specialize (IH G' t). unfold balance in *. change (trace (mkSt _ _ _)) with (trace s ++ [EvTick (Zpos d0)]). rewrite filter_app. cbn. now rewrite app_nil_r. }
    destruct (lstep_trace _ _ _ _ _ L) as (es & Et & En & _).
    change (trace _) with (tr_of h) in G. pose proof (rw_step p s t' pre rest h n R E L G) as HS. rewrite Et in G. apply only_back in G. change (only_ready p (trace s)) in G.
    change (trace _) with (tr_of h). rewrite Et.
    assert (B : balance (rd p) t (tr_of (hp s) ++ es) = (balance (rd p) t (trace s) + sumf (rd p) (filter (by_thread t) es))%Z).
    { unfold balance. change (tr_of (hp s)) with (trace s). now rewrite filter_app, sumf_app. }
    rewrite B. clear B. pose proof (IH G t) as It. pose proof (IH G t') as It'.
    assert (O : t <> t' -> filter (by_thread t) es = []).
    { intros N. destruct (lstep_tr _ _ _ _ _ L) as [X|[e X]].
      - assert (es = []) by (unfold tr_of in Et; rewrite X in Et; rewrite <- (app_nil_r (rev _)) in Et at 1; now apply app_inv_head in Et). now subst.
      - assert (es = [e]) by (unfold tr_of in Et; rewrite X in Et; cbn in Et; now apply app_inv_head in Et). subst. cbn.
        destruct (lstep_actor _ _ _ _ _ _ L X) as [A|A]; unfold by_thread; rewrite A; auto. destruct (Nat.eqb_spec t' t); congruence. }
    assert (M : (sumf (rw p) (next_frames n ++ rest) <= balance (rd p) t' (trace s) + sumf (rd p) (filter (by_thread t') es))%Z).
    { rewrite E in It'. rewrite sumf_app in *. rewrite En in HS. lia. }
    destruct (lstep_tst _ _ _ _ _ L) as [(b & k & inp & -> & F & N & T & ->)|[(-> & -> & _)|((fs & ->) & T & H)]]; unfold set_next.
    + destruct (Nat.eq_dec t t') as [->|Nt]; [rewrite upd_same; exact M|]. rewrite upd_other by auto. rewrite (O Nt). cbn [sumf].
      rewrite upd_eq. destruct (Nat.eqb_spec t inp) as [->|]; [|lia]. rewrite (fresh_empty _ _ R F) in It. cbn in It. assert (HB : sumf (rw p) (tframes b) = 0%Z) by (destruct b; reflexivity). rewrite HB. lia.
    + destruct (Nat.eq_dec t t') as [->|Nt]; [rewrite upd_same; exact M|]. rewrite upd_other by auto. rewrite (O Nt). cbn [sumf]. lia.
    + destruct (Nat.eq_dec t t') as [->|Nt]; [rewrite upd_same; exact M|]. rewrite upd_other by auto. rewrite (O Nt). cbn [sumf]. lia.
Qed.
Definition sd (p : sid) (e : event) : Z := match e with EvState _ q _ _ => one p q | _ => 0%Z end.
Theorem state_once : forall p s, reachable s -> (sumf (sd p) (trace s) <= if (p <? h_nfs (hp s))%nat then 1 else 0)%Z.
Proof.
  intros p. apply (replay_rule (fun h l => (sumf (sd p) l <= if (p <? h_nfs h)%nat then 1 else 0)%Z)).
  - cbn. lia.
  - intros h l d H. hs. rewrite sumf_app. cbn [sumf sd]. lia.
  - intros h l e H Ok. hs. rewrite sumf_app. destruct e; try contradiction; cbn [sumf sd]; lia.
  - intros h t T o inp h' x G O H At N.
    assert (D : h_nfs h <= h_nfs h' /\ match op_event h t o x with Some (EvState _ q _ _) => q = h_nfs h /\ h_nfs h' = S (h_nfs h) | _ => True end).
    { destruct o; try contradiction; cbn [op_event]; atom_split At; auto; hs; auto. }
    destruct D as [D1 D2]. assert (M : ((if (p <? h_nfs h)%nat then 1 else 0) <= (if (p <? h_nfs h')%nat then 1 else 0))%Z) by (destruct (Nat.ltb_spec p (h_nfs h)), (Nat.ltb_spec p (h_nfs h')); lia).
    destruct (op_event h t o x) as [e|]; [|lia]. rewrite sumf_app. cbn [sumf].
    destruct e; cbn [sd]; try lia. destruct D2 as [-> D2]. unfold one. destruct (Nat.eqb_spec (h_nfs h) p) as [<-|]; [|lia].
    rewrite Nat.ltb_irrefl in H. rewrite D2. destruct (Nat.ltb_spec (h_nfs h) (S (h_nfs h))); lia.
Qed.
(** A frame about to satisfy the state of a ready future finds it unsatisfied. *)
Theorem ready_unset : forall s t p f, reachable s -> purpose_is (trace s) p PuReady -> In f (stk s t) ->
  match f with FMkReady1 q _ | FSet q _ | FSet1 q _ => q = p | _ => False end -> ~ is_ready p (trace s).
Proof.
  intros s t p f R P J F Rd.
  assert (G : only_ready p (trace s)) by (intros x X; exact (purpose_inj _ _ _ _ R X P)).
  pose proof (count_total (rw p) (rd p) s R) as C.
  assert (Nn : forall f, (0 <= rw p f)%Z) by (intros []; cbn; try lia; apply one_nonneg).
  specialize (C Nn). specialize (C ltac:(intros [] X; cbn; auto; discriminate X) (rw_le p s R G) [t]).
  specialize (C ltac:(constructor; [intros []|constructor])). cbn [sumf] in C.
  assert (S1 : (1 <= sumf (rw p) (stk s t))%Z).
  { clear -J F Nn. induction (stk s t) as [|g r IH]; [contradiction|]. cbn [sumf]. destruct J as [->|J].
    - assert (rw p f = 1%Z) by (destruct f; try contradiction; subst; cbn; apply one_same). pose proof (sumf_nonneg _ (rw p) r Nn). lia.
    - specialize (IH J). specialize (Nn g). lia. }
  assert (S2 : (sumf (rd p) (trace s) <= sumf (sd p) (trace s) - 1)%Z).
  { clear -Rd. unfold is_ready, outcome_of in Rd. induction (trace s) as [|e l IH] using rev_ind; cbn in *; [congruence|].
    rewrite latest_snoc in Rd. rewrite !sumf_app. cbn [sumf].
    assert (X : forall l, (sumf (rd p) l <= sumf (sd p) l)%Z).
    { clear. induction l as [|e l IH]; cbn; [lia|]. destruct e; cbn; try lia; try (match goal with x : purpose |- _ => destruct x end); match goal with |- context [one _ ?q] => pose proof (one_nonneg p q) end; lia. }
    pose proof (X l). destruct e; cbn [rd sd]; try (specialize (IH Rd); lia).
    - destruct (Nat.eqb_spec p0 p) as [->|N]; [rewrite one_same; lia|]. specialize (IH Rd). rewrite (one_other _ _ N). lia.
    - specialize (IH Rd). match goal with x : purpose |- _ => destruct x end; match goal with |- context [one _ ?q] => pose proof (one_nonneg p q) end; lia. }
  pose proof (state_once p s R) as S3. destruct (_ <? _)%nat in S3; lia.
Qed.
