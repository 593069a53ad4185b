(** * InvAff: contexts belong to native threads. *)
From Verif Require Import Types Core State Ops Code Machine Base Spec Rules InvCtx InvStack InvRefs.

(** Context [i] was created for native thread [n]. *)
Definition own (h : heap) (i : id) (n : tid) : Prop := 0 < i <= h_idgen h /\ cx_native (h_ctxs h i) = n.

Lemma own_view : forall h t h', reg_inv h -> cview h t h' -> forall i n, own h i n -> own h' i n.
Proof.
  intros h t h' R V i n [G N].
  assert (U : forall j c, cx_native c = cx_native (h_ctxs h j) -> cx_native (upd (h_ctxs h) j c i) = n).
  { intros j c E. rewrite upd_eq. destruct (Nat.eqb_spec i j); subst; auto. }
  destruct V; unfold own; hs; auto; try (split; [auto|apply U; reflexivity]).
  - destruct H as (A & B & C & D & E). rewrite A, D. auto.
  - destruct (do_reg_cases h t n0 R) as [(j & E & I & ->)|(E & ->)]; cbn [fst]; cbn zeta; hs.
    + split; auto.
    + split; [lia|]. rewrite upd_other by lia. auto.
  - unfold do_unreg. destruct (mem i0 (h_regd h)); cbn [fst]; hs; auto.
  - unfold do_release. destruct (alive _ _); cbn [fst]; hs; auto.
  - split; auto. unfold take_log. hs. apply U. apply take_some in H2 as (_ & S & _). destruct H1 as [->| ->]; apply S.
  - split; auto. apply U. apply take_none in H2 as [-> _]. destruct H1 as [->| ->]; reflexivity.
  - split; auto. apply U. apply take_none in H1 as [-> _]. reflexivity.
Qed.

Lemma own_lstep : forall s t pre h n, reachable s -> lstep (hp s) t pre h n -> forall i m, own (hp s) i m -> own h i m.
Proof. intros s t pre h n R L. eapply own_view; [now apply reg_inv_reachable|]. eapply hstep_view, lstep_hstep; eauto. Qed.
Lemma own_tick : forall h d i n, own h i n -> own (emit (put_now h (h_now h + Zpos d)) (EvTick (Zpos d))) i n.
Proof. intros. exact H. Qed.

(** The context a frame uses as that of its own thread. *)
Definition own1 (f : frame) : option id := match f with FSetLoc i => Some i | _ => None end.
Definition own2 (f : frame) : option id :=
  match f with
  | FProc c | FPf0 c _ | FPf c _ _ | FPfNow c _ | FPoEnd c | FWait1 c _ _ | FSleep c _ _ => Some c
  | _ => None
  end.
Definition ownok (g : frame -> option id) (h : heap) (t : tid) (f : frame) : Prop :=
  match g f with Some i => own h i t | None => True end.

Section Lists.
Variable P : frame -> Prop.
Hypothesis N1 : forall f, own1 f = None -> own2 f = None -> P f.
Let no (fs : list frame) : Prop := Forall P fs.
Lemma own_destroy : forall ks, no (destroy ks).
Proof. intros []; repeat constructor; now apply N1. Qed.
Lemma own_lresume : forall c ok b, no (lresume c ok b).
Proof. intros [] ok []; repeat constructor; now apply N1. Qed.
Lemma own_wresume : forall k b, no (wresume k b).
Proof. intros [] b; repeat constructor; now apply N1. Qed.
Lemma own_gresume : forall k b, no (gresume k b).
Proof. intros [] b; repeat constructor; now apply N1. Qed.
Lemma own_semresume : forall k b, no (semresume k b).
Proof. intros [| |p [d|] g|] []; repeat constructor; now apply N1. Qed.
Lemma own_wafter : forall w a, no (wresume_after w a).
Proof. intros w []; repeat constructor; now apply N1. Qed.
Lemma own_pact : forall o pl a, no (pact_frames o pl a).
Proof. intros o pl []; repeat constructor; now apply N1. Qed.
Lemma own_sp : forall n i k, no (spresume n i k).
Proof. intros n i []; repeat constructor; now apply N1. Qed.
Lemma own_ufin : forall f v, no (ufin_ret f v).
Proof. intros [] v; repeat constructor; now apply N1. Qed.
Lemma own_api : forall c, no (api_frames c).
Proof. intros []; repeat constructor; now apply N1. Qed.
Lemma own_tframes : forall b, no (tframes b).
Proof. intros []; repeat constructor; now apply N1. Qed.
End Lists.

Ltac own_list :=
  repeat match goal with
    | |- Forall _ (_ ++ _) => apply Forall_app; split
    | |- Forall _ (destroy _) => apply own_destroy
    | |- Forall _ (wresume _ _) => apply own_wresume
    | |- Forall _ (gresume _ _) => apply own_gresume
    | |- Forall _ (semresume _ _) => apply own_semresume
    | |- Forall _ (lresume _ _ _) => apply own_lresume
    | |- Forall _ (wresume_after _ _) => apply own_wafter
    | |- Forall _ (pact_frames _ _ _) => apply own_pact
    | |- Forall _ (spresume _ _ _) => apply own_sp
    | |- Forall _ (api_frames _) => apply own_api
    | |- Forall _ (ufin_ret _ _) => apply own_ufin
    | |- Forall _ (tframes _) => apply own_tframes
    | |- Forall _ (run_one _ _) => unfold run_one
    | |- Forall _ (match ?x with _ => _ end) => destruct x eqn:?
    | |- Forall _ [] => constructor
    | |- Forall _ (_ :: _) => constructor
    end.

Theorem setloc_own : forall s, reachable s -> forall t, Forall (ownok own1 (hp s) t) (stk s t).
Proof.
  apply (frame_rule reachable); try exact I; auto.
  - intros s t pre rest h n u f R _ E L _ _ H. unfold ownok in *. destruct (own1 f); auto. eapply own_lstep; eauto.
  - intros s t pre rest h n R E L Fp _.
    assert (N1 : forall f, own1 f = None -> own2 f = None -> ownok own1 h t f) by (intros f X _; unfold ownok; now rewrite X).
    assert (N2 : forall c f, own1 f = None -> own2 f = None -> ownok own1 h c f) by (intros c f X _; unfold ownok; now rewrite X).
    lstep_cases L; (split; [|try exact I; cbn [spawned]; try (apply own_tframes; apply N2; fail)]); cbn [next_frames]; own_list; auto; try exact I.
    cbn. cbn [atom] in A. destruct (do_reg (hp s) t t) as [h1 i] eqn:D. inversion A; subst; clear A.
    pose proof (reg_inv_reachable s R) as RI.
    destruct (do_reg_cases (hp s) t t RI) as [(i & X & I & D')|(X & D')]; rewrite D' in D; cbn zeta in D; inversion D; subst; unfold own; hs.
    + split; [now apply (ri_range _ RI)|]. rewrite upd_same. cbn. now apply (ri_map _ RI) in X.
    + split; [lia|]. now rewrite upd_same.
Qed.

Definition loc_own (s : st) : Prop := forall t i, h_loc (hp s) t = Some i -> own (hp s) i t.
Lemma atom_loc : forall h t T (o : op T) inp h' x, atom h t o inp = AOk h' x ->
  match o with OSetLoc l => h_loc h' = upd (h_loc h) t l
  | _ => h_loc h' = h_loc h \/ exists u, h_loc h' = upd (h_loc h) u None end.
Proof.
  intros h t T o inp h' x A.
  destruct o; cbn [atom] in A; try discriminate A; op_unfold A; brki A; try discriminate A; inversion A; subst; hs; eauto.
Qed.
Lemma code_setloc : forall f h t inp h' n, runs (code f) h t inp h' n ->
  (exists i, f = FSetLoc i /\ h_loc h' = upd (h_loc h) t (Some i)) \/ h_loc h' = h_loc h \/ exists u, h_loc h' = upd (h_loc h) u None.
Proof.
  intros f h t inp h' n R.
  destruct f; try (right; code_cases R; apply atom_loc in A; eauto; fail).
  code_cases R. apply atom_loc in A. left. eauto.
Qed.
Theorem loc_own_reachable : forall s, reachable s -> loc_own s.
Proof.
  apply reachable_ind'.
  - intros t i H. discriminate H.
  - intros s s' R IH U Tr. destruct Tr as [d|t pre rest u E L|t pre rest h n E L]; [exact IH|exact IH|].
    assert (X : (exists i, own (hp s) i t /\ h_loc h = upd (h_loc (hp s)) t (Some i)) \/ h_loc h = h_loc (hp s) \/ exists u, h_loc h = upd (h_loc (hp s)) u None).
    { destruct L as [c u fin|v u fin|e u fin|inp f h' n Ru|inp e g h' n Ru|x c]; auto.
      - apply code_setloc in Ru as [(i & -> & X)|X]; auto. left. exists i. split; auto.
        pose proof (setloc_own s R t) as F. rewrite E in F. now inversion F.
      - right. destruct g; code_cases Ru; apply atom_loc in A; auto. }
    assert (O : forall i m, own (hp s) i m -> own h i m) by (eapply own_lstep; eauto).
    intros u i. cbn [hp]. destruct X as [(j & Oj & ->)|[->|(v & ->)]].
    + rewrite upd_eq. destruct (Nat.eqb_spec u t).
      * subst. intros X. injection X as ->. auto.
      * intros X. auto.
    + intros X. auto.
    + rewrite upd_eq. destruct (u =? v); [discriminate|]. auto.
Qed.

Theorem used_own : forall s, reachable s -> forall t, Forall (ownok own2 (hp s) t) (stk s t).
Proof.
  apply (frame_rule reachable); try exact I; auto.
  - intros s t pre rest h n u f R _ E L _ _ H. unfold ownok in *. destruct (own2 f); auto. eapply own_lstep; eauto.
  - intros s t pre rest h n R E L Fp _.
    assert (O : forall i, own (hp s) i t -> own h i t) by (intros i; eapply own_lstep; eauto).
    assert (N1 : forall f, own1 f = None -> own2 f = None -> ownok own2 h t f) by (intros f _ X; unfold ownok; now rewrite X).
    assert (N2 : forall c f, own1 f = None -> own2 f = None -> ownok own2 h c f) by (intros c f _ X; unfold ownok; now rewrite X).
    pose proof (loc_own_reachable s R) as LO.
    lstep_cases L; (split; [|try exact I; cbn [spawned]; try (apply own_tframes; apply N2; fail)]); cbn [next_frames];
      inversion Fp as [|? ? Fp1 Fp2]; subst; own_list; auto; try exact I;
      cbn in *; auto.
    all: try (inversion A; subst; apply LO; auto).
Qed.

(** The thread performing an operation on the context of its own frame is its owner. *)
Lemma frame_own : forall s t f i, reachable s -> In f (stk s t) -> own2 f = Some i -> own (hp s) i t.
Proof.
  intros s t f i R I O. pose proof (used_own s R t) as F. rewrite Forall_forall in F. specialize (F f I).
  unfold ownok in F. now rewrite O in F.
Qed.
