(** * InvQueue: the queues, the registry and the history agree. *)
From Verif Require Import Types Core State Ops Code Machine Base Spec InvCtx.

Lemma tr_emit : forall h e, tr_of (emit h e) = tr_of h ++ [e].
Proof. reflexivity. Qed.
Lemma tr_put_ctx : forall h i c, tr_of (upd_ctx h i c) = tr_of h.
Proof. reflexivity. Qed.

Lemma accepted_snoc : forall i tr e, accepted i (tr ++ [e]) = accepted i tr ++ accepted i [e].
Proof. intros. unfold accepted. now rewrite flat_map_app. Qed.
Lemma started_snoc : forall i tr e, started i (tr ++ [e]) = started i tr ++ started i [e].
Proof. intros. unfold started. now rewrite flat_map_app. Qed.
Lemma completed_snoc : forall i tr e, completed i (tr ++ [e]) = completed i tr + completed i [e].
Proof. intros. unfold completed. now rewrite filter_app, app_length. Qed.
Lemma exit_snoc : forall i tr e, exit_requested i (tr ++ [e]) <-> exit_requested i tr \/ exit_requested i [e].
Proof.
  intros. unfold exit_requested. split.
  - intros [t H]. apply in_app_or in H as [H|H]; eauto.
  - intros [[t H]|[t H]]; exists t; apply in_or_app; auto.
Qed.
Lemma registered_snoc : forall tr e, registered (tr ++ [e]) = reg_step (registered tr) e.
Proof. intros. unfold registered. now rewrite fold_left_app. Qed.
Lemma attached_snoc : forall t tr e, attached t (tr ++ [e]) = loc_step t (attached t tr) e.
Proof. intros. unfold attached. now rewrite fold_left_app. Qed.
Lemma created_snoc : forall tr e, created_ids (tr ++ [e]) = created_ids tr ++ created_ids [e].
Proof. intros. unfold created_ids. now rewrite flat_map_app. Qed.

(** What the context of [i] and the history have in common. *)
Definition ctx_agrees (tr : list event) (i : id) (c : ctx) : Prop :=
  accepted i tr = started i tr ++ ctx_pending c /\
  cx_depth c = (Z.of_nat (length (started i tr)) - Z.of_nat (completed i tr))%Z /\
  (cx_exit c = true <-> exit_requested i tr) /\
  cx_idx c <= length (cx_proc c).

Definition q_inv (h : heap) : Prop := forall i, ctx_agrees (tr_of h) i (h_ctxs h i).

(** Events that change nothing for [i]. *)
Definition quiet (i : id) (e : event) : Prop :=
  match e with
  | EvAccept _ j _ | EvStart _ j _ | EvDone _ j | EvExitSet _ j => j <> i
  | _ => True
  end.
Lemma quiet_agrees : forall tr i c e, quiet i e -> ctx_agrees tr i c -> ctx_agrees (tr ++ [e]) i c.
Proof.
  intros tr i c e Q (A & B & C & D). unfold ctx_agrees.
  rewrite accepted_snoc, started_snoc, completed_snoc, exit_snoc.
  assert (accepted i [e] = [] /\ started i [e] = [] /\ completed i [e] = 0 /\ ~ exit_requested i [e])
    as (-> & -> & -> & N).
  { unfold accepted, started, completed, exit_requested.
    destruct e; cbn in *; repeat split; auto;
      try (intros [t' [X|X]]; [try discriminate X; injection X; congruence|contradiction]).
    all: destruct (Nat.eqb_spec i0 i); try congruence; auto. }
  rewrite !app_nil_r, Nat.add_0_r. repeat split; auto; tauto.
Qed.

Definition core_eq (c c' : ctx) : Prop :=
  ctx_pending c' = ctx_pending c /\ cx_depth c' = cx_depth c /\ cx_exit c' = cx_exit c /\
  (cx_idx c <= length (cx_proc c) -> cx_idx c' <= length (cx_proc c')).
Lemma core_agrees : forall tr i c c', core_eq c c' -> ctx_agrees tr i c -> ctx_agrees tr i c'.
Proof. intros tr i c c' (A & B & C & D) (E & F & G & H). unfold ctx_agrees. rewrite A, B, C. auto. Qed.
Lemma core_refl : forall c, core_eq c c.
Proof. intros. repeat split; auto. Qed.

Lemma q_inv_upd : forall h i c, core_eq (h_ctxs h i) c -> q_inv h -> q_inv (upd_ctx h i c).
Proof.
  intros h i c C Q j. hs. rewrite tr_put_ctx, upd_eq. destruct (Nat.eqb_spec j i); [subst|apply Q].
  now apply (core_agrees _ _ _ _ C).
Qed.
Lemma q_inv_emit : forall h e, (forall i, quiet i e) -> q_inv h -> q_inv (emit h e).
Proof. intros h e C Q j. hs. rewrite tr_emit. now apply quiet_agrees. Qed.

Lemma q_inv_at : forall h i c e, q_inv h -> (forall j, j <> i -> quiet j e) ->
  ctx_agrees (tr_of h ++ [e]) i c -> q_inv (emit (upd_ctx h i c) e).
Proof.
  intros h i c e Q N A j. hs. rewrite tr_emit, tr_put_ctx, upd_eq.
  destruct (Nat.eqb_spec j i); [now subst|]. apply quiet_agrees; auto.
Qed.

Lemma q_inv_view : forall h t h', reg_inv h -> q_inv h -> cview h t h' -> q_inv h'.
Proof.
  intros h t h' R Q V. destruct V.
  - destruct H as (_ & _ & _ & A & _). intros i. rewrite A. destruct H0 as [E|(e & N & E)].
    + unfold tr_of. rewrite E. apply Q.
    + replace (tr_of h') with (tr_of h ++ [e]) by (unfold tr_of; now rewrite E).
      apply quiet_agrees; [|apply Q]. destruct e; cbn in *; tauto.
  - destruct (do_reg_cases h t n R) as [(i & E & I & ->)|(E & ->)]; cbn [fst].
    + apply q_inv_emit; [intros; exact Logic.I|]. apply q_inv_upd; auto. repeat split; auto.
    + cbn zeta. apply q_inv_emit; [intros; exact I|].
      pose (h1 := upd_ctx h (S (h_idgen h)) (set_refs (new_ctx n) [t])).
      assert (q_inv h1); [|exact H].
      apply q_inv_upd; auto. rewrite (ri_fresh h R) by lia. repeat split; auto.
  - unfold do_unreg. destruct (mem i (h_regd h)); auto. cbn [fst].
    apply q_inv_emit; [intros; exact I|].
    pose (h1 := upd_ctx h i (set_refs (h_ctxs h i) (t :: cx_refs (h_ctxs h i)))).
    assert (q_inv h1); [|exact H]. apply q_inv_upd; auto. repeat split; auto.
  - apply q_inv_upd; auto. repeat split; auto.
  - unfold do_release.
    assert (X : q_inv (upd_ctx h i (set_refs (h_ctxs h i) (rem1 t (cx_refs (h_ctxs h i)))))).
    { apply q_inv_upd; auto. repeat split; auto. }
    destruct (alive _ _); cbn [fst]; auto. apply q_inv_emit; auto. intros; exact I.
  - apply q_inv_emit; [intros; exact I|]. exact Q.
  - apply q_inv_at; auto; [intros; cbn; congruence|].
    destruct (Q i) as (A & B & C & D). unfold ctx_agrees.
    rewrite accepted_snoc, started_snoc, completed_snoc, exit_snoc. cbn. rewrite Nat.eqb_refl.
    rewrite !app_nil_r, Nat.add_0_r, A. unfold ctx_pending. cbn. rewrite <- !app_assoc.
    repeat split; auto; try tauto; try lia.
    intros [X|[t' [X|X]]]; [tauto|discriminate|contradiction].
  - apply q_inv_at; auto; [intros; cbn; congruence|].
    destruct (Q i) as (A & B & C & D). unfold ctx_agrees.
    rewrite accepted_snoc, started_snoc, completed_snoc, exit_snoc. cbn.
    rewrite !app_nil_r, Nat.add_0_r. repeat split; auto.
    intros _. right. exists t. now left.
  - apply q_inv_at; auto; [intros; cbn; congruence|].
    apply take_some in H2 as (P & S & Dp & L). destruct (Q i) as (A & B & C & D).
    assert (P' : ctx_pending (h_ctxs h i) = k :: ctx_pending c') by (destruct H1; subst c; exact P).
    assert (Dp' : cx_depth c' = (cx_depth (h_ctxs h i) + 1)%Z) by (destruct H1; subst c; exact Dp).
    assert (E' : cx_exit c' = cx_exit (h_ctxs h i)) by (destruct H1; subst c; apply S).
    unfold ctx_agrees.
    rewrite accepted_snoc, started_snoc, completed_snoc, exit_snoc. cbn. rewrite Nat.eqb_refl.
    rewrite app_nil_r, Nat.add_0_r, A, P', E', <- app_assoc, Dp', app_length. cbn.
    repeat split; auto; try tauto; try lia.
    intros [X|[t' [X|X]]]; [tauto|discriminate|contradiction].
  - apply take_none in H2 as [-> _]. apply q_inv_upd; auto.
    destruct H1 as [->| ->]; [apply core_refl|repeat split; auto].
  - apply q_inv_upd; auto. repeat split; auto.
  - apply take_none in H1 as [-> _]. apply q_inv_emit; [intros; exact I|].
    apply q_inv_upd; auto. repeat split; auto.
  - apply q_inv_at; auto; [intros; cbn; congruence|].
    destruct (Q i) as (A & B & C & D). unfold ctx_agrees.
    rewrite accepted_snoc, started_snoc, completed_snoc, exit_snoc. unfold completed at 2. cbn.
    rewrite Nat.eqb_refl. cbn.
    rewrite !app_nil_r. repeat split; auto; try tauto; try lia.
    intros [X|[t' [X|X]]]; [tauto|discriminate|contradiction].
  - apply q_inv_emit; [intros; exact I|]. exact Q.
  - apply q_inv_emit; [intros; exact I|]. exact Q.
Qed.

Theorem q_inv_reachable : forall s, reachable s -> q_inv (hp s).
Proof.
  apply (ctx_inv_rel reg_inv q_inv reg_inv_reachable).
  - intros i. unfold ctx_agrees, tr_of; cbn. repeat split; auto.
    + discriminate.
    + intros [t []].
  - intros h t h' R Q V. eapply q_inv_view; eauto.
Qed.

(** ** Registry and history *)
Record r_inv (h : heap) : Prop := {
  rv_created : forall i, In i (created_ids (tr_of h)) <-> 0 < i <= h_idgen h;
  rv_nodup : NoDup (created_ids (tr_of h));
  rv_regd : map snd (registered (tr_of h)) = h_regd h;
  rv_native : forall n i, In (n, i) (registered (tr_of h)) -> cx_native (h_ctxs h i) = n;
  rv_loc : forall t, attached t (tr_of h) = h_loc h t }.

Definition rquiet (e : event) : Prop :=
  match e with EvReg _ _ _ true | EvUnreg _ _ | EvLoc _ _ | EvSpawn _ _ | EvThreadEnd _ => False | _ => True end.

Lemma rquiet_ok : forall e tr, rquiet e ->
  created_ids (tr ++ [e]) = created_ids tr /\ registered (tr ++ [e]) = registered tr /\
  forall t, attached t (tr ++ [e]) = attached t tr.
Proof.
  intros e tr Q. rewrite created_snoc, registered_snoc. repeat split.
  - destruct e; cbn in *; try contradiction; rewrite ?app_nil_r; auto. destruct fresh; [contradiction|].
    now rewrite app_nil_r.
  - destruct e; cbn in *; try contradiction; auto. destruct fresh; [contradiction|auto].
  - intros t. rewrite attached_snoc. destruct e; cbn in *; try contradiction; auto.
Qed.

Lemma r_inv_same : forall h h', r_inv h ->
  h_idgen h' = h_idgen h -> h_regd h' = h_regd h -> h_loc h' = h_loc h ->
  (forall i, cx_native (h_ctxs h' i) = cx_native (h_ctxs h i)) ->
  (tr_of h' = tr_of h \/ exists e, rquiet e /\ tr_of h' = tr_of h ++ [e]) -> r_inv h'.
Proof.
  intros h h' [] A B C D E.
  assert (created_ids (tr_of h') = created_ids (tr_of h) /\ registered (tr_of h') = registered (tr_of h) /\
          forall t, attached t (tr_of h') = attached t (tr_of h)) as (E1 & E2 & E3).
  { destruct E as [->|(e & Q & ->)]; [auto|]. now apply rquiet_ok. }
  constructor; rewrite ?E1, ?E2, ?A, ?B, ?C; auto.
  - intros. rewrite D. auto.
  - intros. now rewrite E3.
Qed.

Lemma upd_native : forall h i c, cx_native c = cx_native (h_ctxs h i) ->
  forall j, cx_native (h_ctxs (upd_ctx h i c) j) = cx_native (h_ctxs h j).
Proof. intros. hs. rewrite upd_eq. destruct (Nat.eqb_spec j i); subst; auto. Qed.

Lemma r_inv_view : forall h t h', reg_inv h -> r_inv h -> cview h t h' -> r_inv h'.
Proof.
  intros h t h' R Q V. destruct V.
  - destruct H as (A & B & C & D & E). apply (r_inv_same h); auto.
    + intros; now rewrite D.
    + destruct H0 as [X|(e & N & X)]; [left; unfold tr_of; now rewrite X|].
      right. exists e. split; [destruct e; cbn in *; tauto|unfold tr_of; now rewrite X].
  - destruct (do_reg_cases h t n R) as [(i & E & I & ->)|(E & ->)]; cbn [fst].
    + apply (r_inv_same h); auto; [|right; eexists; split; [|reflexivity]; exact Logic.I].
      intros. hs. rewrite upd_eq. destruct (Nat.eqb_spec i0 i); subst; auto.
    + cbn zeta. destruct Q. constructor; rewrite ?tr_emit; change (tr_of (put_regd _ _)) with (tr_of h); hs.
      * intros j. rewrite created_snoc. cbn. rewrite in_app_iff.
        rewrite rv_created0. cbn. lia.
      * rewrite created_snoc. cbn. change (tr_of _) with (tr_of h).
        apply NoDup_Add with (a := S (h_idgen h)) (l := created_ids (tr_of h)).
        -- rewrite <- (app_nil_r (created_ids (tr_of h))) at 1. apply Add_app.
        -- split; auto. rewrite rv_created0. lia.
      * rewrite registered_snoc. cbn. now rewrite rv_regd0.
      * intros m j. rewrite registered_snoc. cbn. intros [X|X].
        -- injection X as <- <-. now rewrite upd_same.
        -- rewrite upd_other; auto. intros ->.
           assert (In (S (h_idgen h)) (h_regd h)) by (rewrite <- rv_regd0; apply in_map_iff; now exists (m, S (h_idgen h))).
           apply (ri_range h R) in H. lia.
      * intros u. rewrite attached_snoc. cbn. auto.
  - unfold do_unreg. destruct (mem i (h_regd h)) eqn:M; auto. cbn [fst]. destruct Q.
    constructor; rewrite ?tr_emit; change (tr_of (put_cleansig _ _)) with (tr_of h); hs.
    + intros. rewrite created_snoc. cbn. rewrite app_nil_r. auto.
    + rewrite created_snoc. cbn. now rewrite app_nil_r.
    + rewrite registered_snoc. cbn. rewrite <- rv_regd0. unfold rem.
      generalize (registered (tr_of h)). induction l as [|[a b] l IH]; auto.
      cbn. destruct (b =? i); cbn; rewrite ?IH; auto.
    + intros n j. rewrite registered_snoc. cbn. rewrite filter_In. cbn.
      intros [I X]. rewrite upd_eq. destruct (Nat.eqb_spec j i); [discriminate|auto].
    + intros u. rewrite attached_snoc. cbn. auto.
  - apply (r_inv_same h); auto. now apply upd_native.
  - unfold do_release. destruct (alive _ _); cbn [fst].
    + apply (r_inv_same h); auto. now apply upd_native.
    + apply (r_inv_same h); auto; [now apply upd_native|].
      right; eexists; split; [|reflexivity]; exact I.
  - destruct Q. constructor; rewrite ?tr_emit; change (tr_of (put_loc _ _)) with (tr_of h); hs;
      rewrite ?created_snoc, ?registered_snoc; cbn; rewrite ?app_nil_r; auto.
    intros u. rewrite attached_snoc. cbn. rewrite upd_eq, (Nat.eqb_sym t u), rv_loc0. reflexivity.
  - apply (r_inv_same h); auto; [now apply upd_native|right; eexists; split; [|reflexivity]; exact I].
  - apply (r_inv_same h); auto; [now apply upd_native|right; eexists; split; [|reflexivity]; exact I].
  - apply (r_inv_same h); auto; [|right; eexists; split; [|reflexivity]; exact I].
    apply upd_native. apply take_some in H2 as (_ & S & _). destruct H1; subst c; apply S.
  - apply (r_inv_same h); auto. apply upd_native. apply take_none in H2 as [-> _]. destruct H1; subst c; auto.
  - apply (r_inv_same h); auto. now apply upd_native.
  - apply (r_inv_same h); auto; [|right; eexists; split; [|reflexivity]; exact I].
    apply upd_native. now apply take_none in H1 as [-> _].
  - apply (r_inv_same h); auto; [now apply upd_native|right; eexists; split; [|reflexivity]; exact I].
  - destruct Q. constructor; rewrite ?tr_emit; change (tr_of (put_loc _ _)) with (tr_of h); hs;
      rewrite ?created_snoc, ?registered_snoc; cbn; rewrite ?app_nil_r; auto.
    intros u. rewrite attached_snoc. cbn. rewrite upd_eq, (Nat.eqb_sym n u), rv_loc0. reflexivity.
  - destruct Q. constructor; rewrite ?tr_emit; change (tr_of (put_loc _ _)) with (tr_of h); hs;
      rewrite ?created_snoc, ?registered_snoc; cbn; rewrite ?app_nil_r; auto.
    intros u. rewrite attached_snoc. cbn. rewrite upd_eq, (Nat.eqb_sym t u), rv_loc0. reflexivity.
Qed.

Theorem r_inv_reachable : forall s, reachable s -> r_inv (hp s).
Proof.
  apply (ctx_inv_rel reg_inv r_inv reg_inv_reachable).
  - constructor; unfold tr_of; cbn; auto; try (intros; lia); try tauto. constructor.
  - intros h t h' R Q V. eapply r_inv_view; eauto.
Qed.
