(** * InvEvents: every context event happens only in the right situation. *)
From Verif Require Import Types Core State Ops Code Machine Base Spec Rules Events InvCtx InvQueue InvStack InvRefs.

Lemma gone_snoc : forall i tr e, gone i (tr ++ [e]) <-> gone i tr \/ exists ts, e = EvCtxGone i ts.
Proof.
  intros. unfold gone. split.
  - intros [ts H]. apply in_app_or in H as [H|[H|[]]]; subst; eauto.
  - intros [[ts H]|[ts ->]]; exists ts; apply in_or_app; auto. right. now left.
Qed.

Definition al_inv (h : heap) : Prop :=
  forall i, (gone i (tr_of h) <-> 0 < i <= h_idgen h /\ alive h i = false).

Lemma alive_same : forall h h' i, h_regd h' = h_regd h -> cx_refs (h_ctxs h' i) = cx_refs (h_ctxs h i) ->
  alive h' i = alive h i.
Proof. intros h h' i A B. unfold alive. now rewrite A, B. Qed.

Lemma al_inv_same : forall h h', al_inv h -> h_idgen h' = h_idgen h ->
  (forall i, alive h' i = alive h i) ->
  (tr_of h' = tr_of h \/ exists e, (forall i ts, e <> EvCtxGone i ts) /\ tr_of h' = tr_of h ++ [e]) -> al_inv h'.
Proof.
  intros h h' Q A B E i. rewrite A, B. pose proof (Q i) as Qi.
  destruct E as [->|(e & N & ->)]; [tauto|]. rewrite gone_snoc. split; [intros [X|[ts X]]|]; try tauto.
  now apply N in X.
Qed.

Lemma alive_upd : forall h i c j,
  alive (upd_ctx h i c) j = if j =? i then mem i (h_regd h) || negb (match cx_refs c with [] => true | _ => false end)
                            else alive h j.
Proof.
  intros. unfold alive. hs. rewrite upd_eq. destruct (Nat.eqb_spec j i); subst; auto.
Qed.

Lemma alive_upd_refs : forall h i c, cx_refs c = cx_refs (h_ctxs h i) ->
  forall j, alive (upd_ctx h i c) j = alive h j.
Proof.
  intros. rewrite alive_upd. destruct (Nat.eqb_spec j i); subst; auto. unfold alive. now rewrite H.
Qed.

Lemma mem_rem : forall j i l, mem j (rem i l) = (mem j l && negb (j =? i)).
Proof.
  intros. apply eq_true_iff_eq. rewrite andb_true_iff, !mem_In, rem_In, negb_true_iff, Nat.eqb_neq. tauto.
Qed.

Lemma al_inv_view : forall h t h', reg_inv h -> al_inv h ->
  (forall i ts, h_tr h' = EvCtxGone i ts :: h_tr h -> alive h i = true) -> cview h t h' -> al_inv h'.
Proof.
  intros h t h' R Q G V. destruct V.
  - destruct H as (A & B & C & D & E). apply (al_inv_same h); auto.
    + intros. apply alive_same; auto. now rewrite D.
    + destruct H0 as [X|(e & N & X)]; [left; unfold tr_of; now rewrite X|].
      right. exists e. split; [|unfold tr_of; now rewrite X].
      intros i ts ->. now apply N.
  - clear G. destruct (do_reg_cases h t n R) as [(i & E & I & ->)|(E & ->)]; cbn [fst].
    + apply (al_inv_same h); auto; [|right; eexists; split; [|reflexivity]; discriminate].
      intros j. change (alive (emit ?x ?y) j) with (alive x j). rewrite alive_upd.
      destruct (Nat.eqb_spec j i); auto. subst. apply mem_In in I. now rewrite alive_mem, I.
    + cbn zeta. intros j.
      change (tr_of _) with (tr_of h ++ [EvReg t n (S (h_idgen h)) true]).
      rewrite gone_snoc, (Q j).
      set (h1 := emit _ _).
      assert (G : h_idgen h1 = S (h_idgen h)) by reflexivity. rewrite G.
      assert (A : alive h1 j = (j =? S (h_idgen h)) || alive h j).
      { unfold alive, h1. hs. cbn [mem existsb]. rewrite upd_eq.
        destruct (Nat.eqb_spec j (S (h_idgen h))); auto. }
      rewrite A. destruct (Nat.eqb_spec j (S (h_idgen h))); cbn.
      * split; [intros [X|[ts X]]; [lia|discriminate]|]. intros [_ X]. discriminate.
      * split; [intros [X|[ts X]]; [intuition lia|discriminate]|]. intros [X Y]. left. split; [lia|auto].
  - unfold do_unreg. destruct (mem i (h_regd h)) eqn:M; auto. cbn [fst].
    apply (al_inv_same h); auto; [|right; eexists; split; [|reflexivity]; discriminate].
    intros j. unfold alive. hs. rewrite mem_rem, upd_eq. destruct (Nat.eqb_spec j i); cbn.
    + subst. now rewrite andb_false_r, M.
    + now rewrite andb_true_r.
  - apply (al_inv_same h); auto. intros j. rewrite alive_upd. destruct (Nat.eqb_spec j i); auto.
    subst. now rewrite H, alive_mem.
  - unfold do_release. set (c' := set_refs _ _). destruct (alive (upd_ctx h i c') i) eqn:A; cbn [fst].
    + apply (al_inv_same h); auto. intros j. rewrite alive_upd. destruct (Nat.eqb_spec j i); auto. subst j.
      rewrite alive_upd, Nat.eqb_refl in A. rewrite A. symmetry. unfold alive.
      apply orb_true_iff in A as [A|A]; rewrite ?A; auto.
      apply orb_true_iff. right. unfold c' in A. cbn in A. destruct (cx_refs (h_ctxs h i)); auto.
    + intros j. change (tr_of _) with (tr_of h ++ [EvCtxGone i (ctx_pending (h_ctxs h i))]).
      rewrite gone_snoc, (Q j). change (alive (emit ?x ?y) j) with (alive x j).
      change (h_idgen (emit _ _)) with (h_idgen h).
      destruct (Nat.eq_dec j i) as [->|N].
      * rewrite A. split; [intros _; split; auto|eauto].
        apply alive_range; auto. apply (G i (ctx_pending (h_ctxs h i))).
        unfold do_release. fold c'. rewrite A. reflexivity.
      * rewrite (alive_upd h i c' j). destruct (Nat.eqb_spec j i); [contradiction|].
        split; [intros [X|[ts X]]; [auto|congruence]|auto].
  - apply (al_inv_same h); auto. right; eexists; split; [|reflexivity]; discriminate.
  - apply (al_inv_same h); auto; [now apply alive_upd_refs|right; eexists; split; [|reflexivity]; discriminate].
  - apply (al_inv_same h); auto; [now apply alive_upd_refs|right; eexists; split; [|reflexivity]; discriminate].
  - apply (al_inv_same h); auto; [|right; eexists; split; [|reflexivity]; discriminate].
    apply alive_upd_refs. apply take_some in H2 as (_ & S & _). destruct H1; subst c; apply S.
  - apply (al_inv_same h); auto. apply alive_upd_refs. apply take_none in H2 as [-> _]. destruct H1; subst c; auto.
  - apply (al_inv_same h); auto. now apply alive_upd_refs.
  - apply (al_inv_same h); auto; [|right; eexists; split; [|reflexivity]; discriminate].
    apply alive_upd_refs. now apply take_none in H1 as [-> _].
  - apply (al_inv_same h); auto; [now apply alive_upd_refs|right; eexists; split; [|reflexivity]; discriminate].
  - apply (al_inv_same h); auto. right; eexists; split; [|reflexivity]; discriminate.
  - apply (al_inv_same h); auto. right; eexists; split; [|reflexivity]; discriminate.
Qed.

Theorem al_inv_reachable : forall s, reachable s -> al_inv (hp s).
Proof.
  apply reachable_ind'.
  - intros i. cbn. unfold gone, tr_of, alive. cbn. split; [intros [ts []]|]. lia.
  - intros s s' R IH U Tr. destruct Tr as [d|t pre rest u E L|t pre rest h n E L]; [|exact IH|].
    + apply (al_inv_same (hp s)); auto. right. eexists. split; [|reflexivity]. discriminate.
    + cbn [hp]. eapply al_inv_view; eauto using reg_inv_reachable.
      * intros i ts X. destruct (gone_frame _ _ _ _ _ _ _ L X) as [-> _].
        apply (held_alive s t (FRel i)); auto.
        -- rewrite E. now left.
        -- cbn. rewrite Nat.eqb_refl. auto.
      * apply hstep_view. eapply lstep_hstep; eauto.
Qed.


(** The situation in which each context event happens. *)
Definition ctx_ev (tr : list event) (e : event) : Prop :=
  match e with
  | EvReg t n i true => i <> invalid_id /\ ~ In i (created_ids tr) /\ (forall j, ~ In (n, j) (registered tr))
  | EvReg t n i false => In (n, i) (registered tr)
  | EvUnreg t i => In i (map snd (registered tr))
  | EvAccept t i k => In i (created_ids tr) /\ ~ gone i tr
  | EvExitSet t i => In i (created_ids tr) /\ ~ gone i tr
  | EvDone t i => In i (created_ids tr) /\ ~ gone i tr
  | EvStart t i k => In i (created_ids tr) /\ ~ gone i tr /\ attached t tr = Some i /\
                     exists r, accepted i tr = started i tr ++ k :: r
  | EvSleep t i => In i (created_ids tr) /\ ~ gone i tr /\ attached t tr = Some i /\
                   accepted i tr = started i tr /\ ~ exit_requested i tr
  | EvCtxGone i ts => In i (created_ids tr) /\ ~ gone i tr /\ ~ In i (map snd (registered tr)) /\
                      accepted i tr = started i tr ++ ts
  | _ => True
  end.

Lemma alive_live : forall s i, reachable s -> alive (hp s) i = true ->
  In i (created_ids (trace s)) /\ ~ gone i (trace s).
Proof.
  intros s i R A. split.
  - apply (rv_created _ (r_inv_reachable s R)). apply alive_range; auto using reg_inv_reachable.
  - intros G. apply (al_inv_reachable s R) in G as [_ G]. congruence.
Qed.

Lemma idmap_registered : forall s n i, reachable s -> h_idmap (hp s) n = Some i <-> In (n, i) (registered (trace s)).
Proof.
  intros s n i R. pose proof (reg_inv_reachable s R) as G. pose proof (r_inv_reachable s R) as Q.
  change (trace s) with (tr_of (hp s)). split.
  - intros H. apply (ri_map _ G) in H as [I N]. rewrite <- (rv_regd _ Q) in I.
    apply in_map_iff in I as ([m j] & <- & I). cbn in *. pose proof (rv_native _ Q _ _ I). congruence.
  - intros I. pose proof (rv_native _ Q _ _ I) as N. rewrite <- N. apply (ri_back _ G).
    rewrite <- (rv_regd _ Q). apply in_map_iff. exists (n, i). auto.
Qed.

Lemma pending_take : forall s i c c' k, reachable s -> c = h_ctxs (hp s) i \/ c = clear_wakeup (h_ctxs (hp s) i) ->
  take_task c = (Some k, c') -> exists r, accepted i (trace s) = started i (trace s) ++ k :: r.
Proof.
  intros s i c c' k R C T. apply take_some in T as (P & _).
  destruct (q_inv_reachable s R i) as (A & _). exists (ctx_pending c').
  change (trace s) with (tr_of (hp s)). rewrite A. f_equal. rewrite <- P. destruct C; subst; reflexivity.
Qed.

Theorem ctx_ev_reachable : forall s, reachable s -> at_each ctx_ev (trace s).
Proof.
  apply (event_rule reachable); auto.
  - intros; exact I.
  - intros s t pre rest h n e R _ E L X.
    destruct e; try exact I; cbn [ctx_ev].
    + pose proof (lstep_hstep _ _ _ _ _ L) as S. destruct S as [e Ok|T o inp h x Ok A].
      { apply emit_event in X. subst e. contradiction. }
      pose proof (atom_event_is _ _ _ _ _ _ _ _ A X) as Y.
      destruct o; cbn [op_event] in Y; try discriminate Y;
        try solve [repeat match type of Y with context [match ?x with _ => _ end] => destruct x end; discriminate Y].
      { injection Y as Y. specialize (Ok t). rewrite Y in Ok. contradiction. }
      injection Y as <- <- <- <-. cbn [atom] in A.
      set (m := match o with Some n => n | None => t end) in *.
      pose proof (reg_inv_reachable s R) as G.
      destruct (do_reg_cases (hp s) t m G) as [(j & J & Ij & D)|(J & D)]; rewrite D in A; inversion A; subst.
      * assert (mem x (h_regd (hp s)) = true) as -> by now apply mem_In. cbn.
        now apply idmap_registered.
      * destruct (mem (S (h_idgen (hp s))) (h_regd (hp s))) eqn:M.
        { apply mem_In in M. apply (ri_range _ G) in M. lia. }
        cbn. split; [discriminate|]. split.
        -- intros C. apply (rv_created _ (r_inv_reachable s R)) in C. lia.
        -- intros j C. apply idmap_registered in C; auto. congruence.
    + pose proof (lstep_hstep _ _ _ _ _ L) as S. destruct S as [e Ok|T o inp h x Ok A].
      { apply emit_event in X. subst e. contradiction. }
      pose proof (atom_event_is _ _ _ _ _ _ _ _ A X) as Y.
      destruct o; cbn [op_event] in Y; try discriminate Y;
        try solve [repeat match type of Y with context [match ?x with _ => _ end] => destruct x end; discriminate Y].
      { injection Y as Y. specialize (Ok t). rewrite Y in Ok. contradiction. }
      cbn [atom] in A. unfold do_unreg in A. destruct (mem i0 (h_regd (hp s))) eqn:M; inversion A; subst; [|discriminate Y].
      injection Y as <- <-. apply mem_In in M. rewrite <- (rv_regd _ (r_inv_reachable s R)) in M. exact M.
    + pose proof (lstep_hstep _ _ _ _ _ L) as S. destruct S as [e Ok|T o inp h x Ok A].
      { apply emit_event in X. subst e. contradiction. }
      pose proof (atom_event_is _ _ _ _ _ _ _ _ A X) as Y.
      destruct o; cbn [op_event] in Y; try discriminate Y;
        try solve [repeat match type of Y with context [match ?x with _ => _ end] => destruct x end; discriminate Y].
      { injection Y as Y. specialize (Ok t). rewrite Y in Ok. contradiction. }
      injection Y as <- <- <-. cbn [atom] in A. destruct (alive (hp s) i0) eqn:Al; [|discriminate A].
      now apply alive_live.
    + (* EvStart *)
      pose proof (lstep_hstep _ _ _ _ _ L) as S. destruct S as [e Ok|T o inp h x Ok A].
      { apply emit_event in X. subst e. contradiction. }
      pose proof (atom_event_is _ _ _ _ _ _ _ _ A X) as Y.
      assert (V : forall T (o : op T) inp h x, atom (hp s) t o inp = AOk h x -> op_event (hp s) t o x = Some (EvStart t0 i k) ->
                  match o with OLog _ => False | _ => True end ->
                  t0 = t /\ alive (hp s) i = true /\ h_loc (hp s) t = Some i /\
                  exists c c', (c = h_ctxs (hp s) i \/ c = clear_wakeup (h_ctxs (hp s) i)) /\ take_task c = (Some k, c')).
      { clear. intros T o inp h x A Y N.
        destruct o; cbn [op_event] in Y; try discriminate Y; try contradiction;
          try solve [repeat match type of Y with context [match ?x with _ => _ end] => destruct x end; discriminate Y];
          cbn [atom] in A; op_unfold A; brki A; try discriminate A; inversion A; subst;
          cbn [snd] in Y; try discriminate Y; injection Y as <- <- <-;
          match goal with E : (_ =? _) = true |- _ => apply Nat.eqb_eq in E; subst end;
          (split; [reflexivity|]); (split; [assumption|]); (split; [first [assumption|reflexivity]|]); do 2 eexists; (split; [|eassumption]); auto. }
      destruct o; try solve [exfalso; cbn [op_event] in Y; discriminate Y];
        try solve [ (destruct (V _ _ _ _ _ A Y Logic.I) as (-> & Al & Lc & c & c' & C & Tk));
                    destruct (alive_live s i R Al); split; auto; split; auto; split;
                    [ now rewrite <- (rv_loc _ (r_inv_reachable s R)) in Lc
                    | eapply pending_take; eauto] ].
      cbn [op_event] in Y. injection Y as Y. specialize (Ok t). rewrite Y in Ok. contradiction.
    + pose proof (lstep_hstep _ _ _ _ _ L) as S. destruct S as [e Ok|T o inp h x Ok A].
      { apply emit_event in X. subst e. contradiction. }
      pose proof (atom_event_is _ _ _ _ _ _ _ _ A X) as Y.
      destruct o; cbn [op_event] in Y; try discriminate Y;
        try solve [repeat match type of Y with context [match ?x with _ => _ end] => destruct x end; discriminate Y].
      { injection Y as Y. specialize (Ok t). rewrite Y in Ok. contradiction. }
      injection Y as <- <-. cbn [atom] in A. destruct (alive (hp s) i0) eqn:Al; [|discriminate A].
      now apply alive_live.
    + (* EvSleep *)
      pose proof (lstep_hstep _ _ _ _ _ L) as S. destruct S as [e Ok|T o inp h x Ok A].
      { apply emit_event in X. subst e. contradiction. }
      pose proof (atom_event_is _ _ _ _ _ _ _ _ A X) as Y.
      destruct o; cbn [op_event] in Y; try discriminate Y;
        try solve [repeat match type of Y with context [match ?x with _ => _ end] => destruct x end; discriminate Y].
      { injection Y as Y. specialize (Ok t). rewrite Y in Ok. contradiction. }
      cbn [atom] in A. op_unfold A. brki A; try discriminate A; inversion A; subst; try discriminate Y.
      injection Y as <- <-. match goal with E : (_ =? _) = true |- _ => apply Nat.eqb_eq in E; subst end.
      match goal with T : take_task _ = _ |- _ => apply take_none in T as [-> P] end.
      destruct (alive_live s i0 R ltac:(assumption)).
      destruct (q_inv_reachable s R i0) as (Q1 & _ & Q3 & _).
      split; auto. split; auto. split; [|split].
      * change (trace s) with (tr_of (hp s)). now rewrite (rv_loc _ (r_inv_reachable s R)).
      * change (trace s) with (tr_of (hp s)). rewrite Q1, P. apply app_nil_r.
      * intros Ex. apply Q3 in Ex. congruence.
    + pose proof (lstep_hstep _ _ _ _ _ L) as S. destruct S as [e Ok|T o inp h x Ok A].
      { apply emit_event in X. subst e. contradiction. }
      pose proof (atom_event_is _ _ _ _ _ _ _ _ A X) as Y.
      destruct o; cbn [op_event] in Y; try discriminate Y;
        try solve [repeat match type of Y with context [match ?x with _ => _ end] => destruct x end; discriminate Y].
      { injection Y as Y. specialize (Ok t). rewrite Y in Ok. contradiction. }
      injection Y as <- <-. cbn [atom] in A. destruct (alive (hp s) i0) eqn:Al; [|discriminate A].
      now apply alive_live.
    + (* EvCtxGone *)
      destruct (gone_frame _ _ _ _ _ _ _ L X) as [-> ->].
      assert (Al : alive (hp s) i = true).
      { apply (held_alive s t (FRel i)); auto; [rewrite E; now left|]. cbn. rewrite Nat.eqb_refl. auto. }
      destruct (alive_live s i R Al). split; auto. split; auto. split.
      * intros Rg. change (trace s) with (tr_of (hp s)) in Rg. rewrite (rv_regd _ (r_inv_reachable s R)) in Rg.
        apply mem_In in Rg.
        ev_cases L X.
        destruct (alive _ _) eqn:Al' in X; [discriminate X|]. unfold alive in Al'. apply orb_false_iff in Al' as [Al' _]. change (mem i0 (h_regd (hp s)) = false) in Al'. injection X as Xi. congruence.
      * apply (q_inv_reachable s R i).
Qed.
