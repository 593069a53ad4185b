(** * InvSleep: attached threads are registered; sleeping threads can be woken. *)
From Verif Require Import Types Core State Ops Code Machine Base Spec Rules Events InvCtx InvQueue InvStack InvRefs InvEvents InvAff InvTop.

(** ** The native thread of an id *)
Lemma own_event : forall s, reachable s -> forall i n, own (hp s) i n -> exists u, In (EvReg u n i true) (trace s).
Proof.
  assert (H : forall s, reachable s -> forall i, 0 < i <= h_idgen (hp s) ->
    exists u, In (EvReg u (cx_native (h_ctxs (hp s) i)) i true) (h_tr (hp s))).
  { apply (ctx_inv_rel reg_inv (fun h => forall i, 0 < i <= h_idgen h -> exists u, In (EvReg u (cx_native (h_ctxs h i)) i true) (h_tr h))).
    - apply reg_inv_reachable.
    - cbn. lia.
    - intros h t h' R Q V i.
      assert (M : forall i, 0 < i <= h_idgen h -> forall h', own h' i (cx_native (h_ctxs h i)) -> (forall e, In e (h_tr h) -> In e (h_tr h')) ->
        exists u, In (EvReg u (cx_native (h_ctxs h' i)) i true) (h_tr h')).
      { intros j G h2 [_ O] T. rewrite O. destruct (Q j G) as [u X]. exists u. auto. }
      assert (O : 0 < i <= h_idgen h -> own h' i (cx_native (h_ctxs h i))).
      { intros G. eapply own_view; eauto. split; auto. }
      assert (Tr : forall e, In e (h_tr h) -> In e (h_tr h')).
      { destruct V; intros e X; hs; auto; try (now right).
        - destruct H0 as [->|(e' & _ & ->)]; auto. now right.
        - destruct (do_reg_cases h t n R) as [(j & _ & _ & ->)|(_ & ->)]; cbn; auto.
        - unfold do_unreg. destruct (mem _ _); cbn; auto.
        - unfold do_release. destruct (alive _ _); cbn; auto. }
      assert (C : h_idgen h' = h_idgen h \/ exists n, h' = fst (do_reg h t n) /\ h_idmap h n = None).
      { destruct V; hs; auto; try (left; apply H).
        - destruct (do_reg_cases h t n R) as [(j & _ & _ & ->)|(X & _)]; [left; reflexivity|]. right. eauto.
        - left. unfold do_unreg. destruct (mem _ _); reflexivity.
        - left. unfold do_release. destruct (alive _ _); reflexivity. }
      intros G. destruct C as [C|(n & -> & X)].
      + rewrite C in G. eauto.
      + destruct (do_reg_cases h t n R) as [(j & Y & _)|(_ & D)]; [congruence|].
        destruct (Nat.eq_dec i (S (h_idgen h))) as [->|N].
        * exists t. rewrite D. cbn zeta. cbn [fst]. hs. rewrite upd_same. now left.
        * apply M; auto; [|apply O]; rewrite D in G; cbn in G; lia. }
  intros s R i n [G <-]. destruct (H s R i G) as [u X]. exists u. unfold trace. now apply in_rev in X.
Qed.

(** ** The id read by unregister_this_thread *)
Lemma atom_loc_other : forall h t T (o : op T) inp h' x u, atom h t o inp = AOk h' x -> u <> t ->
  running (h_tst h u) = true -> h_loc h' u = h_loc h u.
Proof.
  intros h t T o inp h' x u A N Rn.
  destruct o; cbn [atom] in A; try discriminate A; op_unfold A; brki A; try discriminate A; inversion A; subst; hs; auto;
    rewrite ?upd_eq.
  - destruct (Nat.eqb_spec u t); [contradiction|auto].
  - destruct (Nat.eqb_spec u x); auto. subst.
    match goal with X : _ && _ = true |- _ => apply andb_true_iff in X as [X _]; unfold fresh_thread in X; destruct (h_tst h x); discriminate end.
  - destruct (Nat.eqb_spec u t); [contradiction|auto].
  - destruct (Nat.eqb_spec u t); [contradiction|auto].
  - destruct (Nat.eqb_spec u t); [contradiction|auto].
Qed.
Lemma loc_other : forall s t pre h n u f r, reachable s -> lstep (hp s) t pre h n -> u <> t -> stk s u = f :: r ->
  h_loc h u = h_loc (hp s) u.
Proof.
  intros s t pre h n u f r R L N E.
  assert (Rn : running (h_tst (hp s) u) = true).
  { pose proof (stk_inv_reachable s R u) as H. unfold stk_ok in H. destruct (running _); auto. congruence. }
  apply lstep_hstep in L as [e Ok|T o inp h1 x Ok A]; [reflexivity|]. eapply atom_loc_other; eauto.
Qed.

Definition myid (h : heap) (t : tid) : id := match h_loc h t with Some i => i | None => invalid_id end.
Definition top_unreg_myid (h : heap) (t : tid) (f : frame) : Prop := match f with FUnreg1 i => i = myid h t | _ => True end.
Lemma unreg_myid' : forall s, reachable s -> forall t f r, stk s t = f :: r -> top_unreg_myid (hp s) t f.
Proof.
  apply (top_rule reachable); [auto|..].
  - intros h t [] U; try exact I; discriminate.
  - intros s d u f _ X. exact X.
  - intros h t []; exact I.
  - intros s t pre rest h n u f r R U E L N Eu X. destruct f; try exact I. unfold top_unreg_myid, myid. rewrite (loc_other s t pre h n u _ r R L N Eu). exact X.
  - intros s t pre rest h n f R U E L X Hd. destruct f; try exact I.
    lstep_cases L; hdk Hd.
    injection Hd as <-. cbn [atom] in A. cbn. unfold myid. destruct (h_loc (hp s) t) eqn:Lc; brki A; inversion A; subst; now rewrite Lc.
Qed.
Theorem unreg_myid : forall s, reachable s -> forall t i r, stk s t = FUnreg1 i :: r -> i = myid (hp s) t.
Proof. intros s R t i r E. exact (unreg_myid' s R t _ r E). Qed.

Lemma atom_regd : forall h t T (o : op T) inp h' x i, atom h t o inp = AOk h' x -> reg_inv h ->
  mem i (h_regd h) = true -> mem i (h_regd h') = true \/ match o with OUnreg j => j = i | _ => False end.
Proof.
  intros h t T o inp h' x i A RI M.
  destruct o; try (left; cbn [atom] in A; try discriminate A; op_unfold A; brki A; try discriminate A; inversion A; subst; hs; exact M).
  - left. cbn [atom] in A. destruct (do_reg h t _) as [h1 j] eqn:D. inversion A; subst; clear A.
    destruct (do_reg_cases h t (match o with Some n => n | None => t end) RI) as [(k & E & I & D')|(E & D')];
      rewrite D' in D; inversion D; subst; hs; auto. cbn. unfold mem in M. now rewrite M, orb_true_r.
  - cbn [atom] in A. unfold do_unreg in A. destruct (mem i0 (h_regd h)) eqn:X; inversion A; subst; hs; auto.
    rewrite mem_rem, M. destruct (Nat.eqb_spec i i0); auto.
  - left. cbn [atom] in A. destruct (h_regd h) eqn:D; [discriminate M|]. brki A; inversion A; subst; hs; now rewrite ?D.
  - left. cbn [atom] in A. destruct (h_regd h) eqn:D; [discriminate M|]. brki A; inversion A; subst; hs; now rewrite ?D.
Qed.
Lemma lstep_regd : forall s t pre rest h n i, reachable s -> stk s t = pre ++ rest -> lstep (hp s) t pre h n ->
  mem i (h_regd (hp s)) = true -> mem i (h_regd h) = true \/ (pre = [FUnreg1 i] /\ h_loc (hp s) t = Some i).
Proof.
  intros s t pre rest h n i R E L M. pose proof (reg_inv_reachable s R) as RI.
  assert (F : forall j, pre = [FUnreg1 j] -> j = i -> h_loc (hp s) t = Some i).
  { intros j -> ->. assert (X := unreg_myid s R t i rest E). unfold myid in X.
    apply mem_In in M. apply (ri_range _ RI) in M. destruct (h_loc (hp s) t); [now subst|]. unfold invalid_id in X. lia. }
  lstep_cases L; try (left; exact M);
    pose proof (atom_regd _ _ _ _ _ _ _ i A RI M) as [Y|Y]; auto; try contradiction.
  right. subst. split; auto. eapply F; eauto.
Qed.
Lemma own_fun : forall h i a b, own h i a -> own h i b -> a = b.
Proof. intros h i a b [_ A] [_ B]. congruence. Qed.

(** An id about to become the local id is registered. *)
Definition top_setloc_reg (h : heap) (t : tid) (f : frame) : Prop := match f with FSetLoc i => mem i (h_regd h) = true | _ => True end.
Lemma setloc_reg' : forall s, reachable s -> forall t f r, stk s t = f :: r -> top_setloc_reg (hp s) t f.
Proof.
  apply (top_rule reachable); [auto|..].
  - intros h t [] U; try exact I; discriminate.
  - intros s d u f _ X. exact X.
  - intros h t []; exact I.
  - intros s t pre rest h n u f r R U E L N Eu X. destruct f; try exact I.
    destruct (lstep_regd s t pre rest h n i R E L X) as [Y|(_ & Y)]; [exact Y|].
    apply (loc_own_reachable s R) in Y. exfalso. apply N.
    pose proof (setloc_own s R u) as F. rewrite Eu in F. inversion F as [|? ? F1 F2]; subst. eapply own_fun; [exact F1|eauto].
  - intros s t pre rest h n f R U E L X Hd. destruct f; try exact I.
    lstep_cases L; hdk Hd.
    injection Hd as <-. cbn [atom] in A. destruct (do_reg (hp s) t t) as [h1 j] eqn:D. inversion A; subst; clear A.
    destruct (do_reg_cases (hp s) t t (reg_inv_reachable s R)) as [(k & Y & I & D')|(Y & D')];
      rewrite D' in D; inversion D; subst; hs; [now apply mem_In|]. cbn. now rewrite Nat.eqb_refl.
Qed.
Theorem setloc_reg : forall s, reachable s -> forall t i r, stk s t = FSetLoc i :: r -> mem i (h_regd (hp s)) = true.
Proof. intros s R t i r E. exact (setloc_reg' s R t _ r E). Qed.

(** An attached thread is registered, except while it unregisters itself. *)
Definition loc_reg (s : st) : Prop :=
  forall t i, h_loc (hp s) t = Some i -> mem i (h_regd (hp s)) = true \/ In FClearLoc (stk s t).
Lemma clear_stays : forall h t pre h' n, lstep h t pre h' n -> In FClearLoc pre -> h_loc h' t = None.
Proof.
  intros h t pre h' n L X.
  destruct L as [c u fin|v u fin|e u fin|inp f h' n R|inp e g h' n R|x c];
    cbn [In] in X; repeat (destruct X as [X|X]; try discriminate X); try contradiction; subst.
  - code_cases R. apply atom_loc in A. now rewrite A, upd_same.
  - code_cases R.
Qed.
Lemma lstep_loc_other : forall h t pre h' n u, lstep h t pre h' n -> u <> t -> h_loc h' u <> None -> h_loc h' u = h_loc h u.
Proof.
  intros h t pre h' n u L N D. apply lstep_hstep in L. destruct L as [e Ok|T o inp h1 x Ok A]; [reflexivity|].
  pose proof (atom_loc _ _ _ _ _ _ _ A) as X.
  assert (Y : (exists v l, h_loc h1 = upd (h_loc h) v l /\ (v = t \/ l = None)) \/ h_loc h1 = h_loc h).
  { destruct o; try (destruct X as [X|[v X]]; [auto|left; exists v, None; auto]). left. eauto. }
  destruct Y as [(v & l & Y & Z)|Y]; [|now rewrite Y]. rewrite Y in D |- *. rewrite upd_eq in D |- *.
  destruct (Nat.eqb_spec u v); auto. destruct Z; subst; [now elim N|now elim D].
Qed.
Lemma spawn_loc : forall h t pre h' c cfs fs u, lstep h t pre h' (GoSpawn c cfs fs) -> u = c -> h_loc h' u = None.
Proof.
  intros h t pre h' c cfs fs u L ->. pose proof (lstep_tst _ _ _ _ _ L) as [(b & k & inp & -> & _ & _ & _ & X)|[(_ & X & _)|((y & X) & _)]];
    try discriminate X. injection X as -> _ _.
  inversion L as [| | |inp' f h1 n1 Ru| |]; subst. destruct Ru as (x & A & K).
  cbn [atom] in A. brki A; try discriminate A. inversion A; subst. injection K as -> _ _. hs. now rewrite upd_same.
Qed.
Theorem loc_reg_reachable : forall s, reachable s -> loc_reg s.
Proof.
  apply reachable_ind'.
  - intros t i H. discriminate H.
  - intros s s' R IH U Tr. destruct Tr as [d|t pre rest u E L|t pre rest h n E L]; [exact IH|exact IH|].
    intros u i. cbn [hp stk]. intros Lc.
    destruct (Nat.eq_dec u t) as [->|N].
    + assert (St : set_next (stk s) t n rest t = next_frames n ++ rest).
      { unfold set_next. destruct n; now rewrite upd_same. }
      rewrite St.
      assert (Old : h_loc (hp s) t = Some i -> (mem i (h_regd h) = true \/ pre = [FUnreg1 i]) ->
        mem i (h_regd h) = true \/ In FClearLoc (next_frames n ++ rest)).
      { intros _ [M|M]; auto. right. subst pre. inversion L as [| | |inp f h' n' Ru| |]; subst. code_cases Ru.
        apply in_or_app. left. destruct x; cbn; auto. }
      assert (Old2 : h_loc (hp s) t = Some i -> mem i (h_regd h) = true \/ In FClearLoc (next_frames n ++ rest)).
      { intros X. destruct (IH t i X) as [M|M].
        - apply Old; auto. destruct (lstep_regd s t pre rest h n i R E L M) as [?|[? _]]; auto.
        - rewrite E in M. apply in_app_or in M as [M|M]; [|right; apply in_or_app; auto].
          apply (clear_stays _ _ _ _ _ L) in M. congruence. }
      assert (X : (exists j, pre = [FSetLoc j] /\ h_loc h = upd (h_loc (hp s)) t (Some j)) \/ h_loc h = h_loc (hp s) \/ exists u, h_loc h = upd (h_loc (hp s)) u None).
      { clear -L. destruct L as [c u fin|v u fin|e u fin|inp f h' n Ru|inp e g h' n Ru|x c]; auto.
        - apply code_setloc in Ru as [(j & -> & X)|X]; eauto.
        - right. destruct g; code_cases Ru; apply atom_loc in A; auto. }
      destruct X as [(j & -> & X)|[X|(v & X)]].
      * rewrite X, upd_same in Lc. injection Lc as ->. left.
        pose proof (setloc_reg s R t i rest E) as M.
        destruct (lstep_regd s t _ rest h n i R E L M) as [?|[? _]]; auto. discriminate.
      * rewrite X in Lc. auto.
      * rewrite X, upd_eq in Lc. destruct (t =? v); [discriminate|]. auto.
    + assert (Y : h_loc (hp s) u = Some i) by (rewrite <- Lc; symmetry; eapply lstep_loc_other; eauto; congruence).
      assert (St : set_next (stk s) t n rest u = stk s u).
      { unfold set_next. destruct n as [fs|c cfs fs]; [now rewrite upd_other|].
        destruct (Nat.eq_dec u c) as [->|Nc]; [|now rewrite !upd_other].
        rewrite (spawn_loc _ _ _ _ _ _ _ _ L eq_refl) in Lc. discriminate. }
      rewrite St. destruct (IH u i Y) as [M|M]; auto.
      destruct (lstep_regd s t pre rest h n i R E L M) as [?|[_ Z]]; auto.
      exfalso. apply N. apply (loc_own_reachable s R) in Z, Y. eapply own_fun; eauto.
Qed.

(** ** Sleeping threads *)
(** What a push, an exit request or another operation does to what a sleeper looks at. *)
Definition woken (c : ctx) : Prop :=
  cx_sig c = cx_wakeup c /\ (cx_wakeup c = true <-> ctx_pending c <> [] \/ cx_exit c = true).
Definition same_s (c c' : ctx) : Prop :=
  cx_wakeup c' = cx_wakeup c /\ cx_sig c' = cx_sig c /\ ctx_pending c' = ctx_pending c /\ cx_exit c' = cx_exit c.
Lemma woken_same : forall c c', same_s c c' -> woken c -> woken c'.
Proof. intros c c' (A & B & C & D). unfold woken. now rewrite A, B, C, D. Qed.
Lemma same_s_refl : forall c, same_s c c.
Proof. repeat split. Qed.
Lemma push_pending : forall c k, ctx_pending (push_task c k) = ctx_pending c ++ [k].
Proof. intros. unfold ctx_pending, push_task. cbn. now rewrite app_assoc. Qed.
Lemma woken_push : forall c k, woken (push_task c k).
Proof.
  intros c k. split; [reflexivity|]. rewrite push_pending. split; intros _; [|reflexivity].
  left. intros X. now apply app_eq_nil in X as [_ X].
Qed.
Lemma woken_exit : forall c, woken (set_exit c).
Proof. intros c. split; [reflexivity|]. split; intros _; [now right|reflexivity]. Qed.

Lemma atom_woken : forall h t T (o : op T) inp h' x i, reg_inv h -> atom h t o inp = AOk h' x -> 0 < i <= h_idgen h ->
  woken (h_ctxs h i) -> woken (h_ctxs h' i) \/ h_loc h t = Some i \/ exists dl, match o with OWake j dl' => j = i /\ dl' = dl | _ => False end.
Proof.
  intros h t T o inp h' x i RI A G W.
  assert (K : forall j c, (j = i -> woken c) -> woken (upd (h_ctxs h) j c i)).
  { intros j c X. rewrite upd_eq. destruct (Nat.eqb_spec i j); auto. }
  assert (K' : forall j c, same_s (h_ctxs h j) c -> woken (upd (h_ctxs h) j c i)).
  { intros j c X. apply K. intros ->. eapply woken_same; eauto. }
  destruct o; try (left; cbn [atom] in A; try discriminate A; op_unfold A; brki A; try discriminate A; inversion A; subst; hs;
    first [exact W|apply K'; repeat split]; fail).
  - left. cbn [atom] in A. destruct (do_reg h t _) as [h1 j] eqn:D. inversion A; subst; clear A.
    destruct (do_reg_cases h t (match o with Some n => n | None => t end) RI) as [(k & E & I & D')|(E & D')];
      rewrite D' in D; inversion D; subst; hs; auto; [apply K'; repeat split|]. apply K. lia.
  - left. cbn [atom] in A. brki A; try discriminate A; inversion A; subst; hs. apply K. intros _. apply woken_push.
  - left. cbn [atom] in A. brki A; try discriminate A; inversion A; subst; hs. apply K. intros _. apply woken_exit.
  - destruct (Nat.eq_dec i0 i) as [->|N].
    + cbn [atom] in A. op_unfold A. brki A; try discriminate A; inversion A; subst; hs; auto;
      right; left; f_equal; now apply Nat.eqb_eq.
    + left. cbn [atom] in A. op_unfold A. brki A; try discriminate A; inversion A; subst; hs; auto; apply K; congruence.
  - destruct (Nat.eq_dec i0 i) as [->|N].
    + cbn [atom] in A. op_unfold A. brki A; try discriminate A; inversion A; subst; hs; auto;
      right; left; f_equal; now apply Nat.eqb_eq.
    + left. cbn [atom] in A. op_unfold A. brki A; try discriminate A; inversion A; subst; hs; auto; apply K; congruence.
  - destruct (Nat.eq_dec i0 i) as [->|N]; [eauto|].
    left. cbn [atom] in A. op_unfold A. brki A; try discriminate A; inversion A; subst; hs; auto; apply K; congruence.
Qed.

Lemma lstep_woken : forall h t pre h' n i, reg_inv h -> lstep h t pre h' n -> 0 < i <= h_idgen h ->
  woken (h_ctxs h i) -> woken (h_ctxs h' i) \/ h_loc h t = Some i \/ exists dl k, pre = [FSleep i dl k].
Proof.
  intros h t pre h' n i RI L G W. lstep_cases L; try (now left);
    (destruct (atom_woken _ _ _ _ _ _ _ i RI A G W) as [Y|[Y|(dl' & Y)]]; auto; try contradiction).
  destruct Y as [-> ->]. eauto.
Qed.

(** A thread blocked in wait or wait_for on its context [i]. *)
Definition top_sleep (h : heap) (t : tid) (f : frame) : Prop :=
  match f with FSleep i _ _ => h_loc h t = Some i /\ woken (h_ctxs h i) | _ => True end.
Theorem sleep_woken : forall s, reachable s -> forall t f r, stk s t = f :: r -> top_sleep (hp s) t f.
Proof.
  apply (top_rule reachable); [auto|..].
  - intros h t [] U; try exact I; discriminate.
  - intros s d u f _ X. exact X.
  - intros h t []; exact I.
  - intros s t pre rest h n u f r R U E L N Eu X. destruct f; try exact I. destruct X as [X W].
    assert (Oc : own (hp s) c u) by (now apply loc_own_reachable).
    split; [now rewrite (loc_other s t pre h n u _ r R L N Eu)|].
    destruct (lstep_woken _ _ _ _ _ _ (reg_inv_reachable s R) L (proj1 Oc) W) as [Y|[Y|(dl' & k' & Y)]]; auto; exfalso; apply N; (eapply own_fun; [exact Oc|]).
    + now apply loc_own_reachable.
    + eapply (frame_own s t (FSleep c dl' k')); auto. rewrite E, Y. now left.
  - intros s t pre rest h n f R U E L X Hd. destruct f; try exact I. rename c into i0.
    lstep_cases L; hdk Hd. injection Hd as -> <- <-.
    cbn [atom] in A. op_unfold A. brki A; try discriminate A. inversion A; subst. cbn [top_sleep]. hs.
    match goal with H : take_task _ = (None, _) |- _ => apply take_none in H as [-> P] end.
    apply Nat.eqb_eq in Heqb0. subst. rewrite upd_same. split; [auto|]. split; [reflexivity|]. cbn. 
    split; [discriminate|]. intros [Y|Y]; [|congruence]. now elim Y.
Qed.
