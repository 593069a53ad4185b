(** * InvRefs: the references to thread contexts held by local variables. *)
From Verif Require Import Types Core State Ops Code Machine Base Spec Rules InvCtx InvStack.

(** Number of shared_ptr copies of context [i] owned by a frame. *)
Definition refw (i : id) (f : frame) : nat :=
  match f with
  | FSetLoc j | FRel j | FNExit1 j | FCount1 j | FPush j _ _ => if j =? i then 1 else 0
  | _ => 0
  end.
Definition refs_of (i : id) (fs : list frame) : nat := list_sum (map (refw i) fs).
Definition cnt (t : tid) (l : list tid) : nat := count_occ Nat.eq_dec l t.

Lemma refs_of_app : forall i a b, refs_of i (a ++ b) = refs_of i a + refs_of i b.
Proof. intros. unfold refs_of. now rewrite map_app, list_sum_app. Qed.

(** Effect of an operation on the references. *)
Definition refs_same (h h' : heap) : Prop := forall j, cx_refs (h_ctxs h' j) = cx_refs (h_ctxs h j).
Definition refs_plus (h h' : heap) (t : tid) (i : id) : Prop :=
  forall j, cx_refs (h_ctxs h' j) = if j =? i then t :: cx_refs (h_ctxs h j) else cx_refs (h_ctxs h j).

Lemma refs_same_upd : forall h i c, cx_refs c = cx_refs (h_ctxs h i) -> refs_same h (upd_ctx h i c).
Proof. intros h i c E j. hs. rewrite upd_eq. destruct (Nat.eqb_spec j i); subst; auto. Qed.
Lemma refs_take : forall c c' x, take_task c = (x, c') -> cx_refs c' = cx_refs c.
Proof.
  intros c c' [k|] H; [apply take_some in H as (_ & S & _); apply S|apply take_none in H as [-> _]; auto].
Qed.

Lemma atom_refs : forall h t T (o : op T) inp h' x, reg_inv h -> atom h t o inp = AOk h' x ->
  match o in op T return T -> Prop with
  | OReg _ => fun i => refs_plus h h' t i
  | OFind i => fun b => if b then refs_plus h h' t i else refs_same h h'
  | OUnreg i => fun b => if b then refs_plus h h' t i else refs_same h h'
  | ORelease i => fun _ => forall j, cx_refs (h_ctxs h' j) =
                            if j =? i then rem1 t (cx_refs (h_ctxs h j)) else cx_refs (h_ctxs h j)
  | _ => fun _ => refs_same h h'
  end x.
Proof.
  intros h t T o inp h' x R H.
  destruct o; cbn [atom] in H; try discriminate H;
    try solve [op_unfold H; brki H; try discriminate H; inversion H; subst; intros jj; hs; try reflexivity;
               rewrite upd_eq; match goal with |- context [jj =? ?i] => destruct (Nat.eqb_spec jj i) end; subst; auto;
               match goal with T : take_task _ = _ |- _ => apply refs_take in T; exact T end].
  destruct (do_reg h t _) as [h1 i] eqn:D. inversion H; subst; clear H.
    destruct (do_reg_cases h t (match o with Some n => n | None => t end) R) as [(i & E & I & D')|(E & D')];
      rewrite D' in D; inversion D; subst; intros j; hs; rewrite upd_eq.
    + destruct (Nat.eqb_spec j x); subst; auto.
    + destruct (Nat.eqb_spec j (S (h_idgen h))); subst; auto. now rewrite (ri_fresh h R) by lia.
Qed.

Lemma cnt_rem1 : forall t u l, cnt u (rem1 t l) = if u =? t then Nat.pred (cnt u l) else cnt u l.
Proof.
  intros t u. unfold cnt. induction l as [|a l IH]; cbn.
  - now destruct (u =? t).
  - destruct (Nat.eqb_spec a t) as [->|N].
    + destruct (Nat.eq_dec t u) as [->|N2].
      * now rewrite Nat.eqb_refl.
      * destruct (Nat.eqb_spec u t); congruence.
    + cbn [count_occ]. destruct (Nat.eq_dec a u) as [->|N2]; rewrite IH; destruct (Nat.eqb_spec u t); try contradiction; auto.
Qed.
Lemma cnt_cons : forall t u l, cnt u (t :: l) = (if t =? u then 1 else 0) + cnt u l.
Proof. intros. unfold cnt. cbn. destruct (Nat.eq_dec t u), (Nat.eqb_spec t u); try contradiction; auto. Qed.

(** What a move does to the references of context [i]. *)
Definition refs_bal (h h' : heap) (t : tid) (i : id) (a b : nat) : Prop :=
  (forall u, u <> t -> cnt u (cx_refs (h_ctxs h' i)) = cnt u (cx_refs (h_ctxs h i))) /\
  (a <= cnt t (cx_refs (h_ctxs h i)) -> b + cnt t (cx_refs (h_ctxs h i)) = a + cnt t (cx_refs (h_ctxs h' i))).

Lemma bal_same : forall h h' t i, refs_same h h' -> refs_bal h h' t i 0 0.
Proof. intros h h' t i S. unfold refs_bal. rewrite S. auto. Qed.
Lemma bal_same' : forall h h' t i a, refs_same h h' -> refs_bal h h' t i a a.
Proof. intros h h' t i a S. unfold refs_bal. rewrite S. auto. Qed.
Lemma bal_plus : forall h h' t i j, refs_plus h h' t j -> refs_bal h h' t i 0 (if j =? i then 1 else 0).
Proof.
  intros h h' t i j S. unfold refs_bal. rewrite S. rewrite (Nat.eqb_sym j i).
  destruct (Nat.eqb_spec i j); auto. rewrite !cnt_cons, Nat.eqb_refl. split; [|lia].
  intros. rewrite cnt_cons. destruct (Nat.eqb_spec t u); [congruence|lia].
Qed.

Lemma refs_destroy : forall i ks, refs_of i (destroy ks) = 0.
Proof. intros i []; reflexivity. Qed.
Lemma refs_lresume : forall i c ok b, refs_of i (lresume c ok b) = 0.
Proof. intros i [] ok []; reflexivity. Qed.
Lemma refs_wresume : forall i k b, refs_of i (wresume k b) = 0.
Proof. intros i [] b; reflexivity. Qed.
Lemma refs_gresume : forall i k b, refs_of i (gresume k b) = 0.
Proof. intros i [] b; reflexivity. Qed.
Lemma refs_semresume : forall i k b, refs_of i (semresume k b) = 0.
Proof. intros i [| |p [d|] g|] []; reflexivity. Qed.
Lemma refs_wafter : forall i w a, refs_of i (wresume_after w a) = 0.
Proof. intros i w []; reflexivity. Qed.
Lemma refs_pact : forall i o pl a, refs_of i (pact_frames o pl a) = 0.
Proof. intros i o pl []; reflexivity. Qed.
Lemma refs_sp : forall j n i k, refs_of j (spresume n i k) = if i =? j then 1 else 0.
Proof. intros j n i []; unfold refs_of; cbn; lia. Qed.
Lemma refs_ufin : forall i f v, refs_of i (ufin_ret f v) = 0.
Proof. intros i [] v; reflexivity. Qed.
Lemma refs_api : forall i c, refs_of i (api_frames c) = 0.
Proof. intros i []; reflexivity. Qed.
Lemma refs_tframes : forall i b, refs_of i (tframes b) = 0.
Proof. intros i []; reflexivity. Qed.
Lemma refs_cons : forall i f l, refs_of i (f :: l) = refw i f + refs_of i l.
Proof. reflexivity. Qed.

Ltac rfs := cbn [next_frames run_one app]; rewrite ?refs_of_app, ?refs_cons, ?refs_destroy, ?refs_lresume, ?refs_wresume, ?refs_gresume,
  ?refs_semresume, ?refs_wafter, ?refs_pact, ?refs_sp, ?refs_ufin, ?refs_api; cbn [refw refs_of list_sum map fold_right];
  rewrite ?Nat.add_0_r; cbn [plus Nat.add].

Lemma lstep_refs : forall h t pre h' n i, reg_inv h -> lstep h t pre h' n ->
  refs_bal h h' t i (refs_of i pre) (refs_of i (next_frames n)).
Proof.
  intros h t pre h' n i R L.
  lstep_cases L;
    try (rfs; apply bal_same; intros j; reflexivity).
  all: pose proof (atom_refs _ _ _ _ _ _ _ R A) as B; cbn beta iota in B; clear A;
    try solve [rfs; apply bal_same'; exact B];
    try solve [repeat match goal with |- context [next_frames (Go (match ?x with _ => _ end))] => destruct x end;
               rfs; repeat match goal with |- context [refs_of _ (match ?x with _ => _ end)] => destruct x; rfs end;
               try apply bal_same'; try apply bal_plus; exact B].
  rfs. unfold refs_bal. rewrite B. rewrite (Nat.eqb_sym i0 i). destruct (Nat.eqb_spec i i0).
  - split.
    + intros u N. rewrite cnt_rem1. destruct (Nat.eqb_spec u t); [contradiction|auto].
    + intros L. rewrite cnt_rem1, Nat.eqb_refl. lia.
  - split; auto.
Qed.

Lemma lstep_spawned : forall h t pre h' n c cfs, lstep h t pre h' n -> spawned n = Some (c, cfs) ->
  fresh_thread (h_tst h c) = true /\ c <> t /\ exists b, cfs = tframes b.
Proof.
  intros h t pre h' n c cfs L S.
  apply lstep_tst in L as [(b & k & inp & -> & F & N & T & ->)|[(-> & -> & T & R)|((fs & ->) & T & H)]];
    cbn in S; try discriminate. injection S as <- <-. eauto.
Qed.

Definition ref_inv (s : st) : Prop :=
  forall t i, refs_of i (stk s t) = cnt t (cx_refs (h_ctxs (hp s) i)).

Theorem ref_inv_reachable : forall s, reachable s -> ref_inv s.
Proof.
  apply reachable_ind'.
  - intros t i. cbn. destruct t; reflexivity.
  - intros s s' R IH U Tr. destruct Tr as [d|t pre rest u E L|t pre rest h n E L]; [exact IH|exact IH|].
    intros u i. cbn [hp stk]. pose proof (IH u i) as IHu. pose proof (IH t i) as IHt.
    rewrite E, refs_of_app in IHt.
    destruct (lstep_refs _ _ _ _ _ i (reg_inv_reachable s R) L) as [O S].
    assert (S' := S ltac:(lia)).
    destruct n as [fs|c cfs fs]; unfold set_next; cbn [next_frames] in *.
    + destruct (Nat.eq_dec u t) as [->|N].
      * rewrite upd_same, refs_of_app. lia.
      * rewrite upd_other, O by auto. exact IHu.
    + destruct (lstep_spawned _ _ _ _ _ c cfs L eq_refl) as (F & Nc & b & ->).
      destruct (Nat.eq_dec u t) as [->|N].
      * rewrite upd_same, refs_of_app. lia.
      * rewrite upd_other, O by auto. destruct (Nat.eq_dec u c) as [->|N'].
        -- rewrite upd_same, refs_tframes, <- IHu, fresh_empty; auto.
        -- rewrite upd_other by auto. exact IHu.
Qed.

(** A frame that holds a reference keeps the context alive. *)
Lemma held_alive : forall s t f i, reachable s -> In f (stk s t) -> 0 < refw i f -> alive (hp s) i = true.
Proof.
  intros s t f i R I W. pose proof (ref_inv_reachable s R t i) as E.
  assert (0 < refs_of i (stk s t)).
  { clear E. induction (stk s t) as [|g l IH]; [contradiction|]. rewrite refs_cons.
    destruct I as [->|I]; [lia|]. specialize (IH I). lia. }
  unfold alive. destruct (cx_refs (h_ctxs (hp s) i)); [cbn in E; lia|]. apply orb_true_r.
Qed.
