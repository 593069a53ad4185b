(** * OwnProm: every shared state that is not ready has exactly one owner. *)
From Verif Require Import Types Core State Ops Code Machine Base Spec SpecOwn Rules Events InvCtx InvBound InvStack InvRefs Contract Count Replay ReplayObj InvCv Own OwnRefs.
Local Open Scope Z_scope.

Lemma tw_has : forall q k, 0 < tw zero (one q) k -> has q k = true.
Proof.
  intros q. fix IH 1. intros k. destruct k; cbn [tw has]; try lia. unfold one at 1. destruct (Nat.eqb_spec p q); [reflexivity|].
  intros P. cbn [orb]. destruct b; try (unfold zero in P; lia). apply IH. lia.
Qed.
Lemma sum_exists : forall A (w : A -> Z) (p : A -> bool) l, (forall x, 0 <= w x) -> (forall x, 0 < w x -> p x = true) -> 0 < sumf w l -> existsb p l = true.
Proof. intros A w p l N H P. apply sumf_pos in P as (x & J & P); auto. apply existsb_exists. eauto. Qed.
Lemma zero_nonneg : forall n, 0 <= zero n.
Proof. intros. unfold zero. lia. Qed.
Notation O1 q := (one q) (only parsing).
Lemma cbw_has : forall q cb, 0 < cbw (one q) zero cb -> has_cb q cb = true.
Proof. intros q cb P. now apply tw_has. Qed.
Lemma one_pos : forall q p, 0 < one q p -> (p =? q)%nat = true.
Proof. intros q p. unfold one. destruct (p =? q)%nat; auto. lia. Qed.
Lemma dw_has : forall q d, 0 < dw (one q) zero d -> has_item q d = true.
Proof.
  intros q [k|b|p|pr|w]; cbn [dw has_item]; auto using tw_has, one_pos; try (unfold zero; lia).
  destruct b; cbn [bw]; try (unfold zero; lia). apply tw_has.
Qed.
Lemma or_pos : forall a b x y, 0 <= a -> 0 <= b -> 0 < a + b -> (0 < a -> x = true) -> (0 < b -> y = true) -> x || y = true.
Proof. intros a b x y Ha Hb P X Y. destruct (Z.eq_dec a 0); [rewrite Y by lia; apply orb_true_r|rewrite X by lia; reflexivity]. Qed.
Lemma tw_nn : forall q k, 0 <= tw zero (one q) k.
Proof. intros. apply tw_nonneg; auto using zero_nonneg, one_nonneg. Qed.
Lemma cbw_nn : forall q k, 0 <= cbw (one q) zero k.
Proof. intros. apply tw_nn. Qed.
Lemma lw_has : forall q c, 0 < lw (one q) (one q) zero c -> has_lk q c = true.
Proof.
  intros q []; cbn [lw has_lk]; try (unfold zero; lia). intros P.
  eapply or_pos; [| |exact P| |]; eauto using sumf_nonneg, cbw_nn, tw_nn.
  all: intros P'; eapply sum_exists; [|..|exact P']; eauto using cbw_nn, tw_nn, cbw_has, tw_has.
Qed.
Lemma lw_nn : forall q c, 0 <= lw (one q) (one q) zero c.
Proof. intros. apply lw_nonneg; auto using one_nonneg, zero_nonneg. Qed.
Lemma fw_has : forall q f, 0 < fw (one q) (one q) (one q) zero f -> frame_has q f = true.
Proof.
  intros q f. destruct f; cbn [fw frame_has]; unfold rn; try lia; auto using tw_has, one_pos, cbw_has.
  all: try (destruct fin; lia).
  all: try (unfold zero; lia).
  all: try (destruct a; unfold zero; lia).
  all: try (intros P; eapply or_pos; [| |exact P| |]; auto using lw_nn, tw_nn, cbw_nn, tw_has, lw_has, one_nonneg, one_pos; fail).
  all: try (intros P; eapply sum_exists; [|..|exact P]; auto using cbw_nn, cbw_has; fail).
  - intros P. eapply sum_exists; [|apply dw_has|exact P]. intros. apply dw_nonneg; auto using one_nonneg, zero_nonneg.
  - intros P. eapply or_pos; [| |exact P| |]; auto using sumf_nonneg, cbw_nn, tw_nn.
    all: intros P'; eapply sum_exists; [|..|exact P']; eauto using cbw_nn, tw_nn, cbw_has, tw_has.
  - intros P. eapply or_pos; [| |exact P| |]; auto using lw_nn, cbw_nn, cbw_has, lw_has.
  - destruct x; cbn; [apply one_pos|lia].
Qed.

(** ** Number of shared states *)
Definition made (q : sid) (h : heap) : Z := if (q <? h_nfs h)%nat then 1 else 0.
Lemma atom_nfs : forall h t T (o : op T) inp h' x, atom h t o inp = AOk h' x ->
  h_nfs h' = match o with ONewState _ _ | OWNew _ _ => S (h_nfs h) | _ => h_nfs h end.
Proof. intros h t T o inp h' x At. destruct o; try discriminate At; atom_split At; reflexivity. Qed.
Lemma made_S : forall q n, (if (q <? S n)%nat then 1 else 0) = (if (q <? n)%nat then 1 else 0) + one q n.
Proof. intros q n. unfold one. destruct (Nat.ltb_spec q (S n)), (Nat.ltb_spec q n), (Nat.eqb_spec n q); lia. Qed.
Definition loses (q : sid) (h : heap) (pre : list frame) : Prop :=
  match pre with
  | [FPromDtor p] | [FMkReady1 p _] => p = q
  | [FPAssign1 d _] => h_prms h d = Some q
  | _ => False
  end.
Lemma gain_own : forall q h t pre h' n, lstep h t pre h' n ->
  (forall w kd i idx u p r, In (FWThen w kd i idx u p r) pre -> w_refs (h_wcs h w) <> 0%nat) ->
  made q h' = made q h + gain (one q) (one q) (one q) zero h pre \/
  (made q h' = made q h /\ gain (one q) (one q) (one q) zero h pre = -1 /\ loses q h pre).
Proof.
  intros q h t pre h' n L F. unfold made.
  lstep_cases L; try (left; cbn [gain]; hs; lia).
  all: match goal with A : atom _ _ _ _ = AOk _ _ |- _ => pose proof (atom_nfs _ _ _ _ _ _ _ A) as D end;
    cbn iota in D; rewrite D; rewrite ?made_S; cbn [gain loses].
  all: try (left; unfold zero; lia).
  all: try (destruct fin; left; lia).
  - unfold one. destruct (Nat.eqb_spec p q); [right|left]; lia.
  - destruct (h_prms h d) as [p|]; cbn [ow]; [|left; lia]. unfold one. destruct (Nat.eqb_spec p q); [subst; right; auto|left; lia].
  - unfold one. destruct (Nat.eqb_spec p q); [right|left]; lia.
  - left. specialize (F _ _ _ _ _ _ _ (or_introl eq_refl)). destruct (Nat.eqb_spec (w_refs (h_wcs h w)) 0); [contradiction|unfold zero; lia].
Qed.

(** ** States without owner *)
Definition gone (q : sid) (s : st) : Prop := is_ready q (trace s) \/ being_set q s \/ overwritten q (trace s).
Lemma ready_app : forall q tr l, is_ready q tr -> is_ready q (tr ++ l).
Proof.
  intros q tr l H. induction l as [|e l IH] using rev_ind; [now rewrite app_nil_r|].
  rewrite app_assoc. unfold is_ready, outcome_of in *. rewrite latest_snoc. destruct e; auto. destruct (p =? q)%nat; auto. discriminate.
Qed.
Lemma overwritten_app : forall q tr l, overwritten q tr -> overwritten q (tr ++ l).
Proof.
  intros q tr l (a & t & d & sr & x & b & -> & H). exists a, t, d, sr, x, (b ++ l). split; auto.
  rewrite <- app_assoc. reflexivity.
Qed.
Definition asg (tr : list event) (t : tid) (f : frame) : Prop :=
  match f with
  | FPAssign d sr => In (EvCall t (APAssign d sr)) tr
  | FPAssign1 d _ => exists sr, In (EvCall t (APAssign d sr)) tr
  | _ => True
  end.
Lemma asg_app : forall tr l t f, asg tr t f -> asg (tr ++ l) t f.
Proof. intros tr l t f. destruct f; cbn; auto; [intros H|intros [sr H]; exists sr]; apply in_or_app; auto. Qed.
Theorem asg_reachable : forall s, reachable s -> forall t, Forall (asg (trace s) t) (stk s t).
Proof.
  apply (frame_rule reachable (fun h => asg (tr_of h))); try exact I; auto.
  - intros s d u f R _ H. unfold tr_of in *. hs. cbn [rev]. now apply asg_app.
  - intros s t pre rest h n u f R _ E L _ _ H. destruct (lstep_tr' _ _ _ _ _ L) as [l ->]. now apply asg_app.
  - intros s t pre rest h n R E L Fp _. destruct (lstep_tr' _ _ _ _ _ L) as [l Et]. rewrite Et.
    assert (Fp' : Forall (asg (trace s ++ l) t) pre) by (eapply Forall_impl; [|exact Fp]; intros; now apply asg_app). clear Fp.
    lstep_cases L; (split; [|try exact I; cbn [spawned]; try (fl_; exact I)]); cbn [next_frames];
      inversion Fp' as [|? ? Fp1 Fp2]; subst; fl_; try exact I; cbn [asg] in *; eauto.
    rewrite <- Et. unfold tr_of. hs. cbn [rev]. apply in_or_app. right. now left.
Qed.

Lemma ready_iff : forall s q, reachable s -> fs_ready (h_fsts (hp s) q) = true <-> is_ready q (trace s).
Proof.
  intros s q R. rewrite (replay_ready q s R). unfold is_ready. destruct (outcome_of q (trace s)); split; congruence.
Qed.
Lemma next_own : forall (k : tid -> list frame) t n rest, set_next k t n rest t = next_frames n ++ rest.
Proof. intros. destruct n; cbn; now rewrite upd_same. Qed.
Lemma next_other : forall s t pre rest h n u f, reachable s -> lstep (hp s) t pre h n -> u <> t -> In f (stk s u) -> In f (set_next (stk s) t n rest u).
Proof.
  intros s t pre rest h n u f R L N J. destruct n as [fs|c cfs fs]; cbn [set_next]; rewrite upd_other by auto; auto.
  destruct (lstep_spawned _ _ _ _ _ _ _ L eq_refl) as (F & _ & _). destruct (Nat.eq_dec u c) as [->|Nc]; [|now rewrite upd_other].
  rewrite (fresh_empty s c R F) in J. contradiction.
Qed.
Lemma gone_step : forall q s t pre rest h n, reachable s -> reachable (mkSt h (set_next (stk s) t n rest) None) ->
  stk s t = pre ++ rest -> lstep (hp s) t pre h n ->
  gone q s \/ loses q (hp s) pre -> gone q (mkSt h (set_next (stk s) t n rest) None).
Proof.
  intros q s t pre rest h n R R' E L G. set (s' := mkSt h (set_next (stk s) t n rest) None) in *.
  destruct (lstep_tr' _ _ _ _ _ L) as [l Et]. assert (Et' : trace s' = trace s ++ l) by exact Et.
  assert (Own : stk s' t = next_frames n ++ rest) by apply next_own.
  assert (Rd : fs_ready (h_fsts h q) = true -> gone q s') by (intros; left; now apply ready_iff).
  assert (Sets : forall f, In f pre -> match f with FSet p _ | FSet1 p _ => p = q | _ => False end -> gone q s').
  { intros f J M. destruct f; try contradiction; subst p.
    - right. left. exists t, (FSet1 q o). split; auto. rewrite Own. apply in_or_app. left.
      lstep_cases L; repeat (destruct J as [J|J]; try discriminate J); try contradiction. injection J as -> ->. now left.
    - apply Rd.
      lstep_cases L; repeat (destruct J as [J|J]; try discriminate J); try contradiction. injection J as -> ->. cbn [atom] in A.
      destruct (fs_ready (h_fsts (hp s) q)) eqn:Q; [injection A as <- <-; exact Q|].
      destruct o; cbn in A; injection A as <- <-; hs; rewrite upd_same; reflexivity. }
  destruct G as [[G|[(u & f & J & M)|G]]|G].
  - left. rewrite Et'. now apply ready_app.
  - destruct (Nat.eq_dec u t) as [->|Nu].
    + rewrite E in J. apply in_app_iff in J as [J|J]; [eauto|]. right. left. exists t, f. split; auto. rewrite Own. apply in_or_app; auto.
    + right. left. exists u, f. split; auto. eapply next_other; eauto.
  - right. right. rewrite Et'. now apply overwritten_app.
  - assert (As := asg_reachable s R t). rewrite E in As. clear Sets. lstep_cases L; cbn [loses] in G; try contradiction; subst.
    + cbn [atom] in A. injection A as <- <-. destruct (fs_ready (h_fsts (hp s) q)) eqn:Q; auto.
      right. left. exists t, (FSet q (OExn XBroken)). split; auto. rewrite Own. now left.
    + right. right. inversion As as [|? ? As0 _]. subst. cbn [asg] in As0. destruct As0 as [sr As1].
      cbn [atom] in A. brki A; try discriminate A; injection A as <- <-.
      exists (trace s), t, d, sr, x, []. split; [|split; auto; now rewrite <- replay_prms].
      unfold s', trace, tr_of. hs. reflexivity.
    + right. left. exists t, (FSet q o). split; auto. rewrite Own. now left.
Qed.
Lemma made_mono : forall q h t pre h' n, lstep h t pre h' n -> made q h <= made q h'.
Proof.
  intros q h t pre h' n L. unfold made.
  assert (h_nfs h <= h_nfs h')%nat as M.
  { lstep_cases L; hs; auto; match goal with A : atom _ _ _ _ = AOk _ _ |- _ => rewrite (atom_nfs _ _ _ _ _ _ _ A) end; auto. }
  destruct (Nat.ltb_spec q (h_nfs h)), (Nat.ltb_spec q (h_nfs h')); lia.
Qed.
Theorem own_reachable : forall s, reachable s -> forall q, exists z, (exists B0, forall B, (B0 <= B)%nat -> total (one q) (one q) (one q) zero B s = z) /\
  (z = made q (hp s) \/ (z = 0 /\ made q (hp s) = 1 /\ gone q s)).
Proof.
  apply (reachable_ind'' (fun s => forall q, exists z, (exists B0, forall B, (B0 <= B)%nat -> total (one q) (one q) (one q) zero B s = z) /\
    (z = made q (hp s) \/ (z = 0 /\ made q (hp s) = 1 /\ gone q s)))).
  - intros q. exists 0. split; [|now left]. exists 0%nat. intros B _. unfold total, hw, sumN.
    rewrite !sumf_zero; auto. intros t _. cbn. destruct t; reflexivity.
  - intros s s' R R' IH U Tr q. destruct Tr as [d0|t pre rest u E L|t pre rest h n E L].
    + destruct (IH q) as (z & T & G). exists z. split; [exact T|]. destruct G as [G|(Z & M & G)]; [left; exact G|right].
      repeat split; auto. destruct G as [G|[G|G]]; [left|right; left; exact G|right; right]; unfold trace in *; cbn [hp]; unfold tr_of in *; hs; cbn [rev];
      [now apply ready_app|now apply overwritten_app].
    + destruct (IH q) as (z & T & G). exists z. split; [exact T|exact G].
    + destruct (IH q) as (z & (B1 & T) & G). cbn [hp].
      destruct (lstep_total (one q) (one q) (one q) zero (fun p => Z.le_refl _) s t pre rest h n R E L) as (d & B2 & D & _ & G').
      specialize (G' (fun p => eq_refl)). exists (z + d). split; [exists (B1 + B2)%nat; intros B HB; rewrite D, T by lia; reflexivity|].
      assert (F : forall w kd i idx u p r, In (FWThen w kd i idx u p r) pre -> w_refs (h_wcs (hp s) w) <> 0%nat).
      { intros w kd i idx u p r J. apply (wrefs_frame s t (FWThen w kd i idx u p r)); auto; [rewrite E; apply in_or_app; auto|].
        cbn [fw]. rewrite one_same. unfold zero. lia. }
      destruct (gain_own q _ _ _ _ _ L F) as [X|(X & Y & Lo)].
      * destruct G as [G|(Z & M & G)]; [left; lia|]. right. assert (made q h = 0 \/ made q h = 1) by (unfold made; destruct (_ <? _)%nat; auto).
        pose proof (gone_step q s t pre rest h n R R' E L (or_introl G)). pose proof (made_mono q _ _ _ _ _ L). repeat split; auto; lia.
      * pose proof (gone_step q s t pre rest h n R R' E L (or_intror Lo)). right.
        assert (0 <= z + d).
        { rewrite <- (T (B1+B2)%nat), <- (D (B1 + B2)%nat) by lia. exact (total_nonneg _ _ _ _ (one_nonneg q) (one_nonneg q) (fun _ => Z.le_refl _) zero_nonneg _ _). }
        assert (made q h = 0 \/ made q h = 1) by (unfold made; destruct (_ <? _)%nat; auto).
        destruct G as [G|(Z & M & G)]; [|exfalso; lia]. repeat split; auto; lia.
Qed.

Lemma created_snoc : forall q l e, created q (l ++ [e]) <-> created q l \/ match e with EvState _ p _ _ => p = q | EvWhen _ _ _ p _ => p = q | _ => False end.
Proof.
  intros q l e. unfold created. setoid_rewrite in_app_iff. cbn [In]. split.
  - intros [(a & b & c & [H|[H|[]]])|(a & a' & a'' & b & [H|[H|[]]])]; eauto 10; subst e; auto.
  - intros [[(a & b & c & H)|(a & a' & a'' & b & H)]|H]; [left|right|]; eauto 10. destruct e; try contradiction; subst; [right|left]; eauto 10.
Qed.
Lemma nfs_created : forall q s, reachable s -> created q (trace s) <-> (q < h_nfs (hp s))%nat.
Proof.
  intros q. apply (replay_rule (fun h l => created q l <-> (q < h_nfs h)%nat)).
  - cbn. split; [intros [(? & ? & ? & [])|(? & ? & ? & ? & [])]|lia].
  - intros h l d H. rewrite created_snoc. hs. tauto.
  - intros h l e H Ok. rewrite created_snoc. hs. destruct e; try contradiction Ok; tauto.
  - intros h t T o inp h' x G O IH At N. rewrite (atom_nfs _ _ _ _ _ _ _ At). destruct o; try contradiction; cbn [op_event] in *; atom_split At;
      rewrite ?created_snoc; try tauto; rewrite ?IH; try lia.
Qed.
Lemma is_sid_pos : forall q x, 0 < one q x -> x = q.
Proof. intros q x. unfold one. destruct (Nat.eqb_spec x q); [auto|lia]. Qed.
Theorem owner_exists : forall s q, reachable s -> created q (trace s) ->
  is_ready q (trace s) \/ being_set q s \/ overwritten q (trace s) \/ owned q s.
Proof.
  intros s q R C. apply (nfs_created q s R) in C.
  destruct (own_reachable s R q) as (z & (B & T) & G). unfold made in G. destruct (Nat.ltb_spec q (h_nfs (hp s))); [|lia].
  destruct G as [G|(_ & _ & [G|[G|G]])]; auto. right. right. right. subst z. specialize (T B (le_n _)).
  assert (P : 0 < total (one q) (one q) (one q) zero B s) by lia.
  apply (total_pos _ _ _ _ (one_nonneg q) (one_nonneg q) (fun _ => Z.le_refl _) zero_nonneg) in P.
  unfold owned. destruct P as [(t & f & J & P)|[(i & k & A & J & P)|[(p & cb & J & P)|[(pr & q' & J & P)|[(w & J & P)|(pl & [j b] & J & P)]]]]].
  - do 5 right. exists t, f. split; auto. now apply fw_has.
  - left. exists i, k. split; [|split]; auto. now apply tw_has.
  - right. left. exists p, cb. split; auto. now apply tw_has.
  - right. right. left. apply is_sid_pos in P as ->. eauto.
  - right. right. right. left. apply is_sid_pos in P. eauto.
  - do 4 right. left. exists pl, j, b. split; auto. now apply tw_has.
Qed.
Lemma overwritten_promised : forall q tr, overwritten q tr -> promised q tr.
Proof.
  intros q tr (a & t & d & sr & x & b & -> & _ & P). unfold promised.
  assert (K : exists t pr, In (EvPrm t pr (Some q)) a).
  { clear x b sr. revert P. unfold prom_of. induction a as [|e a IH] using rev_ind; [discriminate|]. rewrite latest_snoc.
    assert (M : (exists t pr, In (EvPrm t pr (Some q)) a) -> exists t pr, In (EvPrm t pr (Some q)) (a ++ [e])).
    { intros (u & pr & H). exists u, pr. apply in_or_app; auto. }
    destruct e; auto. destruct (_ =? _)%nat; auto. intros ->. eexists _, _. apply in_or_app. right. left. reflexivity. }
  destruct K as (u & pr & K). exists u, pr. apply in_or_app; auto.
Qed.
Corollary owner_exists_task : forall s q, reachable s -> created q (trace s) -> ~ promised q (trace s) ->
  is_ready q (trace s) \/ being_set q s \/ owned q s.
Proof. intros s q R C N. destruct (owner_exists s q R C) as [H|[H|[H|H]]]; auto. elim N. now apply overwritten_promised. Qed.
