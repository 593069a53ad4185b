(** * InvLive: who touches a destroyed context. *)
From Verif Require Import Types Core State Ops Code Machine Base Spec SpecApi SpecLive Rules Events InvCtx InvQueue InvStack InvRefs InvEvents InvAff InvTop InvSleep Adj Calls Contract Count InvRun InvCv.

Lemma running_snoc : forall t i tr e, running_tasks t i (tr ++ [e]) =
  match e with
    | EvStart u j _ => if (u =? t) && (j =? i) then (running_tasks t i tr + 1)%Z else running_tasks t i tr
    | EvDone u j | EvAbort u j => if (u =? t) && (j =? i) then (running_tasks t i tr - 1)%Z else running_tasks t i tr
    | _ => running_tasks t i tr end.
Proof. intros. unfold running_tasks. rewrite fold_left_app. reflexivity. Qed.
Lemma running_balance : forall t i tr, running_tasks t i tr = balance (drun i) t tr.
Proof.
  intros t i tr. induction tr as [|e tr IH] using rev_ind; [reflexivity|].
  rewrite running_snoc, balance_snoc, <- IH. unfold by_thread. destruct e; cbn [actor drun]; try (destruct (_ =? _); lia); try lia.
  all: destruct (t0 =? t), (i0 =? i); cbn; lia.
Qed.
Lemma sumf_in : forall (A : Type) (w : A -> Z) l x, (forall y, (0 <= w y)%Z) -> In x l -> (w x <= sumf w l)%Z.
Proof.
  intros A w l x N. induction l as [|y l IH]; intros []; cbn [sumf].
  - subst. pose proof (sumf_nonneg _ w l N). lia.
  - pose proof (IH H). pose proof (N y). lia.
Qed.
Lemma end_running : forall s t i, reachable s -> In (FPoEnd i) (stk s t) -> (0 < running_tasks t i (trace s))%Z.
Proof.
  intros s t i R X. rewrite running_balance, <- run_reachable by auto.
  pose proof (sumf_in _ (wrun i) _ _ (wrun_nonneg i) X). cbn in H. rewrite Nat.eqb_refl in H. lia.
Qed.

Lemma unregd_event : forall s, reachable s -> forall i, 0 < i <= h_idgen (hp s) -> mem i (h_regd (hp s)) = false ->
  exists u, In (EvUnreg u i) (trace s).
Proof.
  intros s R i G M. pose proof (r_inv_reachable s R) as Q.
  pose proof (proj2 (rv_created _ Q i) G) as C. pose proof (rv_regd _ Q) as Rg. change (tr_of (hp s)) with (trace s) in *.
  assert (N : ~ In i (map snd (registered (trace s)))) by (rewrite Rg; intros X; apply mem_In in X; congruence). clear -C N.
  induction (trace s) as [|e tr IH] using rev_ind; [destruct C|].
  rewrite created_snoc in C. rewrite registered_snoc in N.
  assert (D : In i (created_ids tr) -> (forall x, In x (registered tr) -> snd x = i -> In x (reg_step (registered tr) e)) -> exists u, In (EvUnreg u i) (tr ++ [e])).
  { intros X K. destruct IH as [u Y]; [exact X| |exists u; apply in_or_app; auto].
    intros Y. apply N. apply in_map_iff in Y as (x & Ex & Y). apply in_map_iff. exists x. auto. }
  apply in_app_or in C as [C|C].
  - destruct e; try (apply D; [exact C|intros y X _; exact X]).
    + apply D; auto. intros x X _. cbn. destruct fresh; auto. now right.
    + destruct (Nat.eq_dec i i0) as [->|Ni]; [exists t; apply in_or_app; right; now left|].
      apply D; auto. intros x X Ex. cbn. apply filter_In. split; auto. subst i. apply negb_true_iff, Nat.eqb_neq. auto.
  - exfalso. apply N. destruct e; cbn in C; try contradiction. destruct fresh; cbn in C; [|contradiction]. destruct C as [<-|[]]. cbn. now left.
Qed.

Lemma unreg_frame : forall h t pre h' n v0 i, lstep h t pre h' n -> h_tr h' = EvUnreg v0 i :: h_tr h ->
  pre = [FUnreg1 i] /\ v0 = t /\ mem i (h_regd h) = true.
Proof.
  intros h t pre h' n v0 i L X. ev_cases L X.
  cbn [atom] in A. unfold do_unreg in A. destruct (mem _ _) eqn:M in A; inversion A; subst; [|discriminate X]. injection X as <- <-. auto.
Qed.
Lemma unreg_own : forall s, reachable s -> forall u i, In (EvUnreg u i) (trace s) -> own (hp s) i u.
Proof.
  apply (reachable_ind'' (fun s => forall u i, In (EvUnreg u i) (trace s) -> own (hp s) i u)).
  - intros u i [].
  - intros s s' R R' IH U Tr. destruct Tr as [d|t pre rest u E L|t pre rest h n E L].
    + intros u i X. change (In (EvUnreg u i) (trace s ++ [EvTick (Zpos d)])) in X. apply in_app_or in X as [X|[X|[]]]; [|discriminate X]. apply own_tick, IH, X.
    + exact IH.
    + intros u i X. cbn [hp]. unfold trace in X. cbn [hp] in X. destruct (lstep_tr _ _ _ _ _ L) as [Y|[e Y]]; rewrite Y in X.
      * apply (own_lstep s t pre h n R L), IH, X.
      * cbn [rev] in X. apply in_app_or in X as [X|[->|[]]]; [apply (own_lstep s t pre h n R L), IH, X|].
        destruct (unreg_frame _ _ _ _ _ _ _ L Y) as (-> & -> & M).
        assert (Z := unreg_myid s R t i rest E). unfold myid in Z. destruct (h_loc (hp s) t) as [j|] eqn:Lc.
        -- subst j. apply (own_lstep s t _ h n R L). now apply (loc_own_reachable s R).
        -- apply mem_In, (ri_range _ (reg_inv_reachable s R)) in M. unfold invalid_id in Z. lia.
Qed.
(** A context that is no longer registered was unregistered by its own thread. *)
Lemma dead_event : forall s t i, reachable s -> own (hp s) i t -> mem i (h_regd (hp s)) = false -> In (EvUnreg t i) (trace s).
Proof.
  intros s t i R O M. destruct (unregd_event s R i (proj1 O) M) as [u X]. pose proof (unreg_own s R u i X) as O'.
  now rewrite (own_fun _ _ _ _ O O').
Qed.
Lemma alive_back : forall s t pre h n i, reachable s -> lstep (hp s) t pre h n -> 0 < i <= h_idgen (hp s) ->
  alive (hp s) i = false -> alive h i = false.
Proof.
  intros s t pre h n i R L G D. pose proof (reg_inv_reachable s R) as RI.
  pose proof (hstep_view _ _ _ (lstep_hstep _ _ _ _ _ L)) as V.
  destruct (dead_refs _ _ D) as [Rf Nr].
  assert (Q : forall h', (mem i (h_regd h') = true -> mem i (h_regd (hp s)) = true) -> cx_refs (h_ctxs h' i) = [] -> alive h' i = false).
  { intros h' A B. unfold alive. rewrite B. destruct (mem i (h_regd h')); auto. exfalso. apply Nr, mem_In, A. reflexivity. }
  assert (K : forall j c, alive (hp s) j = true -> h_ctxs (upd_ctx (hp s) j c) i = h_ctxs (hp s) i).
  { intros j c Aj. unfold upd_ctx. hs. rewrite upd_other; auto. intros ->. congruence. }
  destruct V; try (apply Q; hs; auto; fail); try (apply Q; [hs; auto|]; unfold take_log; hs; rewrite upd_other; auto; intros ->; congruence).
  - destruct H as (A & B & C & E & F). apply Q; congruence.
  - destruct (do_reg_cases (hp s) t n0 RI) as [(j & E & I & ->)|(E & ->)]; cbn [fst]; cbn zeta; apply Q; hs; auto.
    + rewrite upd_other; auto. intros ->. contradiction.
    + intros M. cbn in M. apply orb_true_iff in M as [M|M]; auto. apply Nat.eqb_eq in M. lia.
    + rewrite upd_other; auto. lia.
  - unfold do_unreg. destruct (mem i0 (h_regd (hp s))) eqn:M; cbn [fst]; apply Q; hs; auto.
    + rewrite mem_rem. intros X. now apply andb_true_iff in X.
    + rewrite upd_other; auto. intros ->. apply Nr. now apply mem_In.
  - apply Q; hs; auto. rewrite upd_other; auto. intros ->. apply Nr. now apply mem_In.
  - apply Q; unfold do_release; cbn zeta; match goal with |- context [if ?b then _ else _] => destruct b end; cbn [fst]; hs; auto; rewrite upd_eq; destruct (Nat.eqb_spec i i0); auto; subst; cbn; now rewrite Rf.
Qed.

(** ** An attached thread whose registration is gone *)
Definition torn (s : st) : Prop := forall t i, h_loc (hp s) t = Some i -> mem i (h_regd (hp s)) = false ->
  (exists r, stk s t = FRel i :: FClearLoc :: r) \/ (exists r, stk s t = FClearLoc :: r) \/ alive (hp s) i = false.
Lemma lstep_loc_own : forall s t pre rest h n i, reachable s -> stk s t = pre ++ rest -> lstep (hp s) t pre h n -> h_loc h t = Some i ->
  pre = [FSetLoc i] \/ h_loc (hp s) t = Some i.
Proof.
  intros s t pre rest h n i R E L Lc.
  destruct L as [c u fin|v u fin|e u fin|inp f h' n Ru|inp e g h' n Ru|x c]; auto.
  - apply code_setloc in Ru as [(j & -> & X)|[X|(v & X)]]; rewrite X in Lc; auto.
    + rewrite upd_same in Lc. injection Lc as ->. auto.
    + rewrite upd_eq in Lc. destruct (t =? v); [discriminate|auto].
  - destruct g; code_cases Ru; apply atom_loc in A as [A|(v & A)]; rewrite A in Lc; auto; rewrite upd_eq in Lc; destruct (t =? v); try discriminate; auto.
Qed.
Theorem torn_reachable : forall s, reachable s -> torn s.
Proof.
  apply (reachable_ind'' torn).
  - intros t i H. discriminate H.
  - intros s s' R R' IH U Tr. destruct Tr as [d|t pre rest u E L|t pre rest h n E L]; [exact IH|exact IH|].
    intros u i. cbn [hp stk]. intros Lc M.
    assert (Lo : u <> t \/ pre <> [FSetLoc i] -> h_loc (hp s) u = Some i).
    { intros C. destruct (Nat.eq_dec u t) as [->|N].
      - destruct C as [C|C]; [congruence|]. destruct (lstep_loc_own s t pre rest h n i R E L Lc); auto. contradiction.
      - rewrite <- (lstep_loc_other _ _ _ _ _ u L N); auto. congruence. }
    destruct (Nat.eq_dec u t) as [->|N].
    + assert (St : set_next (stk s) t n rest t = next_frames n ++ rest) by (unfold set_next; destruct n; now rewrite upd_same).
      rewrite St.
      destruct (lstep_loc_own s t pre rest h n i R E L Lc) as [-> |Ls].
      { assert (X := setloc_reg s R t i rest E). destruct (lstep_regd s t _ rest h n i R E L X) as [Y|[Y _]]; [congruence|discriminate Y]. }
      pose proof (loc_own_reachable s R t i Ls) as [G _].
      destruct (mem i (h_regd (hp s))) eqn:M0.
      * destruct (lstep_regd s t _ rest h n i R E L M0) as [Y|[-> _]]; [congruence|].
        left. inversion L as [| | |inp f h' n' Ru| |]; subst. destruct Ru as (x & A & K). cbn [atom] in A. unfold do_unreg in A. rewrite M0 in A. inversion A; subst. cbn. eauto.
      * destruct (IH t i Ls M0) as [(r & X)|[(r & X)|D]].
        -- rewrite E in X. assert (P : pre = [FRel i] /\ rest = FClearLoc :: r).
           { destruct L; cbn in X; try discriminate X; injection X; intros; subst; auto. }
           destruct P as [-> ->]. right. inversion L as [| | |inp f h' n' Ru| |]; subst. destruct Ru as (x & A & K). cbn [atom] in A. unfold do_release in A.
           match type of A with context [if ?c then _ else _] => destruct c eqn:Al end; inversion A; subst.
           ++ left. cbn. eauto.
           ++ right. exact Al.
        -- rewrite E in X. assert (P : pre = [FClearLoc]) by (destruct L; cbn in X; try discriminate X; injection X; intros; subst; auto).
           subst pre. assert (Z := clear_stays _ _ _ _ _ L (or_introl eq_refl)). congruence.
        -- right. right. exact (alive_back s t pre h n i R L G D).
    + assert (Ls : h_loc (hp s) u = Some i) by auto.
      pose proof (loc_own_reachable s R u i Ls) as O.
      assert (Su : set_next (stk s) t n rest u = stk s u).
      { unfold set_next. destruct n as [fs|c cfs fs]; rewrite ?upd_other; auto. intros ->. pose proof (spawn_loc _ _ _ _ _ _ _ c L eq_refl). congruence. }
      rewrite Su. destruct (mem i (h_regd (hp s))) eqn:M0.
      * destruct (lstep_regd s t _ rest h n i R E L M0) as [Y|[_ Y]]; [congruence|].
        apply (loc_own_reachable s R) in Y. elim N. eapply own_fun; eauto.
      * destruct (IH u i Ls M0) as [X|[X|D]]; auto. right. right. exact (alive_back s t pre h n i R L (proj1 O) D).
Qed.

(** ** Tasks in progress *)
Definition is_clear (f : frame) : bool := match f with FClearLoc => true | _ => false end.
Definition has_clear (l : list frame) : bool := existsb is_clear l.
Fixpoint jst (ok : id -> bool -> Prop) (cl : bool) (l : list frame) : Prop :=
  match l with
  | [] => True
  | f :: r => match f with FPoEnd i => ok i cl | _ => True end /\ jst ok (cl || is_clear f) r
  end.
Lemma jst_app : forall ok a b cl, jst ok cl (a ++ b) <-> jst ok cl a /\ jst ok (cl || has_clear a) b.
Proof.
  intros ok a b. induction a as [|f a IH]; intros cl; cbn [app jst has_clear existsb]; [rewrite orb_false_r; tauto|].
  rewrite IH, <- orb_assoc. fold (has_clear a). tauto.
Qed.
Lemma jst_imp : forall (ok ok' : id -> bool -> Prop) l a b,
  (forall i c, In (FPoEnd i) l -> ok i (a || c) -> ok' i (b || c)) -> jst ok a l -> jst ok' b l.
Proof.
  intros ok ok' l. induction l as [|f l IH]; intros a b H; cbn [jst]; auto. intros [H1 H2]. split.
  - destruct f; auto. specialize (H c false). rewrite !orb_false_r in H. apply H; auto. now left.
  - apply (IH (a || is_clear f)); auto. intros i c X. rewrite <- !orb_assoc. apply H. now right.
Qed.
Lemma jst_in : forall ok l a i, jst ok a l -> In (FPoEnd i) l -> exists c, ok i c.
Proof.
  intros ok l. induction l as [|f l IH]; intros a i H X; [destruct X|]. destruct H as [H1 H2], X as [-> |X]; eauto.
Qed.
Lemma jst_none : forall ok l cl, (forall i, ~ In (FPoEnd i) l) -> jst ok cl l.
Proof.
  intros ok l. induction l as [|f l IH]; intros cl H; cbn; auto. split.
  - destruct f; auto. exfalso. apply (H c). now left.
  - apply IH. intros i X. apply (H i). now right.
Qed.
Definition tok (h : heap) (t : tid) (i : id) (cl : bool) : Prop :=
  left_in_task t i (tr_of h) \/ (h_loc h t = Some i /\ mem i (h_regd h) = true /\ cl = false).

Lemma left_mono : forall t i h h', (tr_of h' = tr_of h \/ exists e, tr_of h' = tr_of h ++ [e]) -> left_in_task t i (tr_of h) -> left_in_task t i (tr_of h').
Proof.
  intros t i h h' [->|[e ->]] (a & b & E & P); [exists a, b; auto|]. exists a, (b ++ [e]). split; auto. now rewrite E, <- app_assoc.
Qed.
Lemma tr_move : forall h t pre h' n, lstep h t pre h' n -> tr_of h' = tr_of h \/ exists e, tr_of h' = tr_of h ++ [e].
Proof. intros h t pre h' n L. unfold tr_of. destruct (lstep_tr _ _ _ _ _ L) as [-> |[e ->]]; cbn [rev]; eauto. Qed.

Definition ne1 (f : frame) : bool := match f with FPoEnd _ | FClearLoc => false | _ => true end.
Definition no_ends (l : list frame) : bool := forallb ne1 l.
Lemma ne_app : forall a b, no_ends (a ++ b) = no_ends a && no_ends b.
Proof. intros. apply forallb_app. Qed.
Lemma ne_destroy : forall ks, no_ends (destroy ks) = true. Proof. destruct ks; reflexivity. Qed.
Lemma ne_lresume : forall c ok b, no_ends (lresume c ok b) = true. Proof. intros [] ok []; reflexivity. Qed.
Lemma ne_wresume : forall k b, no_ends (wresume k b) = true. Proof. intros [] b; reflexivity. Qed.
Lemma ne_clear : forall l, no_ends l = true -> has_clear l = false /\ forall ok cl, jst ok cl l.
Proof.
  induction l as [|f l IH]; cbn; auto. intros H. apply andb_true_iff in H as [H1 H2]. destruct (IH H2) as [A B].
  destruct f; try discriminate H1; cbn; auto.
Qed.
Lemma take_loc : forall h t c T (o : op T) inp h' x, atom h t o inp = AOk h' x ->
  match o, x with OProc j, WTask _ | OTakeSleep j, WTask _ | OWake j _, (_, Some _) => j = c | _, _ => False end ->
  h_loc h t = Some c /\ alive h c = true /\ h_loc h' t = Some c /\ h_regd h' = h_regd h.
Proof.
  intros h t c T o inp h' x A X. destruct o; try (destruct x; contradiction); try contradiction; cbn [atom] in A; try discriminate A.
  - destruct x; try contradiction. subst i. unfold do_proc, with_local in A. brki A; inversion A; subst. unfold take_log. hs. apply Nat.eqb_eq in Heqb0. subst. auto.
  - destruct x; try contradiction. subst i. unfold do_takesleep, with_local in A. brki A; inversion A; subst. unfold take_log. hs. apply Nat.eqb_eq in Heqb0. subst. auto.
  - destruct x as [b [k|]]; try contradiction. subst i. unfold do_wake in A. brki A; inversion A; subst; unfold take_log; hs; apply Nat.eqb_eq in Heqb2; subst; auto.
Qed.
(** What a step pushes: the end of a task it starts, the end of unregister_this_thread. *)
Lemma lstep_ends : forall h t pre h' n, lstep h t pre h' n ->
  no_ends (next_frames n) = true \/
  (exists i, pre = [FUnreg1 i] /\ forall ok cl, jst ok cl (next_frames n)) \/
  (exists c, h_loc h t = Some c /\ alive h c = true /\ h_loc h' t = Some c /\ h_regd h' = h_regd h /\ has_clear (next_frames n) = false /\
     (exists f, pre = [f] /\ own2 f = Some c) /\
     forall (ok : id -> bool -> Prop) cl, ok c cl -> jst ok cl (next_frames n)).
Proof.
  intros h t pre h' n L.
  lstep_cases L; cbn [next_frames];
    try (left; reflexivity);
    try (left; repeat match goal with |- context [match ?x with _ => _ end] => destruct x end; 
      first [reflexivity | rewrite ?ne_app, ?ne_destroy, ?ne_lresume, ?ne_wresume; cbn; rewrite ?ne_destroy, ?ne_lresume, ?ne_wresume; reflexivity]).
  all: try (left; match goal with |- context [ufin_ret ?f _] => destruct f | |- context [api_frames ?f] => destruct f
                 | |- context [gresume ?g _] => destruct g | |- context [wresume_after _ ?a] => destruct a
                 | |- context [pact_frames _ _ ?a] => destruct a | |- context [spresume _ _ ?k] => destruct k end; reflexivity).
  - right. left. exists i. split; auto. intros ok cl. destruct x; cbn; auto.
  - destruct x as [k| |z]; [|left; reflexivity|left; reflexivity]. right. right. exists c.
    destruct (take_loc _ _ c _ _ _ _ _ A eq_refl) as (Q1 & Q2 & Q3 & Q4). do 5 (split; [auto|]). split; [eauto|]. intros ok cl H. cbn. rewrite !orb_false_r. auto.
  - destruct x as [k| |z]; [|left; reflexivity|left; reflexivity]. right. right. exists c.
    destruct (take_loc _ _ c _ _ _ _ _ A eq_refl) as (Q1 & Q2 & Q3 & Q4). do 5 (split; [auto|]). split; [eauto|]. intros ok cl H. cbn. rewrite !orb_false_r. auto.
  - destruct x as [tk| |z]; [|left; apply ne_wresume|left; reflexivity]. right. right. exists c.
    destruct (take_loc _ _ c _ _ _ _ _ A eq_refl) as (Q1 & Q2 & Q3 & Q4). do 4 (split; [auto|]). destruct (ne_clear _ (ne_wresume k false)) as [C1 C2].
    split; [exact C1|]. split; [eauto|]. intros ok cl H. cbn. rewrite !orb_false_r. auto.
  - destruct x as [b [tk|]]; cbn [fst snd app]; [|left; apply ne_wresume]. right. right. exists c.
    destruct (take_loc _ _ c _ _ _ _ _ A eq_refl) as (Q1 & Q2 & Q3 & Q4). do 4 (split; [auto|]). destruct (ne_clear _ (ne_wresume k b)) as [C1 C2].
    split; [exact C1|]. split; [eauto|]. intros ok cl H. cbn. rewrite !orb_false_r. auto.
  - left. destruct k as [| |p [d|] g|], st; reflexivity.
  - left. destruct (fst x); [destruct a|]; reflexivity.
Qed.

Lemma atom_loc_same : forall h t T (o : op T) inp h' x, atom h t o inp = AOk h' x ->
  match o with OSetLoc _ | OSpawn | OThEnd => True | _ => h_loc h' = h_loc h end.
Proof.
  intros h t T o inp h' x A.
  destruct o; cbn [atom] in A; try discriminate A; op_unfold A; brki A; try discriminate A; inversion A; subst; hs; auto.
Qed.
Lemma loc_keep : forall s t pre rest h n i, reachable s -> stk s t = pre ++ rest -> rest <> [] -> lstep (hp s) t pre h n ->
  h_loc (hp s) t = Some i -> h_loc h t = Some i \/ pre = [FClearLoc] \/ exists j, pre = [FSetLoc j] /\ h_loc h t = Some j.
Proof.
  intros s t pre rest h n i R E Ne L Lc.
  assert (En : pre <> [FEnd]).
  { intros ->. pose proof (stk_inv_reachable s R t) as K; unfold stk_ok in K; rewrite E in K.
    destruct (running (h_tst (hp s) t)); [|discriminate K]. destruct K as ([|f fs] & K & Q); cbn in K; inversion K; subst; [congruence|discriminate Q]. }
  lstep_cases L; try (left; exact Lc); try (apply atom_loc_same in A; left; congruence); try congruence; auto.
  1: { right. right. eexists. split; [reflexivity|]. cbn [atom] in A. inversion A; subst. hs. now rewrite upd_same. }
  all: left; cbn [atom] in A; brki A; try discriminate A; inversion A; subst; hs; rewrite upd_other; auto;
    intros Y; subst; rewrite Nat.eqb_refl, andb_false_r in *; discriminate.
Qed.

Theorem tasks_reachable : forall s, reachable s -> forall t, jst (tok (hp s) t) false (stk s t).
Proof.
  apply (reachable_ind'' (fun s => forall t, jst (tok (hp s) t) false (stk s t))).
  - intros t. destruct t; cbn; auto.
  - intros s s' R R' IH U Tr. destruct Tr as [d|t pre rest u E L|t pre rest h n E L]; [|exact IH|].
    + intros t. cbn [hp stk]. eapply jst_imp; [|apply IH]. intros i c _ [X|X]; [left|right; exact X].
      apply (left_mono t i (hp s)); auto. right. eexists. reflexivity.
    + intros u. cbn [hp stk]. destruct (Nat.eq_dec u t) as [->|N].
      * assert (St : set_next (stk s) t n rest t = next_frames n ++ rest) by (unfold set_next; destruct n; now rewrite upd_same).
        rewrite St. apply jst_app. pose proof (IH t) as J. rewrite E in J. apply jst_app in J as [J1 J2].
        assert (Ru : forall i c, In (FPoEnd i) rest -> tok (hp s) t i (has_clear pre || c) ->
           left_in_task t i (tr_of h) \/ (h_loc h t = Some i /\ mem i (h_regd h) = true /\ c = false /\ pre <> [FUnreg1 i])).
        { intros i c I0 [X|(X1 & X2 & X3)]; [left; exact (left_mono t i (hp s) h (tr_move _ _ _ _ _ L) X)|].
          apply orb_false_iff in X3 as [X3 X4].
          destruct (lstep_regd s t pre rest h n i R E L X2) as [M|[-> M]].
          - assert (Pn : pre <> [FUnreg1 i]).
            { intros ->. inversion L as [| | |inp f h' n' Rr| |]; subst. destruct Rr as (x & A & K). cbn [atom] in A. unfold do_unreg in A. rewrite X2 in A. inversion A; subst.
              hs. rewrite mem_rem, Nat.eqb_refl, andb_false_r in M. discriminate M. }
            right. destruct (loc_keep s t pre rest h n i R E) as [Q|[->|(j & -> & Q)]]; auto; [intros ->; destruct I0|discriminate X3|].
            split; [|auto]. rewrite Q. f_equal.
            assert (Y := setloc_reg s R t j rest E). pose proof (setloc_own s R t) as F. rewrite E in F. inversion F as [|? ? F1 F2]; subst. cbn in F1.
            pose proof (loc_own_reachable s R t i X1) as O. pose proof (reg_inv_reachable s R) as RI.
            apply mem_In, (ri_back _ RI) in Y. apply mem_In, (ri_back _ RI) in X2. destruct F1 as [_ F1], O as [_ O]. rewrite F1 in Y. rewrite O in X2. congruence.
          - left. exists (trace s), []. split; [|apply end_running; auto; rewrite E; apply in_or_app; auto].
            inversion L as [| | |inp f h' n' Rr| |]; subst. destruct Rr as (x & A & K). cbn [atom] in A. unfold do_unreg in A. rewrite X2 in A. inversion A; subst. reflexivity. }
        destruct (lstep_ends _ _ _ _ _ L) as [Ne|[(i & -> & Jn)|(c & Q1 & Q2 & Q3 & Q4 & Q5 & (f & -> & Q6) & Jn)]].
        -- destruct (ne_clear _ Ne) as [C Jn]. split; [apply Jn|]. eapply jst_imp; [|exact J2]. intros i c I0 T. cbn [orb] in T. rewrite C. cbn [orb].
           destruct (Ru i c I0 T) as [X|(X1 & X2 & X3 & _)]; [left; auto|right; auto].
        -- split; [apply Jn|]. eapply jst_imp; [|exact J2]. intros j c I0 T. destruct (Ru j c I0 T) as [X|(X1 & X2 & X3 & X4)]; [left; exact X|].
           exfalso. assert (Z := unreg_myid s R t i rest E). unfold myid in Z.
           assert (Lj : h_loc (hp s) t = Some j).
           { destruct (lstep_loc_own s t _ rest h n j R E L X1) as [Y|Y]; [discriminate Y|exact Y]. }
           rewrite Lj in Z. congruence.
        -- split.
           ++ apply Jn. right. split; [exact Q3|]. split; [|reflexivity]. rewrite Q4. destruct (mem c (h_regd (hp s))) eqn:M; auto. exfalso.
              destruct (torn_reachable s R t c Q1 M) as [(r & X)|[(r & X)|X]]; [| |congruence].
              all: rewrite E in X; injection X as -> _; discriminate Q6.
           ++ eapply jst_imp; [|exact J2]. intros i c0 I0 T. cbn [orb] in T. rewrite Q5. cbn [orb].
              destruct (Ru i c0 I0 T) as [X|(X1 & X2 & X3 & _)]; [left; auto|right; auto].
      * assert (Ou : u <> t -> stk s u <> [] -> jst (tok h u) false (stk s u)).
        { intros _ Nn. eapply jst_imp; [|apply IH]. intros i c I0 [X|(X1 & X2 & X3)].
          - left. exact (left_mono u i (hp s) h (tr_move _ _ _ _ _ L) X).
          - right. destruct (stk s u) as [|f r] eqn:Eu; [congruence|]. rewrite (loc_other s t pre h n u f r R L N Eu). split; auto. split; auto.
            destruct (lstep_regd s t pre rest h n i R E L X2) as [M|[_ M]]; auto.
            apply (loc_own_reachable s R) in M. apply (loc_own_reachable s R) in X1. elim N. eapply own_fun; eauto. }
        assert (Oa : jst (tok h u) false (stk s u)) by (destruct (stk s u) eqn:Eu; [exact I|apply Ou; auto; congruence]).
        unfold set_next. destruct n as [fs|c cfs fs]; [rewrite upd_other; auto|]. rewrite upd_other, upd_eq by auto.
        destruct (Nat.eqb_spec u c); auto. apply jst_none. intros i X.
        destruct (lstep_tst _ _ _ _ _ L) as [(b & k & inp & _ & _ & _ & _ & Y)|[(_ & Y & _)|((y & Y) & _)]]; try discriminate Y. injection Y as _ -> _.
        destruct b; cbn in X; repeat (destruct X as [X|X]; try discriminate X); exact X.
Qed.
Lemma end_loc : forall s t i, reachable s -> In (FPoEnd i) (stk s t) -> left_in_task t i (trace s) \/ h_loc (hp s) t = Some i.
Proof.
  intros s t i R X. destruct (jst_in _ _ _ i (tasks_reachable s R t) X) as (c & [Y|(Y & _)]); auto.
Qed.

(** ** The loops that run tasks *)
Definition loopid (f : frame) : option id := match f with FProc c | FPfNow c _ => Some c | _ => None end.
Definition is_throw (f : frame) : bool := match f with FThrow _ => true | _ => false end.
Definition overloop (a : option frame) (f : frame) (r : list frame) : Prop :=
  match r with
  | g :: _ => match loopid g with Some c => f = FPoEnd c \/ (is_throw f = true /\ a = None) | None => True end
  | [] => True
  end.
Definition nlh (r : list frame) : Prop := match r with g :: _ => loopid g = None | [] => True end.
Definition nloop (f : frame) : bool := match loopid f with Some _ => false | None => true end.
Definition nloops (l : list frame) : bool := forallb nloop l.
Lemma nl_app : forall a b, nloops (a ++ b) = nloops a && nloops b.
Proof. intros. apply forallb_app. Qed.
Lemma nl_destroy : forall ks, nloops (destroy ks) = true. Proof. destruct ks; reflexivity. Qed.
Lemma nl_lresume : forall c ok b, nloops (lresume c ok b) = true. Proof. intros [] ok []; reflexivity. Qed.
Lemma nl_wresume : forall k b, nloops (wresume k b) = true. Proof. intros [] b; reflexivity. Qed.
Lemma nl_over : forall a f r, nlh r -> overloop a f r.
Proof. intros a f [|g r]; cbn; auto. intros ->. exact I. Qed.
Lemma nl_hd : forall l rest, nloops l = true -> nlh rest -> nlh (l ++ rest).
Proof. intros [|f l] rest H N; auto. cbn in *. unfold nloop in H. destruct (loopid f); [discriminate H|reflexivity]. Qed.
Lemma nl_adj : forall rest l a, nloops (tl l) = true -> nlh rest -> adj (fun a f r => overloop a f (r ++ rest)) a l.
Proof.
  intros rest. induction l as [|f l IH]; intros a H N; cbn; auto. cbn in H. split.
  - apply nl_over. apply nl_hd; auto.
  - apply IH; auto. destruct l as [|g l]; auto. cbn in *. now apply andb_true_iff in H.
Qed.
Lemma nl_tl : forall l, nloops l = true -> nloops (tl l) = true.
Proof. intros [|f l] H; auto. cbn in H. now apply andb_true_iff in H. Qed.
(** The frames pushed: no loop under another frame, except below the end of its task. *)
Lemma lstep_loops : forall h t pre h' n, lstep h t pre h' n ->
  nloops (tl (next_frames n)) = true \/ exists c k g, next_frames n = [FRun k; FDrop k; FPoEnd c; g] /\ loopid g = Some c.
Proof.
  intros h t pre h' n L.
  lstep_cases L; cbn [next_frames];
    try (left; reflexivity);
    try (left; repeat match goal with |- context [match ?x with _ => _ end] => destruct x end;
      first [reflexivity | cbn; rewrite ?nl_app, ?nl_destroy, ?nl_lresume, ?nl_wresume; cbn; rewrite ?nl_destroy, ?nl_lresume, ?nl_wresume; reflexivity]).
  all: try (left; apply nl_tl; repeat match goal with |- context [match ?x with _ => _ end] => destruct x end; rewrite ?nl_app, ?nl_destroy, ?nl_lresume, ?nl_wresume; reflexivity).
  - left. destruct c; reflexivity.
  - left. destruct fin; reflexivity.
  - destruct x as [k| |z]; [right|left; reflexivity|left; reflexivity]. exists c, k, (FProc c). auto.
  - destruct x as [k| |z]; [right|left; reflexivity|left; reflexivity]. exists c, k, (FPfNow c e). auto.
  - left. destruct k; reflexivity.
  - left. destruct k as [| |p [d|] g|], st; reflexivity.
  - left. destruct g; reflexivity.
  - left. destruct a; reflexivity.
  - left. destruct (fst x); [destruct a|]; reflexivity.
Qed.
Lemma end_next : forall h t pre c h' n, lstep h t pre h' n -> pre = [FPoEnd c] \/ (exists e, pre = [FThrow e; FPoEnd c]) ->
  (next_frames n = [] \/ exists e, next_frames n = [FThrow e]) /\ h_loc h' = h_loc h.
Proof.
  intros h t pre c h' n L [-> |[e ->]].
  - inversion L as [| | |inp f h1 n1 Ru| |]; subst. code_cases Ru. apply atom_loc_same in A. auto.
  - inversion L as [| | | |inp e1 g h1 n1 Ru|]; subst. code_cases Ru. apply atom_loc_same in A. cbn. eauto.
Qed.
Theorem over_reachable : forall s, reachable s -> forall t, adj overloop None (stk s t).
Proof.
  apply (adj_rule (fun _ _ => overloop)); auto.
  - intros t. destruct t; cbn; auto.
  - intros s t pre rest h n R R' E L J.
    assert (Sp : match spawned n with Some (_, cfs) => adj overloop None cfs | None => True end).
    { destruct n as [fs|c cfs fs]; cbn; auto.
      destruct (lstep_tst _ _ _ _ _ L) as [(b & k & inp & _ & _ & _ & _ & Y)|[(_ & Y & _)|((y & Y) & _)]]; try discriminate Y. injection Y as _ -> _.
      destruct b; cbn; auto. }
    assert (Jn : match rest with [] => True | g :: r => overloop (lasto None pre) g r -> overloop (lasto None (next_frames n)) g r end).
    { destruct rest as [|g [|g' r]]; cbn; auto. destruct (loopid g'); auto. intros [X|[_ X]]; auto.
      exfalso. destruct L; discriminate X. }
    split; [|split]; auto.
    assert (C : nlh rest \/ exists c, loopid (hd FEnd rest) = Some c /\ (pre = [FPoEnd c] \/ exists e, pre = [FThrow e; FPoEnd c])).
    { destruct rest as [|g r]; [left; exact I|]. cbn [nlh hd]. destruct (loopid g) as [c|] eqn:Lg; auto. right. exists c. split; auto.
      destruct L as [c0 u fin|v u fin|e u fin|inp f h' n Ru|inp e g0 h' n Ru|x c0]; cbn in J; rewrite Lg in J; intuition (try discriminate; subst; eauto).
      destruct f; try discriminate. destruct Ru. }
    destruct C as [C|(c & _ & C)].
    + destruct (lstep_loops _ _ _ _ _ L) as [X|(c & k & g & X & Y)]; [now apply nl_adj|]. rewrite X. cbn. rewrite Y. repeat split; auto. now apply nl_over.
    + destruct (end_next _ _ _ _ _ _ L C) as [[->|[e ->]] _]; cbn; auto. split; auto. destruct rest as [|g r]; auto. cbn. destruct (loopid g); auto.
Qed.

Lemma lstep_own2 : forall h t pre h' n fr ci, lstep h t pre h' n -> hd_error (next_frames n) = Some fr -> own2 fr = Some ci ->
  h_loc h' = h_loc h /\ (h_loc h t = Some ci \/ exists g, pre = [g] /\ own2 g = Some ci).
Proof.
  intros h t pre h' n fr ci L Hd O. lstep_cases L; hdk Hd; injection Hd as <-; try discriminate O.
  all: pose proof (atom_loc_same _ _ _ _ _ _ _ A) as Lo; cbn [own2] in O; injection O as ->; split; auto; try (right; eexists; split; reflexivity).
  all: left; cbn [atom] in A; now inversion A.
Qed.
Lemma dead_op : forall h t T (o : op T) inp i, atom h t o inp = AUb (UbDeadContext i) ->
  match o with
  | OPush j _ | OExitSet j | OCount j | OProc j | OTakeSleep j | OWake j _ | OEnd j => j = i /\ alive h i = false
  | OMyId | OExit | ODepth | OConfig => h_loc h t = Some i /\ alive h i = false
  | OUb u => u = UbDeadContext i
  | _ => False
  end.
Proof.
  intros h t T o inp i A.
  destruct o; cbn [atom] in A; try discriminate A; op_unfold A; brki A; try discriminate A; inversion A; subst; auto.
Qed.
Definition not_dead_ub (f : frame) : Prop := match f with FUb (UbDeadContext _) => False | _ => True end.
Theorem no_dead_ub : forall s, reachable s -> forall t, Forall not_dead_ub (stk s t).
Proof.
  apply (frame_rule reachable (fun _ _ => not_dead_ub)); try exact I; auto.
  intros s t pre rest h n R E L Fp _.
  assert (N1 : forall f, (match f with FUb _ => False | _ => True end) -> not_dead_ub f) by (intros []; cbn; tauto).
  lstep_cases L; (split; [|try exact I; cbn [spawned]; fl_; exact I]); cbn [next_frames]; fl_; try exact I.
Qed.

Theorem top_loc : forall s, reachable s -> forall t f r c, stk s t = f :: r -> own2 f = Some c ->
  left_in_task t c (trace s) \/ h_loc (hp s) t = Some c.
Proof.
  apply (reachable_ind'' (fun s => forall t f r c, stk s t = f :: r -> own2 f = Some c -> left_in_task t c (trace s) \/ h_loc (hp s) t = Some c)).
  - intros t f r c E O. destruct t; cbn in E; [|discriminate]. injection E as <- _. discriminate O.
  - intros s s' R R' IH U Tr. destruct Tr as [d|t pre rest u E L|t pre rest h n E L]; [|exact IH|].
    + intros t f r c E O. destruct (IH t f r c E O) as [X|X]; auto. left. apply (left_mono t c (hp s)); auto. right. eexists. reflexivity.
    + intros u f r c Eu O.
      assert (Mo : left_in_task u c (trace s) -> left_in_task u c (tr_of h)) by (intros X; exact (left_mono u c (hp s) h (tr_move _ _ _ _ _ L) X)).
      change (trace (mkSt h (set_next (stk s) t n rest) None)) with (tr_of h). cbn [hp stk] in *.
      destruct (Nat.eq_dec u t) as [->|N].
      * assert (St : set_next (stk s) t n rest t = next_frames n ++ rest) by (unfold set_next; destruct n; now rewrite upd_same).
        rewrite St in Eu. destruct (next_frames n) as [|f' fs] eqn:Nf.
        -- cbn in Eu. pose proof (under_reachable s R t) as Un. rewrite E in Un. destruct (lstep_pre _ _ _ _ _ L) as (P1 & _).
           assert (Uf : under f = true).
           { destruct pre as [|p0 pre]; [congruence|]. cbn in Un. rewrite Eu, unders_app in Un. apply andb_true_iff in Un as [_ Un]. cbn in Un. now apply andb_true_iff in Un. }
           assert (K : In (FPoEnd c) (stk s t) /\ (f = FPoEnd c \/ pre = [FPoEnd c] \/ exists e, pre = [FThrow e; FPoEnd c])).
           { destruct f; try discriminate O; try discriminate Uf; injection O as ->.
             - pose proof (over_reachable s R t) as J. rewrite E, Eu in J. apply adj_app in J as [J _].
               destruct L as [c0 u fin|v u fin|e u fin|inp f h' n Ru|inp e g0 h' n Ru|x c0]; cbn in J; intuition (try discriminate; subst; eauto);
                 try (rewrite E; cbn; auto; fail). all: destruct f; try discriminate; destruct Ru.
             - pose proof (over_reachable s R t) as J. rewrite E, Eu in J. apply adj_app in J as [J _].
               destruct L as [c0 u fin|v u fin|e0 u fin|inp f h' n Ru|inp e0 g0 h' n Ru|x c0]; cbn in J; intuition (try discriminate; subst; eauto);
                 try (rewrite E; cbn; auto; fail). all: destruct f; try discriminate; destruct Ru.
             - split; auto. rewrite E, Eu. apply in_or_app. right. now left. }
           destruct K as [K1 [-> |K2]].
           ++ destruct (end_loc _ t c R') as [X|X]; auto. cbn [stk]. rewrite St, Eu. now left.
           ++ destruct (end_loc s t c R K1) as [X|X]; auto. right. destruct (end_next _ _ _ _ _ _ L K2) as [_ ->]. exact X.
        -- cbn in Eu. injection Eu as -> Er.
           assert (Top : forall g, pre = [g] -> own2 g = Some c -> h_loc h = h_loc (hp s) -> left_in_task t c (tr_of h) \/ h_loc h t = Some c).
           { intros g -> Og H1. destruct (IH t g rest c E Og); auto. rewrite H1. auto. }
           assert (Hd : hd_error (next_frames n) = Some f) by now rewrite Nf. clear Nf St.
           destruct (lstep_own2 _ _ _ _ _ _ _ L Hd O) as [Q [X|(g & -> & X)]]; [right; now rewrite Q|]. apply (Top g); auto.
      * unfold set_next in Eu. destruct n as [fs|c0 cfs fs].
        -- rewrite upd_other in Eu by auto. destruct (IH u f r c Eu O) as [X|X]; auto. right. now rewrite (loc_other s t pre h _ u f r R L N Eu).
        -- rewrite upd_other, upd_eq in Eu by auto. destruct (Nat.eqb_spec u c0).
           ++ exfalso. destruct (lstep_tst _ _ _ _ _ L) as [(b & k & inp & _ & _ & _ & _ & Y)|[(_ & Y & _)|((y & Y) & _)]]; try discriminate Y. injection Y as _ -> _.
              destruct b; cbn in Eu; injection Eu as <- _; discriminate O.
           ++ destruct (IH u f r c Eu O) as [X|X]; auto. right. now rewrite (loc_other s t pre h _ u f r R L N Eu).
Qed.

Lemma dead_leaving : forall s t i, reachable s -> h_loc (hp s) t = Some i -> alive (hp s) i = false -> leaving t i (trace s).
Proof.
  intros s t i R Lc D. split.
  - rewrite <- Lc. exact (rv_loc _ (r_inv_reachable s R) t).
  - apply dead_event; auto; [now apply (loc_own_reachable s R)|]. apply dead_refs in D as [_ D]. destruct (mem i (h_regd (hp s))) eqn:M; auto. apply mem_In in M. contradiction.
Qed.
(** Only the thread of a context touches it after its destruction. *)
Theorem dead_touch : forall s t i, reachable s -> touches_dead s t i -> left_in_task t i (trace s) \/ leaving t i (trace s).
Proof.
  intros s t i R (inp & s' & St & Ub). unfold step in St. destruct (ubs s) eqn:U; [discriminate St|].
  destruct (focus (stk s t)) as [[a rest]|] eqn:Fc; [|discriminate St].
  unfold exec in St. destruct a as [T o k|]; [|discriminate St]. destruct (atom (hp s) t o inp) as [|u|h x] eqn:A; [discriminate St| |injection St as <-; discriminate Ub].
  injection St as <-. cbn [ubs] in Ub. injection Ub as ->.
  assert (Lo : forall j, h_loc (hp s) t = Some j -> alive (hp s) j = false -> UbDeadContext j = UbDeadContext i -> left_in_task t i (trace s) \/ leaving t i (trace s)).
  { intros j X Y Z. injection Z as ->. right. now apply dead_leaving. }
  destruct (focus_cases _ _ _ Fc) as [(f & E & C)|[(e & g & E & C)|(x & c & E & C)]].
  - assert (Ur : ubruns (code f) (hp s) t inp (UbDeadContext i)) by (rewrite <- C; exact A). clear A C Fc k.
    assert (Hf : In f (stk s t)) by (rewrite E; now left).
    destruct f; cbn [code ubruns] in Ur; try contradiction;
    repeat (match type of Ur with
          | ubruns (match ?x with _ => _ end) _ _ _ _ => destruct x
          end; cbn [ubruns] in Ur); try contradiction; apply dead_op in Ur; try contradiction.
    all: try (destruct Ur as [Ur1 Ur2]; exact (Lo i Ur1 Ur2 eq_refl)); try discriminate Ur.
    all: try (destruct Ur as [-> Ur]; exfalso;
      match type of Hf with In ?f _ => assert (Hr : 0 < refw i f) by (cbn; rewrite Nat.eqb_refl; lia) end;
      pose proof (held_alive s t _ i R Hf Hr); congruence).
    all: try (destruct Ur as [-> Ur]; destruct (top_loc s R t _ rest i E eq_refl) as [X|X]; [left; exact X|exact (Lo i X Ur eq_refl)]).
    pose proof (no_dead_ub s R t) as F. rewrite Forall_forall in F. specialize (F _ Hf). subst u. contradiction.
  - assert (Ur : ubruns (catch g e) (hp s) t inp (UbDeadContext i)) by (rewrite <- C; exact A).
    destruct g; cbn [catch ubruns] in Ur; try contradiction; apply dead_op in Ur; try contradiction; try discriminate Ur.
  - assert (Ur : ubruns (Do (OLog (fun t => EvRet t c x)) (fun _ => Go [])) (hp s) t inp (UbDeadContext i)) by (rewrite <- C; exact A). discriminate Ur.
Qed.
