(** * InvCv: waiters, tokens and notifications. *)
From Verif Require Import Types Core State Ops Code Machine Base Spec Rules Events InvCtx InvQueue InvStack InvRefs InvEvents InvAff InvTop InvSleep Replay ReplayObj ThmObj ThmRegistry ThmSleep.

(** ** A token belongs to one id on one semaphore *)
Definition tok_of (tr : list event) (sm : semid) (i : id) (tk : nat) : Prop := exists t f, In (EvWaiter t sm i tk f) tr.
Lemma tok_of_app : forall tr l sm i tk, tok_of tr sm i tk -> tok_of (tr ++ l) sm i tk.
Proof. intros tr l sm i tk (t & f & H). exists t, f. apply in_or_app. auto. Qed.
Lemma in_at : forall (P : list event -> event -> Prop) tr e, at_each P tr -> In e tr -> exists a b, tr = a ++ e :: b /\ P a e.
Proof. intros P tr e H I. apply in_split in I as (a & b & ->). exists a, b. split; auto. eapply H; eauto. Qed.

Lemma waiters_tok : forall s, reachable s -> forall sm w, In w (waiters sm (trace s)) -> tok_of (trace s) sm (fst w) (snd w).
Proof.
  intros s R sm. induction (trace s) as [|e tr IH] using rev_ind; [intros w []|].
  intros w. rewrite waiters_snoc.
  assert (S : In w (waiters sm tr) -> tok_of (tr ++ [e]) sm (fst w) (snd w)) by (intros; now apply tok_of_app, IH).
  assert (Q : forall A f (l : list A) x, In x (filter f l) -> In x l) by (intros A f l x H; now apply filter_In in H).
  destruct e; cbn [waiters_step]; auto.
  - destruct fresh; auto. destruct (sem_eqb s0 sm) eqn:E; auto. intros H. apply in_app_iff in H as [H|[<-|[]]]; auto.
    assert (s0 = sm) as -> by (destruct s0, sm; cbn in E; try discriminate; apply Nat.eqb_eq in E; congruence).
    exists t, true. apply in_or_app. right. now left.
  - destruct (sem_eqb s0 sm); eauto.
  - destruct (sem_eqb s0 sm); eauto. intros H. apply S. rewrite <- (firstn_skipn (length ws)). apply in_or_app. auto.
Qed.

Theorem token_unique : forall s, reachable s -> forall sm sm' i j tk, tok_of (trace s) sm i tk -> tok_of (trace s) sm' j tk -> sm = sm' /\ i = j.
Proof.
  apply (reachable_ind'' (fun s => forall sm sm' i j tk, tok_of (trace s) sm i tk -> tok_of (trace s) sm' j tk -> sm = sm' /\ i = j)).
  - intros sm sm' i j tk (t & f & []).
  - intros s s' R R' IH U Tr.
    assert (X : trace s' = trace s \/ exists e, trace s' = trace s ++ [e]).
    { destruct Tr as [d|t pre rest u E' L|t pre rest h n E' L]; unfold trace; cbn [hp]; auto.
      - right. eexists. hs. reflexivity.
      - destruct (lstep_tr _ _ _ _ _ L) as [->|[e ->]]; auto. right. eexists. reflexivity. }
    destruct X as [X|[e X]]; [rewrite X; exact IH|].
    pose proof (waiter_added s' R' (trace s) e [] X) as W.
    assert (N : forall sm i tk, tok_of (trace s') sm i tk -> tok_of (trace s) sm i tk \/ exists t f, e = EvWaiter t sm i tk f).
    { intros sm i tk (t & f & I). rewrite X in I. apply in_app_iff in I as [I|[I|[]]]; [left|right]; unfold tok_of; eauto. }
    assert (K : forall sm sm' i j tk, tok_of (trace s) sm i tk -> (exists t f, e = EvWaiter t sm' j tk f) -> sm = sm' /\ i = j).
    { intros sm sm' i j tk H (t & f & ->). destruct f.
      - destruct W as [_ W]. elim W. destruct H as (t' & f & H). exists t', sm, i, f. exact H.
      - apply (waiters_tok s R) in W. eapply IH; eauto. }
    intros sm sm' i j tk A B. destruct (N _ _ _ A) as [A'|A'], (N _ _ _ B) as [B'|B'].
    + eauto.
    + eauto.
    + destruct (K _ _ _ _ _ B' A') as [-> ->]. auto.
    + destruct A' as (? & ? & ->), B' as (? & ? & B'). injection B' as -> -> -> ->. auto.
Qed.

(** ** Frames carry tokens that were given out *)
Definition tokok (tr : list event) (t : tid) (sm : semid) (i : id) (tk : nat) : Prop := exists f, In (EvWaiter t sm i tk f) tr.
Definition wk_tok (tr : list event) (t : tid) (k : wk) : Prop := match k with WSem sm _ i tk _ _ => tokok tr t sm i tk | _ => True end.
Definition took (tr : list event) (u : tid) (w : id * nat) : Prop := exists sm all ws, In (EvNotify u sm all ws) tr /\ In w ws.
Definition cvf (tr : list event) (t : tid) (f : frame) : Prop :=
  match f with
  | FNotifyL ws => forall w, In w ws -> took tr t w
  | FSemTok sm _ i tk _ _ _ | FSemExit sm _ i tk _ _ _ | FSemGo sm _ i tk _ _ | FSemRe sm _ i tk _ _ _ | FSemNow sm _ i tk _ _ _ => tokok tr t sm i tk
  | FWaitFor _ k | FWait _ k | FWait1 _ _ k | FSleep _ _ k => wk_tok tr t k
  | _ => True
  end.
Lemma cvf_app : forall tr l t f, cvf tr t f -> cvf (tr ++ l) t f.
Proof.
  intros tr l t f H.
  assert (T : forall sm i tk, tokok tr t sm i tk -> tokok (tr ++ l) t sm i tk) by (intros sm i tk [x X]; exists x; apply in_or_app; auto).
  assert (W : forall k, wk_tok tr t k -> wk_tok (tr ++ l) t k) by (intros []; cbn; auto).
  destruct f; cbn in *; auto. intros w I. destruct (H w I) as (sm & all & ws' & A & B). exists sm, all, ws'. split; auto. apply in_or_app. auto.
Qed.
Lemma lstep_tr' : forall s t pre h n, lstep (hp s) t pre h n -> exists l, tr_of h = trace s ++ l.
Proof.
  intros s t pre h n L. unfold tr_of, trace. destruct (lstep_tr _ _ _ _ _ L) as [->|[e ->]]; [exists []; now rewrite app_nil_r|exists [e]; reflexivity].
Qed.

Ltac fl_ :=
  repeat match goal with
    | |- Forall _ (_ ++ _) => apply Forall_app; split
    | |- Forall _ (destroy ?k) => destruct k; cbn [destroy]
    | |- Forall _ (wresume ?k _) => destruct k; cbn [wresume]
    | |- Forall _ (gresume ?k _) => destruct k; cbn [gresume]
    | |- Forall _ (semresume ?k ?b) => destruct k as [| |? [?|] ?|], b; cbn [semresume]
    | |- Forall _ (lresume ?c _ ?b) => destruct c, b; cbn [lresume]
    | |- Forall _ (wresume_after _ ?a) => destruct a; cbn [wresume_after]
    | |- Forall _ (pact_frames _ _ ?a) => destruct a; cbn [pact_frames]
    | |- Forall _ (spresume _ _ ?k) => destruct k; cbn [spresume]
    | |- Forall _ (api_frames ?c) => destruct c; cbn [api_frames]
    | |- Forall _ (ufin_ret ?f _) => destruct f; cbn [ufin_ret]
    | |- Forall _ (tframes ?b) => destruct b; cbn [tframes]
    | |- Forall _ (run_one _ _) => unfold run_one
    | |- Forall _ (match ?x with _ => _ end) => destruct x eqn:?
    | |- Forall _ [] => constructor
    | |- Forall _ (_ :: _) => constructor
    end.

Theorem cvf_reachable : forall s, reachable s -> forall t, Forall (cvf (trace s) t) (stk s t).
Proof.
  apply (frame_rule reachable (fun h => cvf (tr_of h))); try exact I; auto.
  - intros s d u f R _ H. unfold tr_of in *. hs. cbn [rev]. now apply cvf_app.
  - intros s t pre rest h n u f R _ E L _ _ H. destruct (lstep_tr' _ _ _ _ _ L) as [l ->]. now apply cvf_app.
  - intros s t pre rest h n R E L Fp _. destruct (lstep_tr' _ _ _ _ _ L) as [l Et]. rewrite Et.
    assert (Fp' : Forall (cvf (trace s ++ l) t) pre) by (eapply Forall_impl; [|exact Fp]; intros; now apply cvf_app). clear Fp.
    lstep_cases L; (split; [|try exact I; cbn [spawned]; try (fl_; exact I)]); cbn [next_frames];
      inversion Fp' as [|? ? Fp1 Fp2]; subst; fl_; try exact I; cbn [cvf wk_tok] in *; auto.
    all: try (intros w Iw; apply Fp1; now right).
    all: cbn [atom] in A; brki A; try discriminate A; inversion A; subst; rewrite <- Et; unfold tr_of; hs; cbn [rev].
    + eexists. apply in_or_app. right. left. reflexivity.
    + eexists. apply in_or_app. right. left. reflexivity.
    + intros w Iw. eexists _, _, _. split; [apply in_or_app; right; left; reflexivity|exact Iw].
    + intros w Iw. eexists _, _, _. split; [apply in_or_app; right; left; reflexivity|exact Iw].
Qed.

(** Only notifications interrupt. *)
Theorem interrupt_from : forall s, reachable s -> at_each (fun tr e => match e with
  | EvInterrupt u tk => exists i, took tr u (i, tk)
  | _ => True end) (trace s).
Proof.
  apply (event_rule reachable); auto.
  intros s t pre rest h n e R U E L X. destruct e; auto.
  assert (K : exists i r, pre = [FNotifyL ((i, tok) :: r)] /\ t0 = t).
  { lstep_cases L; try discriminate X; cbn [atom] in A; op_unfold A; brki A; try discriminate A; inversion A; subst; cbn in X;
      try (exfalso; now apply cons_neq in X); try discriminate X; try (symmetry in X; exfalso; now apply cons_neq in X).
    injection X as -> ->. eauto. }
  destruct K as (i & r & -> & ->). exists i. pose proof (cvf_reachable s R t) as F. rewrite E in F. inversion F as [|? ? F1 F2]; subst.
  cbn in F1. apply F1. now left.
Qed.

(** ** A registration stays until it is taken or ended *)
Theorem waiter_stays : forall s, reachable s -> forall a b t sm i tk f, trace s = a ++ EvWaiter t sm i tk f :: b ->
  (forall u, ~ In (EvUnwaiter u sm i) b) ->
  In (i, tk) (waiters sm (trace s)) \/ exists u all ws, In (EvNotify u sm all ws) b /\ In (i, tk) ws.
Proof.
  assert (SE : forall a b, sem_eqb a b = true -> a = b).
  { intros [] [] H; cbn in H; try discriminate; apply Nat.eqb_eq in H; congruence. }
  assert (SR : forall a, sem_eqb a a = true) by (intros []; cbn; apply Nat.eqb_refl).
  intros s R a b t sm i tk f E N.
  assert (W0 : In (i, tk) (waiters sm (a ++ [EvWaiter t sm i tk f]))).
  { rewrite waiters_snoc. cbn [waiters_step]. rewrite SR. destruct f; [apply in_or_app; right; now left|].
    pose proof (waiter_added s R a _ b E) as W. exact W. }
  assert (At : forall b1 e b2, b = b1 ++ e :: b2 -> match e with
    | EvNotify _ sm' all ws => ws = if all then waiters sm' (a ++ EvWaiter t sm i tk f :: b1) else firstn 1 (waiters sm' (a ++ EvWaiter t sm i tk f :: b1))
    | _ => True end).
  { intros b1 e b2 ->. rewrite app_comm_cons, app_assoc in E. pose proof (notify_takes s R _ e b2 E) as X. destruct e; auto. }
  rewrite E. clear E R. induction b as [|e b IH] using rev_ind; [auto|].
  assert (N' : forall u, ~ In (EvUnwaiter u sm i) b) by (intros u I; apply (N u), in_or_app; auto).
  assert (At' : forall b1 e b2, b = b1 ++ e :: b2 -> match e with
    | EvNotify _ sm' all ws => ws = if all then waiters sm' (a ++ EvWaiter t sm i tk f :: b1) else firstn 1 (waiters sm' (a ++ EvWaiter t sm i tk f :: b1))
    | _ => True end) by (intros b1 e' b2 ->; apply (At b1 e' (b2 ++ [e])); now rewrite <- app_assoc).
  destruct (IH N' At') as [W|(u & all & ws & I & J)]; [|right; exists u, all, ws; split; auto; apply in_or_app; auto].
  specialize (At b e [] eq_refl). rewrite app_comm_cons, app_assoc, waiters_snoc.
  destruct e; cbn [waiters_step]; auto.
  - destruct fresh; auto. destruct (sem_eqb s0 sm); auto. left. apply in_or_app. auto.
  - destruct (sem_eqb s0 sm) eqn:Q; auto. apply SE in Q as ->. left. apply filter_In. split; auto. cbn.
    destruct (Nat.eqb_spec i i0); auto. subst. elim (N t0). apply in_or_app. right. now left.
  - destruct (sem_eqb s0 sm) eqn:Q; auto. apply SE in Q as ->.
    set (l := waiters sm (a ++ EvWaiter t sm i tk f :: b)) in *.
    assert (S : ws ++ skipn (length ws) l = l).
    { subst ws. destruct all; [now rewrite skipn_all, app_nil_r|]. destruct l as [|x [|y l]]; reflexivity. }
    rewrite <- S in W. apply in_app_iff in W as [W|W]; auto.
    right. exists t0, all, ws. split; auto. apply in_or_app. right. now left.
Qed.

(** ** A waiter taken by a notification is interrupted *)
Definition notified (s : st) : Prop := forall u sm all ws w, In (EvNotify u sm all ws) (trace s) -> In w ws -> fst w <> invalid_id ->
  interrupted (snd w) (trace s) \/ exists ws', In (FNotifyL ws') (stk s u) /\ In w ws'.
Lemma int_app : forall tk tr l, interrupted tk tr -> interrupted tk (tr ++ l).
Proof. intros tk tr l [t H]. exists t. apply in_or_app. auto. Qed.
Theorem notified_reachable : forall s, reachable s -> notified s.
Proof.
  apply reachable_ind''.
  - intros u sm all ws w [].
  - intros s s' R R' IH U Tr. destruct Tr as [d|t pre rest u E L|t pre rest h n E L].
    + intros u sm all ws w I J K. unfold trace in *. cbn [hp stk] in *. hs. cbn [rev] in *. apply in_app_iff in I as [I|[I|[]]]; [|discriminate].
      destruct (IH u sm all ws w I J K) as [X|X]; auto. left. now apply int_app.
    + exact IH.
    + destruct (lstep_tr' _ _ _ _ _ L) as [l Et].
      assert (Tr' : trace (mkSt h (set_next (stk s) t n rest) None) = trace s ++ l) by exact Et.
      intros u sm all ws w I J K. rewrite Tr' in *. apply in_app_iff in I. cbn [stk].
      assert (St : forall f v, In f (stk s v) -> (v = t -> In f pre -> In f (next_frames n)) -> In f (set_next (stk s) t n rest v)).
      { intros f v If Hp.
        assert (Own : v = t -> In f (next_frames n ++ rest)).
        { intros ->. rewrite E in If. apply in_app_iff in If as [If|If]; apply in_or_app; auto. }
        assert (Sp : match spawned n with Some (c, _) => stk s c = [] | None => True end).
        { destruct n as [|c cfs fs]; cbn [spawned]; auto.
          apply lstep_tst in L as [(b & k & inp & _ & F & _ & _ & Y)|[(_ & Y & _)|((fs' & Y) & _)]]; try discriminate Y. injection Y as -> _ _. now apply fresh_empty. }
        unfold set_next. destruct n as [fs|c cfs fs]; rewrite !upd_eq.
        - destruct (Nat.eqb_spec v t); auto.
        - destruct (Nat.eqb_spec v t); auto. destruct (Nat.eqb_spec v c); auto. subst. cbn in Sp. now rewrite Sp in If. }
      destruct I as [I|I].
      * destruct (IH u sm all ws w I J K) as [X|(ws' & X & Y)]; [left; now apply int_app|].
        destruct (in_dec (fun a b : id * nat => ltac:(repeat decide equality)) w (match pre with [FNotifyL (x :: _)] => [x] | _ => [] end)) as [D|D].
        -- assert (exists r, pre = [FNotifyL (w :: r)]) as [r ->].
           { destruct pre as [|[] [|]]; try contradiction; destruct ws0 as [|x r]; try contradiction. destruct D as [->|[]]. eauto. }
           inversion L as [| | |inp f h' n' Ru| |]; subst. code_cases Ru; [elim K; now apply Nat.eqb_eq|].
           left. cbn [atom] in A. inversion A; subst. exists t. rewrite <- Et. unfold tr_of. hs. cbn [rev snd]. apply in_or_app. right. now left.
        -- right. destruct (list_eq_dec Nat.eq_dec [u] [t]) as [Ut|Ut].
           ++ injection Ut as ->.
              assert (Z : In (FNotifyL ws') pre -> exists ws'', In (FNotifyL ws'') (next_frames n) /\ In w ws'').
              { intros Ip. destruct (lstep_pre _ _ _ _ _ L) as (P1 & _). clear P1.
                inversion L as [| | |inp f h' n' Ru|inp e g h' n' Ru|]; subst; cbn [In] in Ip; repeat (destruct Ip as [Ip|Ip]; try discriminate Ip); try contradiction; subst.
                - code_cases Ru; exists l0; cbn [next_frames In]; (split; [auto|]); destruct Y as [Y|Y]; auto; elim D; cbn; auto.
                - code_cases Ru; discriminate A. }
              rewrite E in X. apply in_app_iff in X as [X|X].
              ** destruct (Z X) as (ws'' & Z1 & Z2). exists ws''. split; auto.
                 unfold set_next. destruct n; rewrite upd_same; apply in_or_app; auto.
              ** exists ws'. split; auto. unfold set_next. destruct n; rewrite upd_same; apply in_or_app; auto.
           ++ exists ws'. split; auto. apply St; auto. intros ->. elim Ut. reflexivity.
      * (* just taken *)
        assert (Kk : u = t /\ n = Go [FNotifyL ws]).
        { unfold tr_of, trace in Et. destruct (lstep_tr _ _ _ _ _ L) as [X|[e X]].
          - rewrite X in Et. change (trace s = trace s ++ l) in Et. rewrite <- (app_nil_r (trace s)) in Et at 1. apply app_inv_head in Et. subst l. contradiction.
          - rewrite X in Et. cbn [rev] in Et. apply app_inv_head in Et. subst l. destruct I as [->|[]]. rename u into who.
            lstep_cases L; try discriminate X; cbn [atom] in A; op_unfold A; brki A; try discriminate A; inversion A; subst; cbn in X;
              try (exfalso; now apply cons_neq in X); try discriminate X; try (symmetry in X; exfalso; now apply cons_neq in X);
              injection X as -> _ _ ->; auto. }
        destruct Kk as [-> ->]. right. exists ws. split; auto. cbn [set_next]. rewrite upd_same. now left.
Qed.

(** ** An interrupted waiter is on its way to be woken *)
(** Between the test of its token and the end of its sleep. *)
Definition drowsy (f : frame) : option (id * nat) :=
  match f with
  | FSemExit _ _ i tk _ _ _ | FSemGo _ _ i tk _ _ => Some (i, tk)
  | FWaitFor _ (WSem _ _ i tk _ _) | FWait _ (WSem _ _ i tk _ _) | FWait1 _ _ (WSem _ _ i tk _ _) | FSleep _ _ (WSem _ _ i tk _ _) => Some (i, tk)
  | _ => None
  end.
Definition waking (i : id) (f : frame) : Prop := f = FDisp i TNop LkDisc \/ f = FInvoke i TNop LkDisc \/ f = FPush i TNop LkDisc.
Definition coming (s : st) (i : id) : Prop := exists u f r, stk s u = f :: r /\ waking i f.
Definition has_task (i : id) (tr : list event) : Prop := length (started i tr) < length (accepted i tr).
Definition drowsy_inv (s : st) : Prop := forall t f r i tk, stk s t = f :: r -> drowsy f = Some (i, tk) ->
  attached t (trace s) = Some i -> In i (reg_ids (trace s)) -> interrupted tk (trace s) -> has_task i (trace s) \/ coming s i.

Lemma has_task_app : forall l i e, has_task i l -> (forall t k, e <> EvStart t i k) -> has_task i (l ++ [e]).
Proof.
  intros l i e H N. unfold has_task in *. rewrite accepted_snoc, started_snoc, !app_length.
  assert (started i [e] = []) as ->; [|cbn; lia].
  destruct e; auto. cbn. destruct (Nat.eqb_spec i0 i); auto. subst. now elim (N t k).
Qed.
Lemma reg_before : forall s t pre rest h n i, reachable s -> stk s t = pre ++ rest -> lstep (hp s) t pre h n ->
  0 < i <= h_idgen (hp s) -> mem i (h_regd h) = true -> mem i (h_regd (hp s)) = true.
Proof.
  intros s t pre rest h n i R E L G M. pose proof (reg_inv_reachable s R) as RI.
  apply lstep_hstep in L. destruct L as [e Ok|T o inp h1 x Ok A]; [exact M|].
  destruct o; cbn [atom] in A; try discriminate A; try (op_unfold A; brki A; try discriminate A; inversion A; subst; exact M).
  - destruct (do_reg (hp s) t _) as [h2 j] eqn:D. inversion A; subst; clear A.
    destruct (do_reg_cases (hp s) t (match o with Some n => n | None => t end) RI) as [(k & E' & I & D')|(E' & D')];
      rewrite D' in D; inversion D; subst; revert M; hs; auto. cbn. destruct (Nat.eqb_spec i (S (h_idgen (hp s)))); [lia|]. auto.
  - unfold do_unreg in A. destruct (mem i0 (h_regd (hp s))) eqn:X; inversion A; subst; revert M; hs; auto.
    rewrite mem_rem. intros M. now apply andb_true_iff in M.
  - destruct (h_regd (hp s)) eqn:D; brki A; inversion A; subst; revert M; hs; now rewrite ?D.
  - destruct (h_regd (hp s)) eqn:D; brki A; inversion A; subst; revert M; hs; now rewrite ?D.
Qed.

Lemma own_same : forall s t u i, reachable s -> attached t (trace s) = Some i -> own (hp s) i u -> u = t.
Proof.
  intros s t u i R A O. change (trace s) with (tr_of (hp s)) in A. rewrite (rv_loc _ (r_inv_reachable s R)) in A.
  apply (loc_own_reachable s R) in A. eapply own_fun; eauto.
Qed.
Lemma start_by : forall s t pre rest h n u i k, reachable s -> stk s t = pre ++ rest -> lstep (hp s) t pre h n ->
  h_tr h = EvStart u i k :: h_tr (hp s) -> own (hp s) i t.
Proof.
  intros s t pre rest h n who i k R E L X.
  lstep_cases L; try discriminate X;
    try (apply (frame_own s t _ i R) with (f := _); fail);
    cbn [atom] in A; op_unfold A; brki A; try discriminate A; inversion A; subst; cbn in X;
    try (exfalso; now apply cons_neq in X); try discriminate X; try (symmetry in X; exfalso; now apply cons_neq in X);
    injection X as -> -> ->; eapply frame_own; eauto; try (rewrite E; left; reflexivity); reflexivity.
Qed.
Lemma int_by : forall h t pre h' n u tk, lstep h t pre h' n -> h_tr h' = EvInterrupt u tk :: h_tr h ->
  exists i r, pre = [FNotifyL ((i, tk) :: r)] /\ n = Go [FDisp i TNop LkDisc; FNotifyL r].
Proof.
  intros h t pre h' n who tk L X.
  lstep_cases L; try discriminate X;
    cbn [atom] in A; op_unfold A; brki A; try discriminate A; inversion A; subst; cbn in X;
    try (exfalso; now apply cons_neq in X); try discriminate X; try (symmetry in X; exfalso; now apply cons_neq in X);
    injection X as -> ->; eauto.
Qed.

(** One own step of a drowsy thread. *)
Lemma drowsy_own : forall s t pre rest h n top i tk, reachable s -> stk s t = pre ++ rest -> lstep (hp s) t pre h n ->
  hd_error (next_frames n) = Some top -> drowsy top = Some (i, tk) ->
  (exists g, pre = [g] /\ (drowsy g = Some (i, tk) \/ h_toks (hp s) tk = false) /\ forall j, ~ waking j g) /\
  (tr_of h = trace s \/ exists e, tr_of h = trace s ++ [e] /\ match e with EvSleep _ _ | EvUnlock _ _ => True | _ => False end) /\ exists fs, n = Go fs.
Proof.
  intros s t pre rest h n top i tk R E L Hd D.
  assert (W : forall g j, match g with FDisp _ _ _ | FInvoke _ _ _ | FPush _ _ _ => False | _ => True end -> ~ waking j g).
  { intros g j X [->|[->| ->]]; exact X. }
  assert (K : (exists g, pre = [g] /\ (drowsy g = Some (i, tk) \/ h_toks (hp s) tk = false) /\ (forall j, ~ waking j g) /\
     exists T (o : op T) inp x, atom (hp s) t o inp = AOk h x /\ (match o in op T return T -> Prop with ONop | OLoc | OExit | OUnlock _ | OTokQ _ => fun _ => True | OTakeSleep _ => fun r => match r with WTask _ => False | _ => True end | _ => fun _ => False end) x) /\ exists fs, n = Go fs).
  { lstep_cases L; hdk Hd; injection Hd as <-; try discriminate D; cbn [drowsy] in D;
      (split; [|eexists; reflexivity]); eexists; (split; [reflexivity|]); (split; [first [left; exact D|right]|]);
      try (split; [intros j; now apply W|eexists _, _, _, _; split; [exact A|exact I]]).
    all: injection D as -> ->; cbn [atom] in A; injection A as _ A; auto. }
  destruct K as ((g & -> & D' & Wg & T & o & inp & x & A & O) & G). split; [eauto|]. split; auto.
  destruct o; try contradiction; cbn [atom] in A; op_unfold A; brki A; try discriminate A; inversion A; subst; try contradiction; unfold tr_of, trace; hs; cbn [rev]; eauto.
Qed.

Theorem drowsy_reachable : forall s, reachable s -> drowsy_inv s.
Proof.
  apply reachable_ind''.
  - intros t f r i tk E D A. cbn in A. discriminate A.
  - intros s s' R R' IH U Tr. destruct Tr as [d|t pre rest u E L|v pre rest h n E L].
    + intros t f r i tk. cbn [stk]. intros E D A Ir It. unfold trace in *. cbn [hp] in *. revert A Ir It. hs. cbn [rev].
      rewrite attached_snoc. unfold reg_ids. rewrite registered_snoc, interrupted_snoc. cbn [loc_step reg_step]. intros A Ir [It|[x It]]; [|discriminate It].
      unfold has_task. rewrite accepted_snoc, started_snoc. cbn. rewrite !app_nil_r. destruct (IH t f r i tk E D A Ir It) as [H|H]; [left|right]; auto.
    + exact IH.
    + intros t f r i tk. cbn [stk]. intros Es D A Ir It.
      set (s' := mkSt h (set_next (stk s) v n rest) None) in *.
      destruct (Nat.eq_dec t v) as [->|N].
      * (* its own step *)
        assert (St : next_frames n ++ rest = f :: r) by (unfold set_next in Es; destruct n; rewrite upd_same in Es; exact Es).
        assert (Hd : hd_error (next_frames n) = Some f).
        { destruct (next_frames n) as [|x fs]; [|cbn in *; congruence]. cbn in St.
          pose proof (under_reachable s R v) as Ut. destruct (lstep_pre _ _ _ _ _ L) as (P1 & _). rewrite E in Ut.
          destruct pre as [|p0 pre]; [congruence|]. cbn in Ut. rewrite St, unders_app in Ut. apply andb_true_iff in Ut as [_ Ut].
          cbn in Ut. apply andb_true_iff in Ut as [Ut _]. destruct f; try discriminate D; try discriminate Ut.
          destruct k; discriminate. }
        destruct (drowsy_own s v pre rest h n f i tk R E L Hd D) as ((g & -> & Dg & Wg) & Et & fs & ->).
        assert (K : attached v (trace s) = Some i /\ In i (reg_ids (trace s)) /\ interrupted tk (trace s) /\ (has_task i (trace s) -> has_task i (trace s'))).
        { change (trace s') with (tr_of h) in *. destruct Et as [Et|(e & Et & Q)]; rewrite Et in *; auto.
          rewrite attached_snoc in A. unfold reg_ids in *. rewrite registered_snoc in Ir. rewrite interrupted_snoc in It.
          destruct e; try contradiction; cbn [loc_step reg_step] in A, Ir; (destruct It as [It|[x It]]; [|discriminate It]); repeat (split; auto);
            intros H; apply has_task_app; auto; discriminate. }
        destruct K as (A1 & Ir1 & It1 & Ht). destruct Dg as [Dg|Dg].
        -- destruct (IH v g rest i tk E Dg A1 Ir1 It1) as [H|(u & fu & ru & Eu & Wu)]; [left; auto|right].
           exists u, fu, ru. split; auto. change (set_next (stk s) v (Go fs) rest u = fu :: ru). unfold set_next. rewrite upd_other; auto. intros ->. rewrite E in Eu. injection Eu as <- _. now apply Wg in Wu.
        -- apply (replay_toks tk s R) in It1. congruence.
      * (* a step of another thread *)
        assert (Es0 : stk s t = f :: r).
        { unfold set_next in Es. destruct n as [fs|c cfs fs]; rewrite !upd_eq in Es; destruct (Nat.eqb_spec t v); try contradiction; auto.
          destruct (Nat.eqb_spec t c); auto. exfalso.
          apply lstep_tst in L as [(b & k & inp & _ & _ & _ & _ & Y)|[(_ & Y & _)|((fs' & Y) & _)]]; try discriminate Y. injection Y as _ -> _.
          destruct b; cbn in Es; injection Es as <- _; discriminate D. }
        assert (A0 : attached t (trace s) = Some i).
        { change (trace s) with (tr_of (hp s)). change (trace s') with (tr_of (hp s')) in A. rewrite (rv_loc _ (r_inv_reachable s R)).
          rewrite (rv_loc _ (r_inv_reachable s' R')) in A. cbn [hp s'] in A. rewrite <- (loc_other s v pre h n t f r R L N Es0). exact A. }
        assert (Ow : own (hp s) i t).
        { change (trace s) with (tr_of (hp s)) in A0. rewrite (rv_loc _ (r_inv_reachable s R)) in A0. now apply (loc_own_reachable s R). }
        assert (M0 : mem i (h_regd (hp s)) = true).
        { eapply reg_before; eauto; [apply Ow|]. unfold reg_ids in Ir. change (trace s') with (tr_of (hp s')) in Ir.
          rewrite (rv_regd _ (r_inv_reachable s' R')) in Ir. now apply mem_In. }
        assert (Ir0 : In i (reg_ids (trace s))).
        { unfold reg_ids. change (trace s) with (tr_of (hp s)). rewrite (rv_regd _ (r_inv_reachable s R)). now apply mem_In. }
        assert (NV : own (hp s) i v -> False).
        { intros Ov. apply N. symmetry. exact (own_same s t v i R A0 Ov). }
        assert (Stv : forall u g q, u <> v -> stk s u = g :: q -> set_next (stk s) v n rest u = g :: q).
        { intros u g q Nu Eu. unfold set_next. destruct n as [fs|c cfs fs]; rewrite !upd_eq; destruct (Nat.eqb_spec u v); try contradiction; auto.
          destruct (Nat.eqb_spec u c); auto. subst c.
          apply lstep_tst in L as [(b & k & inp & _ & F & _ & _ & Y)|[(_ & Y & _)|((fs' & Y) & _)]]; try discriminate Y. injection Y as -> _ _.
          rewrite (fresh_empty _ _ R F) in Eu. discriminate Eu. }
        assert (Top : forall g, hd_error (next_frames n) = Some g -> exists q, set_next (stk s) v n rest v = g :: q).
        { intros g Hg. destruct (next_frames n) as [|x q] eqn:Nf; [discriminate|]. injection Hg as ->. exists (q ++ rest).
          unfold set_next. destruct n; cbn in Nf; subst; rewrite upd_same; reflexivity. }
        assert (Ht : has_task i (trace s) -> has_task i (trace s')).
        { intros H. change (trace s') with (tr_of h). unfold tr_of, trace in *. destruct (lstep_tr _ _ _ _ _ L) as [->|[e X]]; auto. rewrite X. cbn [rev].
          apply has_task_app; auto. intros w k ->. apply NV. eapply start_by; eauto. }
        assert (It' : interrupted tk (trace s) \/ coming s' i).
        { change (trace s') with (tr_of h) in It. unfold tr_of, trace in *. destruct (lstep_tr _ _ _ _ _ L) as [X|[e X]]; rewrite X in It; auto.
          cbn [rev] in It. apply interrupted_snoc in It as [It|[w ->]]; auto. right.
          destruct (int_by _ _ _ _ _ _ _ L X) as (j & q & -> & ->).
          assert (j = i) as ->.
          { pose proof (cvf_reachable s R v) as Fv. rewrite E in Fv. inversion Fv as [|? ? F1 _]; subst. destruct (F1 (j, tk) (or_introl eq_refl)) as (sm & all & ws & I1 & I2).
            destruct (in_at _ _ _ (notify_takes s R) I1) as (a & b & Eab & W).
            destruct (prefix_reachable s R a _ Eab) as (s1 & R1 & E1). subst a.
            assert (Tj : tok_of (trace s) sm j tk).
            { rewrite Eab. apply tok_of_app. apply (waiters_tok s1 R1 sm (j, tk)). subst ws. destruct all; auto.
              rewrite <- (firstn_skipn 1). apply in_or_app. auto. }
            assert (exists sm', tok_of (trace s) sm' i tk) as [sm' Ti].
            { pose proof (cvf_reachable s R t) as Ft. rewrite Es0 in Ft. inversion Ft as [|? ? F2 _]; subst.
              destruct f; try discriminate D; cbn in D, F2; try (destruct k; try discriminate D); injection D as <- <-; destruct F2 as [x F2]; eexists; eexists; eexists; exact F2. }
            destruct (token_unique s R _ _ _ _ _ Tj Ti). assumption. }
          exists v, (FDisp i TNop LkDisc). destruct (Top (FDisp i TNop LkDisc) eq_refl) as [q' Q]. exists q'. split; [exact Q|]. now left. }
        destruct It' as [It0|Cm]; [|auto].
        destruct (IH t f r i tk Es0 D A0 Ir0 It0) as [H|(u & fu & ru & Eu & Wu)]; [left; auto|].
        destruct (Nat.eq_dec u v) as [->|Nu]; [|right; exists u, fu, ru; split; auto; now apply Stv].
        assert (Pre : pre = [fu] /\ exists inp, runs (code fu) (hp s) v inp h n).
        { rewrite E in Eu. destruct Wu as [->|[->| ->]]; destruct L; cbn in Eu; try discriminate Eu; injection Eu as -> _; eauto. }
        destruct Pre as (-> & inp & Ru). destruct Wu as [->|[->| ->]].
        -- code_cases Ru. destruct (x =? i) eqn:Xi.
           ++ exfalso. apply Nat.eqb_eq in Xi. apply NV, (loc_own_reachable s R). cbn [atom] in A1. brki A1; try discriminate A1; injection A1 as _ <-; [congruence|].
              destruct Ow as [Ow _]. unfold invalid_id in Xi. lia.
           ++ right. exists v, (FInvoke i TNop LkDisc). destruct (Top (FInvoke i TNop LkDisc)) as [q Q]; [reflexivity|]. exists q. split; [exact Q|]. right. now left.
        -- code_cases Ru.
           ++ exfalso. cbn in Heqb. apply Nat.eqb_eq in Heqb. destruct Ow as [Ow _]. unfold invalid_id in Heqb. lia.
           ++ cbn [atom] in A1. rewrite M0 in A1. injection A1 as <- <-. right. exists v, (FPush i TNop LkDisc).
              destruct (Top _ eq_refl) as [q Q]. exists q. split; [exact Q|]. right. now right.
        -- left. code_cases Ru. cbn [atom] in A1. brki A1; [|discriminate A1]. injection A1 as <- _.
           unfold has_task. change (trace s') with (tr_of (hp s')). unfold tr_of. cbn [hp s']. hs. cbn [rev]. rewrite accepted_snoc, started_snoc. cbn.
           rewrite Nat.eqb_refl, app_nil_r, app_length. cbn. destruct (fifo s R i) as [y Y]. apply (f_equal (@length _)) in Y. rewrite app_length in Y. unfold trace in Y. lia.
Qed.

(** ** In the words of the properties *)
Theorem waiting_listed : forall s, reachable s -> forall a b t sm i tk f, trace s = a ++ EvWaiter t sm i tk f :: b ->
  i <> invalid_id -> (forall u, ~ In (EvUnwaiter u sm i) b) ->
  In (i, tk) (waiters sm (trace s)) \/ interrupted tk (trace s) \/ exists u ws, In (FNotifyL ws) (stk s u) /\ In (i, tk) ws.
Proof.
  intros s R a b t sm i tk f E N U. destruct (waiter_stays s R a b t sm i tk f E U) as [H|(u & all & ws & I & J)]; auto.
  assert (I' : In (EvNotify u sm all ws) (trace s)) by (rewrite E; apply in_or_app; right; now right).
  destruct (notified_reachable s R u sm all ws (i, tk) I' J N) as [H|(ws' & H & H')]; [now right; left|]. right. right. exists u, ws'. auto.
Qed.
Theorem interrupted_wakes : forall s, reachable s -> forall t i dl sm l tk e k r,
  stk s t = FSleep i dl (WSem sm l i tk e k) :: r -> attached t (trace s) = Some i -> In i (reg_ids (trace s)) -> interrupted tk (trace s) ->
  accepted i (trace s) <> started i (trace s) \/
  exists u f r', stk s u = f :: r' /\ (f = FDisp i TNop LkDisc \/ f = FInvoke i TNop LkDisc \/ f = FPush i TNop LkDisc).
Proof.
  intros s R t i dl sm l tk e k r E A Ir It.
  destruct (drowsy_reachable s R t _ r i tk E eq_refl A Ir It) as [H|H]; [left|right; exact H].
  intros X. unfold has_task in H. rewrite X in H. lia.
Qed.
Theorem token_from_notify : forall s, reachable s -> at_each (fun tr e => match e with
  | EvInterrupt u tk => exists i sm all ws, In (EvNotify u sm all ws) tr /\ In (i, tk) ws
  | EvWaiter _ _ _ tk true => ~ interrupted tk tr
  | _ => True end) (trace s).
Proof.
  intros s R a e b E. destruct e; auto.
  - destruct fresh; auto. pose proof (waiter_added s R a _ b E) as [_ W]. intros [u I]. apply W.
    destruct (prefix_reachable s R a _ E) as (s1 & R1 & <-).
    destruct (in_at _ _ _ (interrupt_from s1 R1) I) as (a1 & b1 & E1 & i' & sm & all & ws & In1 & In2).
    assert (In3 : In (EvNotify u sm all ws) (trace s1)) by (rewrite E1; apply in_or_app; auto).
    destruct (in_at _ _ _ (notify_takes s1 R1) In3) as (a2 & b2 & E2 & W2).
    destruct (prefix_reachable s1 R1 a2 _ E2) as (s2 & R2 & <-).
    assert (T : tok_of (trace s2) sm i' tok).
    { apply (waiters_tok s2 R2 sm (i', tok)). subst ws. destruct all; auto. rewrite <- (firstn_skipn 1). apply in_or_app. auto. }
    destruct T as (x & y & T). exists x, sm, i', y. rewrite E2. apply in_or_app. auto.
  - destruct (interrupt_from s R a _ b E) as (i & sm & all & ws & H). exists i, sm, all, ws. exact H.
Qed.
