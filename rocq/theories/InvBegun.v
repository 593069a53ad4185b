(** * InvBegun: the continuation of a combinator that was started runs to its end. *)
From Verif Require Import Types Core State Ops Code Machine Base Spec SpecKind SpecOwn SpecPack SpecPool SpecWhere SpecStarted SpecWhen SpecFire SpecWork SpecServe SpecBegun Rules Events Calls InvCtx InvQueue InvBound InvStack InvRefs InvAff InvSleep Contract Count Replay ReplayObj InvCv InvKind Adj Own OwnRefs OwnProm OwnDead OwnTask InvLock InvPack InvFire InvWhen InvFill InvHook InvComb InvArmed InvWork InvServe InvBroken OwnRun.
From Verif Require OwnWhere ThmRegistry ThmSleep InvStarted InvTab OwnJob.

(** ** Such continuations are at the top of the stack *)
Definition is_top (f : frame) : bool := match f with FRun (TPack _ (BAll _ _ _)) | FRun (TPack _ (BAny _ _ _)) | FWIn _ _ _ _ _ => true | _ => false end.
Definition htop (a : option frame) (f : frame) (r : list frame) : Prop := is_top f = true -> a = None.
Theorem htop_reachable : forall s, reachable s -> forall t, adj htop None (stk s t).
Proof.
  apply (adj_rule (fun s t => htop)); auto.
  - intros t. cbn. destruct t; cbn; unfold htop; cbn; repeat split; discriminate.
  - intros s t pre rest h n R R' E L Fp. split; [|split].
    + lstep_cases L; cbn [next_frames] in *; sh_; try exact Logic.I; unfold htop; cbn [is_top]; try discriminate; try reflexivity.
      intros Q. exfalso. destruct x as [d y]. cbn [snd] in Heqo. subst y. cbn [atom] in A.
      destruct (pool_take (h_pools (hp s) pl) lv inp) as [p' r'] eqn:T.
      assert (r' = Some (n, t0)) by (destruct (pool_top _ _ _); destruct r' as [[]|]; try discriminate A; now inversion A). subst r'. destruct (OwnJob.take_closure _ _ _ _ _ _ T) as (y & J & K & _).
      pose proof (InvTab.tab_inv pl s R) as F. rewrite Forall_forall in F. destruct (F _ J) as (? & ? & ? & ? & _ & _ & [C|(? & ? & C)]); cbn in C; rewrite K in C; rewrite C in Q; discriminate Q.
    + destruct rest as [|g r]; auto. intros Hg. assert (N : lasto None pre <> None).
      { assert (pre <> []) by (intros ->; inversion L). destruct pre as [|f pre]; [congruence|]. cbn. clear. revert f. induction pre; cbn; [discriminate|auto]. }
      intros Q. apply Hg in Q. contradiction.
    + destruct (spawned n) as [[c cfs]|] eqn:Sp; auto. destruct (lstep_spawned _ _ _ _ _ _ _ L Sp) as (_ & _ & b & ->). destruct b; cbn; unfold htop; cbn; repeat split; discriminate.
Qed.
Lemma top_only : forall s t f, reachable s -> In f (stk s t) -> is_top f = true -> exists r, stk s t = f :: r.
Proof.
  intros s t f R J H. pose proof (htop_reachable s R t) as A. apply in_split in J as (a & b & E). pose proof (adj_in _ _ _ _ _ _ A E) as X.
  specialize (X H). destruct a as [|x a]; [eauto|]. exfalso.
  assert (N : lasto None (x :: a) <> None) by (clear; cbn; revert x; induction a; cbn; [discriminate|auto]). contradiction.
Qed.

(** ** A continuation that was started *)
Definition hk (all : bool) (w i : nat) (par : sid) : body := if all then BAll w i par else BAny w i par.
Definition runs (all : bool) (w i : nat) (q par : sid) (f : frame) : Prop := f = FRun (TPack q (hk all w i par)) \/ f = FWIn all w i par q.
Lemma runs_top : forall all w i q par f, runs all w i q par f -> is_top f = true.
Proof. intros [] w i q par f [->| ->]; reflexivity. Qed.
Lemma runs_step : forall s t f r pre rest h n all w i q par, reachable s -> stk s t = f :: r -> stk s t = pre ++ rest -> lstep (hp s) t pre h n -> runs all w i q par f ->
  (exists f', In f' (next_frames n) /\ runs all w i q par f') \/ h_tr h = EvHook t w i q :: h_tr (hp s).
Proof.
  intros s t9 f9 r9 pre rest h n all9 w9 i9 q9 par9 R E0 E L H.
  assert (Ep : exists pr, pre = f9 :: pr) by (destruct pre as [|g pr]; [inversion L|]; rewrite E0 in E; injection E as <- _; eauto).
  destruct Ep as [pr Ep]. clear E E0.
  destruct H as [->| ->]; lstep_cases L; try discriminate Ep; injection Ep; intros; subst; try (destruct all9; discriminate).
  - left. exists (FWIn true w i par q9). split; [now left|]. right. destruct all9; cbn in *; congruence.
  - left. exists (FWIn false w i par q9). split; [now left|]. right. destruct all9; cbn in *; congruence.
  - right. cbn [atom] in A. destruct (wall_step _ _ _). injection A as <- _. hs. reflexivity.
  - right. cbn [atom] in A. destruct (wany_step _ _ _). injection A as <- _. hs. reflexivity.
Qed.
Theorem hook_run : forall s, reachable s -> forall t c all w i q par, In (EvStart t c (TPack q (hk all w i par))) (trace s) ->
  In (EvHook t w i q) (trace s) \/ exists f, In f (stk s t) /\ runs all w i q par f.
Proof.
  apply (reachable_ind'' (fun s => forall t c all w i q par, In (EvStart t c (TPack q (hk all w i par))) (trace s) ->
    In (EvHook t w i q) (trace s) \/ exists f, In f (stk s t) /\ runs all w i q par f)).
  - intros t c all w i q par [].
  - intros s s' R R' IH U Tr t9 c9 all w i q par H. destruct Tr as [d|t pre rest ub E L|t pre rest h n E L].
    + change (trace (mkSt _ _ _)) with (trace s ++ [EvTick (Zpos d)]) in *.
      apply in_app_or in H as [H|[H|[]]]; [|discriminate H]. destruct (IH _ _ _ _ _ _ _ H) as [X|X]; auto. left. apply in_or_app. auto.
    + exact (IH _ _ _ _ _ _ _ H).
    + set (s' := mkSt h (set_next (stk s) t n rest) None) in *.
      destruct (lstep_tr' _ _ _ _ _ L) as [l Et]. assert (Et' : trace s' = trace s ++ l) by exact Et.
      assert (Old : In (EvStart t9 c9 (TPack q (hk all w i par))) (trace s) \/ h_tr h = EvStart t9 c9 (TPack q (hk all w i par)) :: h_tr (hp s)).
      { unfold trace in H. cbn [hp s'] in H. destruct (lstep_tr _ _ _ _ _ L) as [X|[e X]]; rewrite X in H; [now left|]. cbn [rev] in H.
        apply in_app_or in H as [H|[H|[]]]; [now left|right; now rewrite X, H]. }
      destruct Old as [Old|New].
      * destruct (IH _ _ _ _ _ _ _ Old) as [X|(f & J & Hf)]; [left; rewrite Et'; apply in_or_app; auto|].
        destruct (Nat.eq_dec t9 t) as [->|Nt].
        -- destruct (top_only s t f R J (runs_top _ _ _ _ _ _ Hf)) as [r Er].
           destruct (runs_step s t f r pre rest h n all w i q par R Er E L Hf) as [(f' & J' & H')|X].
           ++ right. exists f'. split; auto. cbn [stk s']. rewrite next_own. apply in_or_app; auto.
           ++ left. unfold trace. cbn [hp s']. rewrite X. cbn [rev]. apply in_or_app. right. now left.
        -- right. exists f. split; auto. cbn [stk s']. destruct n as [fs|c cfs fs]; cbn [set_next]; rewrite upd_other by auto; auto.
           destruct (lstep_spawned _ _ _ _ _ _ _ L eq_refl) as (F & _ & _). destruct (Nat.eq_dec t9 c) as [->|Nc]; [|now rewrite upd_other].
           rewrite (fresh_empty s c R F) in J. destruct J.
      * destruct (OwnWhere.start_step _ _ _ _ _ _ _ _ L New) as [-> J]. right. exists (FRun (TPack q (hk all w i par))). split; [|now left].
        cbn [stk s']. rewrite next_own. apply in_or_app; auto.
Qed.
Definition quiet (f : frame) : bool := match f with FRun _ | FWIn _ _ _ _ _ | FWUnl _ _ | FWMark _ _ | FApi _ => false | _ => true end.
Lemma home_quiet : forall s t f, at_home s t = true -> In f (stk s t) -> quiet f = true /\ forall w, ~ bf w f.
Proof.
  intros s t f H J. unfold at_home in H. destruct (home (stk s t)) eqn:Hk; [clear H|discriminate H]. revert J Hk. generalize (stk s t). intros l J Hk. unfold home in Hk.
  repeat match type of Hk with context [match ?x with _ => _ end] => is_var x; destruct x; try discriminate Hk end;
  cbn [In] in J; repeat destruct J as [<-|J]; try contradiction; (split; [reflexivity|]); intros w0 [[k0 X]|[X|X]]; discriminate X.
Qed.
Lemma begun_hook : forall s t all w i, reachable s -> at_home s t = true -> begun (trace s) all t w i -> exists q, In (EvHook t w i q) (trace s).
Proof.
  intros s t all w i R Ho [H|(c & k & (q & par & ->) & H)]; auto.
  destruct (hook_run s R t c all w i q par H) as [X|(f & J & Hf)]; [eauto|]. exfalso.
  destruct (home_quiet s t f Ho J) as [X _]. destruct Hf as [->| ->]; discriminate X.
Qed.

(** ** Who works on a combinator *)
Theorem hook_thread : forall s, reachable s -> forall t, Forall (fun f => match f with
  | FWUnl w (WaPack q) | FWMark w (WaPack q) => exists i, In (EvHook t w i q) (trace s) | _ => True end) (stk s t).
Proof.
  apply (frame_rule reachable (fun h t f => match f with FWUnl w (WaPack q) | FWMark w (WaPack q) => exists i, In (EvHook t w i q) (tr_of h) | _ => True end)); try exact Logic.I; auto.
  - intros s d u f R _ H. destruct f; auto; destruct a; auto; destruct H as [i H]; exists i; unfold tr_of in *; hs; cbn; apply in_or_app; auto.
  - intros s t pre rest h n u f R _ E L _ _ H. destruct (lstep_tr' _ _ _ _ _ L) as [l Et].
    destruct f; auto; destruct a; auto; destruct H as [i H]; exists i; rewrite Et; apply in_or_app; auto.
  - intros s t pre rest h n R E L Fp _. destruct (lstep_tr' _ _ _ _ _ L) as [l Et].
    assert (M : forall w q i, In (EvHook t w i q) (tr_of (hp s)) -> exists i, In (EvHook t w i q) (tr_of h)) by (intros w q i H; exists i; rewrite Et; apply in_or_app; auto).
    split.
    + clear Et. lstep_cases L; cbn [next_frames]; fl_; try exact Logic.I.
      all: try (rewrite Forall_forall in Fp; match type of Fp with context [_ :: _] => pose proof (Fp _ (or_introl eq_refl)) as F1; cbn in F1 end; try destruct a; auto; destruct F1 as (? & ?); eapply M; eassumption).
      all: eexists; cbn [atom] in A; first [destruct (wall_step _ _ _)|destruct (wany_step _ _ _)]; injection A as <- _; unfold tr_of; hs; cbn [rev]; apply in_or_app; right; now left.
    + destruct (spawned n) as [[c cfs]|] eqn:Sp; auto. destruct (lstep_spawned _ _ _ _ _ _ _ L Sp) as (_ & _ & b & ->). destruct b; repeat constructor.
Qed.
Definition by_caller (w : nat) (f : frame) : Prop := bf w f \/ f = FWMark w WaRet.
Theorem builder_thread : forall s, reachable s -> forall t, Forall (fun f => forall w, by_caller w f -> exists a p ins, In (EvWhen t a w p ins) (trace s)) (stk s t).
Proof.
  apply (frame_rule reachable (fun h t f => forall w, by_caller w f -> exists a p ins, In (EvWhen t a w p ins) (tr_of h))); auto.
  - intros w [[[k X]|[X|X]]|X]; discriminate X.
  - intros w [[[k X]|[X|X]]|X]; discriminate X.
  - intros s d u f R _ H w B. destruct (H w B) as (a & p & ins & J). exists a, p, ins. unfold tr_of in *. hs. cbn. apply in_or_app; auto.
  - intros s t pre rest h n u f R _ E L _ _ H w B. destruct (lstep_tr' _ _ _ _ _ L) as [l Et]. destruct (H w B) as (a & p & ins & J). exists a, p, ins. rewrite Et. apply in_or_app; auto.
  - intros s t pre rest h n R E L Fp _. destruct (lstep_tr' _ _ _ _ _ L) as [l Et]. split.
    + assert (Old : forall w f, In f pre -> by_caller w f -> exists a p ins, In (EvWhen t a w p ins) (tr_of h)).
      { intros w f J B. rewrite Forall_forall in Fp. destruct (Fp f J w B) as (a & p & ins & X). exists a, p, ins. rewrite Et. apply in_or_app; auto. }
      pose proof (bf_prev _ _ _ _ _ L) as Bp. apply Forall_forall. intros g J w [B| ->].
      * rewrite Forall_forall in Bp. destruct (Bp g J w B) as [(f & Jf & Bf)|(a & p & ins & X)]; [apply (Old w f); auto; now left|].
        exists a, p, ins. unfold tr_of. rewrite X. cbn [rev]. apply in_or_app. right. now left.
      * assert (Q : In (FWFin1 w) pre).
        { clear - L J. assert (Z : Forall (fun f => f = FWMark w WaRet -> In (FWFin1 w) pre) (next_frames n)).
          { clear J. lstep_cases L; cbn [next_frames]; fl_; try discriminate. intros X. injection X as ->. now left. }
          rewrite Forall_forall in Z. exact (Z _ J eq_refl). }
        apply (Old w (FWFin1 w)); auto. left. unfold bf. auto.
    + destruct (spawned n) as [[c cfs]|] eqn:Sp; auto. destruct (lstep_spawned _ _ _ _ _ _ _ L Sp) as (_ & _ & b & ->).
      destruct b; repeat constructor; intros w [[[k X]|[X|X]]|X]; discriminate X.
Qed.
Lemma when_thread : forall s w t a p ins t' a' p' ins', reachable s -> In (EvWhen t a w p ins) (trace s) -> In (EvWhen t' a' w p' ins') (trace s) -> t = t'.
Proof.
  intros s w t a p ins t' a' p' ins' R J K. destruct (Nat.eq_dec t t') as [|N]; auto. exfalso.
  destruct (in_two _ _ _ _ J K) as (x & y & z & [E|E]); try congruence;
    apply (sumf_two _ (fun e => b2z (is_w w e))) in E; try (intros; apply b2z_nn); cbn [is_w] in E; rewrite !Nat.eqb_refl in E;
    pose proof (whens_le w s R) as H; unfold whens in H; cbn in E; lia.
Qed.
Lemma hook_by_one : forall s w i t q t' q', reachable s -> In (EvHook t w i q) (trace s) -> In (EvHook t' w i q') (trace s) -> t = t'.
Proof.
  intros s w i t q t' q' R J K.
  destruct (hook_from s t w i q R J) as (t1 & v1 & a1 & p1 & J1 & _). destruct (hook_from s t' w i q' R K) as (t2 & v2 & a2 & p2 & J2 & _).
  assert (q = q') by (eapply hook_one; eauto). subst q'. destruct (Nat.eq_dec t t') as [|N]; auto. exfalso.
  pose proof (hook_once s q R) as H. rewrite <- (rev_involutive (h_tr (hp s))) in H. change (rev (h_tr (hp s))) with (trace s) in H.
  destruct (in_two _ _ _ _ J K) as (x & y & z & [E|E]); try congruence; rewrite E in H.
  - pose proof (costs_split (hcost q) x (EvHook t w i q) y (EvHook t' w i q) z (hcost_nn q)) as X. cbn [hcost] in X. rewrite !one_same in X. lia.
  - pose proof (costs_split (hcost q) x (EvHook t' w i q) y (EvHook t w i q) z (hcost_nn q)) as X. cbn [hcost] in X. rewrite !one_same in X. lia.
Qed.

(** ** The results *)
Theorem all_home : forall s t w p ins, reachable s -> combines (trace s) true w p ins -> (forall i, i < length ins -> begun (trace s) true t w i) ->
  at_home s t = true -> is_ready p (trace s).
Proof.
  intros s t w p ins R C Hk Ho. assert (C1 : comb (hp s) true w ins) by (exists p; exact C).
  destruct (all_count_reachable s R w ins C1) as [H1 H2]. rewrite (comb_total _ _ _ _ R C1) in H2.
  assert (Pm : w < h_nw (hp s) /\ w_prom (h_wcs (hp s) w) = p) by (destruct C as [u J]; apply (when_heap_reachable s R) in J; tauto). destruct Pm as [W Pm].
  assert (Hh : forall i, i < length ins -> exists q, In (EvHook t w i q) (trace s)) by (intros i Li; apply (begun_hook s t true w i R Ho); auto).
  assert (Le : length ins <= length (hidx w (trace s))).
  { rewrite <- (seq_length (length ins) 0). apply NoDup_incl_length; [apply seq_NoDup|]. intros i J. apply in_seq in J. apply hidx_in. destruct (Hh i) as [q X]; [lia|]. eauto. }
  destruct (H2 ltac:(lia)) as [X|(t1 & f & q & b & E1 & _)]; [congruence|]. exfalso.
  assert (Ju : In (FWUnl w (WaPack q)) (stk s t1)) by (rewrite E1; right; now left).
  pose proof (hook_thread s R t1) as F. rewrite Forall_forall in F. destruct (F _ Ju) as [i Je].
  destruct (hook_from s _ _ _ _ R Je) as (t2 & v2 & a2 & p2 & J2 & _). destruct (hook_input s R _ _ _ _ _ _ _ J2) as [Ni _].
  destruct (InvComb.prefix_reachable _ R _ _ _ C1) as (rst0 & Pf & _).
  assert (Li : i < length ins) by (rewrite Pf, app_length; assert (i < length (w_states (h_wcs (hp s) w))) by (apply nth_error_Some; congruence); lia).
  destruct (Hh i Li) as [q' Je']. pose proof (hook_by_one s w i _ _ _ _ R Je Je') as ->.
  destruct (home_quiet s t _ Ho Ju) as [X _]. discriminate X.
Qed.
Theorem any_home : forall s t w p ins i, reachable s -> In (EvWhen t false w p ins) (trace s) -> begun (trace s) false t w i ->
  (forall u j q, In (EvHook u w j q) (trace s) -> u = t) -> at_home s t = true -> is_ready p (trace s).
Proof.
  intros s t w p ins i R C Bg Al Ho. assert (C1 : comb (hp s) false w ins) by (exists p, t; exact C).
  destruct (armed_reachable s R w ins C1) as (H1 & _ & H3 & _).
  assert (Pm : w < h_nw (hp s) /\ w_prom (h_wcs (hp s) w) = p) by (apply (when_heap_reachable s R) in C; tauto). destruct Pm as [W Pm].
  destruct (begun_hook s t false w i R Ho Bg) as [q J].
  assert (Bld : forall u f, In f (stk s u) -> by_caller w f -> False).
  { intros u f Jf B. pose proof (builder_thread s R u) as F. rewrite Forall_forall in F. destruct (F f Jf w B) as (a & p' & ins' & Je).
    pose proof (when_thread s w _ _ _ _ _ _ _ _ R Je C) as ->. destruct (home_quiet s t f Ho Jf) as [X Y].
    destruct B as [B| ->]; [exact (Y w B)|discriminate X]. }
  destruct (H3 (H1 _ _ _ J)) as [[X|(u & a & X)]|(u & f & X & B)].
  - congruence.
  - exfalso. destruct a as [|q2]; [apply (Bld u _ X); now right|]. pose proof (hook_thread s R u) as F. rewrite Forall_forall in F. destruct (F _ X) as [j Je].
    apply Al in Je as ->. destruct (home_quiet s t _ Ho X) as [Y _]. discriminate Y.
  - exfalso. apply (Bld u f X). now left.
Qed.
Lemma started_by : forall s t i ls s' v k, reachable s -> all_along (serving t i) s ls -> run s ls = Some s' -> (exists r, started i (trace s') = accepted i (trace s) ++ r) ->
  In (EvAccept v i k) (trace s) -> In (EvStart t i k) (trace s').
Proof.
  intros s t i ls s' v k R Q Rn (r & Sr) Ac. pose proof (run_reachable' _ _ _ R Rn) as R'.
  assert (Ik : In k (started i (trace s'))).
  { rewrite Sr. apply in_or_app. left. unfold accepted. apply in_flat_map. eexists. split; [exact Ac|]. cbn. rewrite Nat.eqb_refl. now left. }
  unfold started in Ik. apply in_flat_map in Ik as (e & Ie & Ik). destruct e; try destruct Ik.
  destruct (i0 =? i) eqn:X; [|destruct Ik]. apply Nat.eqb_eq in X. subst. destruct Ik as [->|[]].
  assert (t0 = t); [|subst; exact Ie].
  pose proof Ie as Ie2. apply in_split in Ie as (a & b & Es). destruct (ThmSleep.affinity s' R' _ _ _ Es) as [(u1 & A1) _].
  destruct (all_along_last _ _ _ _ Q Rn) as [At _]. change (trace s') with (tr_of (hp s')) in At.
  rewrite (rv_loc _ (r_inv_reachable s' R')) in At. apply (loc_own_reachable s' R') in At. destruct (own_event s' R' _ _ At) as (u2 & A2).
  apply (InvStarted.creator_one s' u1 t0 u2 t i R'); auto. rewrite Es. apply in_or_app. now left.
Qed.
Theorem all_served : forall s t c ls s' w p ins, reachable s -> looping (stk s t) = true -> all_along (serving t c) s ls -> run s ls = Some s' -> ubs s' = None ->
  combines (trace s) true w p ins -> (forall i, i < length ins -> sent (trace s) true t c w i) -> at_home s' t = true ->
  is_ready p (trace s') \/ home_steps t s ls <= 3 * waiting c (trace s) /\ exists s2, step s' (LStep t 0) = Some s2.
Proof.
  intros s t c ls s' w p ins R Lo Q Rn U C Hs Ho. pose proof (run_reachable' _ _ _ R Rn) as R'.
  destruct (run_grows _ _ _ Rn) as (m & Em).
  destruct (worker_serves s t c ls s' R Lo Q Rn U) as [Sr|[B M]]; [left|right; auto].
  apply (all_home s' t w p ins R'); auto.
  - destruct C as [u C]. exists u. rewrite Em. apply in_or_app. auto.
  - intros i Li. destruct (Hs i Li) as [[q X]|(v & k & K & X)]; [left; exists q; rewrite Em; apply in_or_app; auto|].
    right. exists c, k. split; auto. exact (started_by s t c ls s' v k R Q Rn Sr X).
Qed.
Theorem any_served : forall s t c ls s' w p ins i, reachable s -> looping (stk s t) = true -> all_along (serving t c) s ls -> run s ls = Some s' -> ubs s' = None ->
  In (EvWhen t false w p ins) (trace s) -> sent (trace s) false t c w i -> (forall u j q, In (EvHook u w j q) (trace s') -> u = t) -> at_home s' t = true ->
  is_ready p (trace s') \/ home_steps t s ls <= 3 * waiting c (trace s) /\ exists s2, step s' (LStep t 0) = Some s2.
Proof.
  intros s t c ls s' w p ins i R Lo Q Rn U C Hs Al Ho. pose proof (run_reachable' _ _ _ R Rn) as R'.
  destruct (run_grows _ _ _ Rn) as (m & Em).
  destruct (worker_serves s t c ls s' R Lo Q Rn U) as [Sr|[B M]]; [left|right; auto].
  apply (any_home s' t w p ins i R'); auto.
  - rewrite Em. apply in_or_app. auto.
  - destruct Hs as [[q X]|(v & k & K & X)]; [left; exists q; rewrite Em; apply in_or_app; auto|].
    right. exists c, k. split; auto. exact (started_by s t c ls s' v k R Q Rn Sr X).
Qed.
