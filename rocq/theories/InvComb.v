(** * InvComb: what a combinator has collected. *)
From Verif Require Import Types Core State Ops Code Machine Base Spec SpecKind SpecOwn SpecWhen SpecFire Rules Events Calls InvCtx InvBound InvStack InvRefs Contract Count Replay ReplayObj InvCv InvKind Adj Own OwnRefs OwnProm OwnRun OwnDead OwnTask InvLock InvPack InvFire InvWhen InvFill InvHook.

Lemma option_eq_dec : forall A (d : forall a b : A, {a = b} + {a <> b}) (x y : option A), {x = y} + {x <> y}.
Proof. decide equality. Qed.
(** ** What changes a combinator *)
Definition weq (a b : wctx) : Prop :=
  w_nready b = w_nready a /\ w_processed b = w_processed a /\ w_ready b = w_ready a /\ w_set b = w_set a /\
  w_index b = w_index a /\ w_result b = w_result a /\ w_states b = w_states a.
Definition touches (w : nat) (f : frame) : Prop :=
  match f with
  | FWFillAll w' _ _ (_ :: _) _ | FWEach w' _ _ _ (WrH (_ :: _)) | FWThen w' _ _ _ _ _ _ | FWProc w' (KAny _) _ _ _
  | FWIn _ w' _ _ _ | FWFin1 w' | FWMark w' _ => w' = w
  | _ => False
  end.
Definition opw {T} (o : op T) : option nat :=
  match o with OWFill w _ | OWThen w _ _ | OWProcess w | OWAll w _ _ _ | OWAny w _ _ _ | OWFinal w | OWMark w => Some w | _ => None end.
Lemma atom_weq : forall h t T (o : op T) inp h' x w, atom h t o inp = AOk h' x -> w < h_nw h -> opw o <> Some w -> weq (h_wcs h w) (h_wcs h' w).
Proof.
  intros h t T o inp h' x w A W N. unfold weq. destruct o; cbn [opw] in N; atom_split A; try (repeat split; reflexivity);
    rewrite !upd_eq; match goal with |- context [?a =? ?b] => destruct (Nat.eqb_spec a b); subst end; cbn; try lia; try congruence; repeat split; reflexivity.
Qed.
Definition hooke (w : nat) (e : event) : option (tid * nat * sid) := match e with EvHook t w' i q => if w' =? w then Some (t, i, q) else None | _ => None end.
Lemma atom_nohook : forall h t T (o : op T) inp h' x w, atom h t o inp = AOk h' x -> opw o <> Some w ->
  (forall e, op_event h t o x = Some e -> match o with OLog _ => hooke w e = None | _ => True end) ->
  forall t0 i q, In (EvHook t0 w i q) (h_tr h') -> In (EvHook t0 w i q) (h_tr h).
Proof.
  intros h t T o inp h' x w A N M t0 i q J. rewrite (atom_event _ _ _ _ _ _ _ A) in J. destruct (op_event h t o x) as [e|] eqn:Oe; auto.
  destruct J as [->|J]; auto. exfalso. destruct o; cbn [opw op_event] in *; try discriminate Oe; try (brki Oe; discriminate Oe); try congruence.
  specialize (M _ eq_refl). cbn in M. now rewrite Nat.eqb_refl in M.
Qed.
Lemma lstep_weq : forall h t pre h' n w0, lstep h t pre h' n -> w0 < h_nw h ->
  (weq (h_wcs h w0) (h_wcs h' w0) /\ forall t0 i q, In (EvHook t0 w0 i q) (h_tr h') -> In (EvHook t0 w0 i q) (h_tr h)) \/ exists f, pre = [f] /\ touches w0 f.
Proof.
  intros h t pre h' n w1 L W. lstep_cases L.
  all: try (left; split; [repeat split; reflexivity|]; intros t0 i0 q0 [J|J]; [discriminate J|exact J]).
  all: match goal with A : atom _ _ ?o _ = AOk _ _ |- _ =>
    let Ow := fresh "Ow" in destruct (option_eq_dec _ Nat.eq_dec (opw o) (Some w1)) as [Ow|Ow]; [cbn in Ow; first [discriminate Ow | right; eexists; split; [reflexivity|cbn; congruence]]|] end.
  all: match goal with A : atom _ _ ?o _ = AOk _ _ |- _ =>
    left; split; [eapply atom_weq; [exact A|exact W|exact Ow]|
      eapply atom_nohook; [exact A|exact Ow|intros ev Oe; try exact Logic.I]] end.
  all: try (cbn [op_event] in Oe; injection Oe as <-; reflexivity).
Qed.
(** ** The inputs *)
Lemma states_grow : forall s t pre rest h n w, reachable s -> stk s t = pre ++ rest -> lstep (hp s) t pre h n -> w < h_nw (hp s) ->
  exists l, w_states (h_wcs h w) = w_states (h_wcs (hp s) w) ++ l.
Proof.
  intros s t pre rest h n w R E L W. apply lstep_hstep in L. destruct L as [e Ok|T o inp h' x Ok A]; [exists []; now rewrite app_nil_r|].
  destruct (option_eq_dec _ Nat.eq_dec (opw o) (Some w)) as [Ow|Ow].
  2: { pose proof (atom_weq _ _ _ _ _ _ _ _ A W Ow) as (_ & _ & _ & _ & _ & _ & ->). exists []. now rewrite app_nil_r. }
  destruct o; try discriminate Ow; injection Ow as ->; atom_split A; repeat match goal with
        | E : wall_step _ _ _ = _ |- _ => apply wall_same in E as [? ?]
        | E : wany_step _ _ _ = _ |- _ => apply wany_same in E as [? ?]
        | E : wany_final _ = _ |- _ => apply wfin_same in E as [? ?]
        end; rewrite upd_same; try (exists []; rewrite app_nil_r; auto; fail).
  all: cbn; eauto.
Qed.
Lemma nth_app : forall A (l r : list A) i x, nth_error l i = Some x -> nth_error (l ++ r) i = Some x.
Proof. intros A l r i x H. rewrite nth_error_app1; auto. apply nth_error_Some. congruence. Qed.
Theorem hook_input : forall s, reachable s -> forall t sq vd a w idx par, In (EvState t sq vd (PuHook a w idx par)) (trace s) ->
  nth_error (w_states (h_wcs (hp s) w)) idx = Some par /\ exists ins, comb (hp s) a w ins.
Proof.
  apply (reachable_ind'' (fun s => forall t sq vd a w idx par, In (EvState t sq vd (PuHook a w idx par)) (trace s) ->
    nth_error (w_states (h_wcs (hp s) w)) idx = Some par /\ exists ins, comb (hp s) a w ins)).
  - intros t sq vd a w idx par [].
  - intros s s' R R' IH U Tr t sq vd a w1 ix pr0 J. destruct Tr as [d|t0 pre rest u E L|t0 pre rest h n E L].
    + assert (J' : In (EvState t sq vd (PuHook a w1 ix pr0)) (trace s)).
      { change (In (EvState t sq vd (PuHook a w1 ix pr0)) (trace s ++ [EvTick (Zpos d)])) in J. apply in_app_or in J as [J|[J|[]]]; [exact J|discriminate J]. }
      destruct (IH _ _ _ _ _ _ _ J') as [H1 (ins & H2)]. split; auto. exists ins. eapply comb_mono; [|exact H2]. eexists. unfold tr_of. cbn [hp]. hs. reflexivity.
    + exact (IH _ _ _ _ _ _ _ J).
    + cbn [hp]. pose proof (lstep_trl _ _ _ _ _ L) as Tr.
      assert (Old : In (EvState t sq vd (PuHook a w1 ix pr0)) (trace s) -> nth_error (w_states (h_wcs h w1)) ix = Some pr0 /\ exists ins, comb h a w1 ins).
      { intros J'. destruct (IH _ _ _ _ _ _ _ J') as [H1 (ins & H2)]. destruct (states_grow _ _ _ _ _ _ w1 R E L (comb_lt _ _ _ _ R H2)) as [l ->].
        split; [now apply nth_app|]. exists ins. eapply comb_mono; eauto. }
      destruct (lstep_tr _ _ _ _ _ L) as [Et|[e Et]].
      * apply Old. unfold trace, tr_of in *. cbn [hp] in J. now rewrite Et in J.
      * unfold trace, tr_of in J. cbn [hp] in J. rewrite Et in J. cbn [rev] in J. apply in_app_or in J as [J|[J|[]]]; [exact (Old J)|]. subst e.
        pose proof (fst_reachable s R t0) as F. rewrite E in F. apply Forall_app in F as [F _].
        ev_cases L Et. injection Et as <- <- <- <- <- <- <-. inversion F as [|? ? F0 _]; subst. cbn [fst_] in F0. destruct F0 as (F1 & ins & F2 & _).
        pose proof (comb_lt _ _ _ _ R F2) as W. pose proof (atom_weq _ _ _ _ _ _ _ w A W ltac:(discriminate)) as (_ & _ & _ & _ & _ & _ & ->).
        split; auto. exists ins. eapply comb_mono; eauto.
Qed.
Lemma purpose_hook : forall tr q a w i par, purpose_is tr q (PuHook a w i par) -> exists t v, In (EvState t q v (PuHook a w i par)) tr.
Proof. intros tr q a w i par [H|(t & a' & w' & ins & _ & H)]; [exact H|discriminate H]. Qed.
Lemma hook_from : forall s t w i q, reachable s -> In (EvHook t w i q) (trace s) ->
  exists t' v a par, In (EvState t' q v (PuHook a w i par)) (trace s) /\ is_ready par (trace s).
Proof.
  intros s t w i q R J. apply in_split in J as (l1 & l2 & E). destruct (hook_at s R _ _ _ E) as (a & par & P & Rd).
  apply purpose_hook in P as (t' & v & P). exists t', v, a, par. rewrite E. split; [apply in_or_app; auto|now apply ready_app].
Qed.
(** ** Prefix *)
Definition prefix_ok (h : heap) : Prop := forall a w ins, comb h a w ins ->
  exists rest, ins = w_states (h_wcs h w) ++ rest /\ w_processed (h_wcs h w) <= length (w_states (h_wcs h w)).
Lemma comb_back : forall s t pre rest h n a w ins, reachable s -> stk s t = pre ++ rest -> lstep (hp s) t pre h n -> comb h a w ins ->
  comb (hp s) a w ins \/ exists kd hs, pre = [FWhen kd hs] /\ w = h_nw (hp s) /\ w_states (h_wcs h w) = [] /\ w_result (h_wcs h w) = [] /\ w_nready (h_wcs h w) = 0 /\ w_processed (h_wcs h w) = 0 /\ w_ready (h_wcs h w) = false.
Proof.
  intros s t pre rest h n a w1 ins1 R E L (p1 & t1 & J).
  destruct (lstep_tr _ _ _ _ _ L) as [Et|[e Et]].
  - left. exists p1, t1. unfold tr_of in *. now rewrite <- Et.
  - unfold tr_of in J. rewrite Et in J. cbn [rev] in J. apply in_app_or in J as [J|[J|[]]]; [left; exists p1, t1; exact J|]. subst e. right.
    ev_cases L Et. eexists _, _. split; [reflexivity|]. destruct (all_some _) as [ins|] eqn:As in Et; [|discriminate Et]. injection Et as <- <- <- <- <-.
    cbn [atom] in A. rewrite As in A. injection A as <- <-. hs. rewrite upd_same. auto 8.
Qed.
Definition effect (h h' : heap) (t : tid) (w : nat) (f : frame) : Prop :=
  match f with
  | FWFillAll _ _ _ _ _ | FWEach _ _ _ _ _ => exists p, h_wcs h' w = w_fill (h_wcs h w) p /\ forall t0 i q, In (EvHook t0 w i q) (h_tr h') -> In (EvHook t0 w i q) (h_tr h)
  | FWThen _ _ _ idx u _ _ => h_wcs h' w = w_then (h_wcs h w) idx u /\ h_tr h' = h_tr h
  | FWProc _ _ _ _ _ => h_wcs h' w = w_process (h_wcs h w) /\ h_tr h' = h_tr h
  | FWIn a _ idx par q => h_wcs h' w = fst (if a then wall_step (h_wcs h w) idx par else wany_step (h_wcs h w) idx par) /\ h_tr h' = EvHook t w idx q :: h_tr h
  | FWFin1 _ => h_wcs h' w = fst (wany_final (h_wcs h w)) /\ h_tr h' = h_tr h
  | FWMark _ _ => h_wcs h' w = w_mark (h_wcs h w) /\ h_tr h' = h_tr h
  | _ => True
  end.
Lemma touch_effect : forall h t f h' n w, lstep h t [f] h' n -> touches w f -> effect h h' t w f.
Proof.
  intros h t f0 h' n w1 L T. remember [f0] as pre eqn:Ep. lstep_cases L; try discriminate Ep; injection Ep as <-; cbn [touches] in T; try contradiction T; subst; cbn [effect].
  all: cbn [atom] in A; repeat match goal with
    | A : context [match h_hnds ?h ?n with _ => _ end] |- _ => destruct (h_hnds h n) as [? [?|]]; [|discriminate A]
    | A : context [let '(_, _) := ?x in _] |- _ => destruct x as [? [?|]] eqn:?
    end; injection A as <- <-; hs; rewrite upd_same; cbn [fst]; eauto.
  all: eexists; split; [reflexivity|]; intros ? ? ? [J|J]; [discriminate J|exact J].
Qed.
Lemma tick_comb : forall s d a w ins, comb (emit (put_now (hp s) (h_now (hp s) + Zpos d)) (EvTick (Zpos d))) a w ins -> comb (hp s) a w ins.
Proof. intros s d a w ins (p & t & J). exists p, t. unfold tr_of in *. hs. cbn [rev] in J. apply in_app_or in J as [J|[J|[]]]; [exact J|discriminate J]. Qed.
Lemma next_fill : forall h t f h' n w, lstep h t [f] h' n -> fills w f ->
  (exists kd i todo acc, next_frames n = [FWFillAll w kd i todo acc]) \/ exists kd i idx u p r, next_frames n = [FWThen w kd i idx u p r].
Proof.
  intros h t f0 h' n w1 L T. remember [f0] as pre eqn:Ep. lstep_cases L; try discriminate Ep; injection Ep as <-; cbn [fills] in T; try contradiction T; subst; cbn [next_frames]; eauto 10.
Qed.
Theorem prefix_reachable : forall s, reachable s -> prefix_ok (hp s).
Proof.
  apply (reachable_ind'' (fun s => prefix_ok (hp s))).
  - intros a w ins (p & t & []).
  - intros s s' R R' IH U Tr a w ins C. destruct Tr as [d|t0 pre rest u E L|t0 pre rest h n E L].
    + apply tick_comb in C. exact (IH a w ins C).
    + exact (IH a w ins C).
    + cbn [hp] in *. destruct (comb_back _ _ _ _ _ _ _ _ _ R E L C) as [C0|(kd & hs & -> & -> & E1 & _ & _ & E2 & _)].
      2: { exists ins. rewrite E1, E2. auto. }
      destruct (IH a w ins C0) as (rst0 & I1 & I2).
      destruct (lstep_weq _ _ _ _ _ w L (comb_lt _ _ _ _ R C0)) as [[(_ & W1 & _ & _ & _ & _ & W2) _]|(f & -> & Tf)]; [rewrite W1, W2; eauto|].
      pose proof (touch_effect _ _ _ _ _ _ L Tf) as Ef. pose proof (fst_reachable s R t0) as F. rewrite E in F. inversion F as [|? ? F0 _]; subst. clear F.
      assert (Fl : (exists p, h_wcs h w = w_fill (h_wcs (hp s) w) p) -> fills w f -> exists rest0, w_states (h_wcs (hp s) w) ++ rst0 = w_states (h_wcs h w) ++ rest0 /\ w_processed (h_wcs h w) <= length (w_states (h_wcs h w))).
      { intros [p Wp] Fw. pose proof (fst_reachable _ R' t0) as G. cbn [stk] in G. rewrite next_own in G. apply Forall_app in G as [G _].
        assert (X : exists a' ins' rest0, comb h a' w ins' /\ ins' = w_states (h_wcs h w) ++ rest0).
        { destruct (next_fill _ _ _ _ _ _ L Fw) as [(kd & i & todo & acc & En)|(kd & i & idx & u0 & p0 & r & En)]; rewrite En in G; inversion G as [|? ? G0 _]; subst; cbn [fst_ hp] in G0.
          - destruct G0 as (ins' & rest0 & G1 & G2 & _). eauto 6.
          - destruct G0 as (_ & ins' & G1 & _ & G2). destruct r; [destruct G2 as (_ & rest0 & G2 & _); eauto 6|]. destruct G2 as [G2 _]. exists (is_all kd), ins', []. rewrite app_nil_r. auto. }
        destruct X as (a' & ins' & rest0 & X1 & X2). exists rest0. destruct (comb_one _ _ _ _ _ _ R' C X1) as [_ X3]. split; [congruence|].
        rewrite Wp. cbn [w_fill w_states w_processed]. rewrite app_length. lia. }
      destruct f; cbn [touches] in Tf; try contradiction Tf; cbn [effect fills] in *.
      * destruct Ef as (p & Ef & _). apply Fl; eauto.
      * destruct Ef as (p & Ef & _). apply Fl; eauto.
      * destruct Ef as [Ef _]. rewrite Ef. cbn. eauto.
      * destruct kd; [contradiction|]. destruct Ef as [Ef _]. subst. rewrite Ef. cbn. destruct F0 as (F1 & ins' & F2 & F3 & _). exists rst0. split; auto. lia.
      * destruct Ef as [Ef _]. destruct (wany_final _) as [w' v] eqn:Ew. apply wfin_same in Ew as [E1 E2]. rewrite Ef. cbn [fst]. rewrite E1, E2. eauto.
      * destruct Ef as [Ef _]. destruct all.
        -- destruct (wall_step _ _ _) as [w' v] eqn:Ew. apply wall_same in Ew as [E1 E2]. rewrite Ef. cbn [fst]. rewrite E1, E2. eauto.
        -- destruct (wany_step _ _ _) as [w' v] eqn:Ew. apply wany_same in Ew as [E1 E2]. rewrite Ef. cbn [fst]. rewrite E1, E2. eauto.
      * destruct Ef as [Ef _]. rewrite Ef. cbn. eauto.
Qed.
(** ** How many hooks have run *)
Fixpoint hidx (w : nat) (tr : list event) : list nat :=
  match tr with [] => [] | EvHook _ w' i _ :: r => if w' =? w then i :: hidx w r else hidx w r | _ :: r => hidx w r end.
Lemma hidx_app : forall w a b, hidx w (a ++ b) = hidx w a ++ hidx w b.
Proof. intros w a b. induction a as [|e a IH]; cbn; auto. destruct e; auto. destruct (_ =? _); cbn; now rewrite IH. Qed.
Lemma hidx_in : forall w tr i, In i (hidx w tr) <-> exists t q, In (EvHook t w i q) tr.
Proof.
  intros w tr i. induction tr as [|e tr IH]; cbn; [split; [intros []|intros (t & q & [])]|].
  split.
  - intros J. assert (X : (exists t q, e = EvHook t w i q) \/ In i (hidx w tr)).
    { destruct e; auto. destruct (Nat.eqb_spec w0 w); auto. subst. destruct J as [<-|J]; eauto. }
    destruct X as [(t & q & ->)|X]; [eauto|]. apply IH in X as (t & q & X). eauto.
  - intros (t & q & [->|J]); [rewrite Nat.eqb_refl; left; reflexivity|]. assert (X : In i (hidx w tr)) by (apply IH; eauto). destruct e; auto. destruct (_ =? _); [right|]; auto.
Qed.
Theorem nready_le : forall s, reachable s -> forall w, w_nready (h_wcs (hp s) w) <= length (hidx w (trace s)).
Proof.
  apply (replay_rule (fun h l => forall w, w_nready (h_wcs h w) <= length (hidx w l))).
  - intros w. cbn. lia.
  - intros h l d H w. hs. rewrite hidx_app, app_length. specialize (H w). lia.
  - intros h l e H _ w. hs. rewrite hidx_app, app_length. specialize (H w). lia.
  - intros h t T o inp h' x G O H At N w1.
    assert (M : forall e, length (hidx w1 (tr_of h)) <= length (hidx w1 (match e with Some e => tr_of h ++ [e] | None => tr_of h end))).
    { intros [e|]; auto. rewrite hidx_app, app_length. lia. }
    destruct o; try contradiction; try (etransitivity; [|apply M]; specialize (H w1); atom_split At; auto; rewrite upd_eq; match goal with |- context [w1 =? ?b] => destruct (Nat.eqb_spec w1 b) end; subst; cbn; auto; try lia;
      match goal with E : wany_final _ = _ |- _ => unfold wany_final in E; brki E; inversion E; subst; cbn; lia end).
    all: cbn [op_event]; rewrite hidx_app, app_length; cbn [hidx]; cbn [atom] in At; specialize (H w1).
    + unfold wall_step in At. destruct (_ =? _); injection At as <- <-; hs; rewrite upd_eq; rewrite Nat.eqb_sym; match goal with |- context [?a =? w1] => destruct (Nat.eqb_spec a w1) end; subst; cbn; lia.
    + unfold wany_step in At. destruct (w_ready _); [|destruct (_ && _)]; injection At as <- <-; hs; rewrite upd_eq; match goal with |- context [w1 =? ?b] => destruct (Nat.eqb_spec w1 b) end; subst; cbn; lia.
Qed.
(** ** when_all *)
Lemma set_nth_len : forall A i (x : A) l, length (set_nth i x l) = length l.
Proof. induction i; intros x []; cbn; auto. Qed.
Lemma set_nth_nth : forall A i (x : A) l j, nth_error (set_nth i x l) j = if (j =? i) && (i <? length l) then Some x else nth_error l j.
Proof.
  induction i; intros x [|y l] j; cbn [set_nth length].
  - rewrite andb_false_r. reflexivity.
  - destruct j; reflexivity.
  - rewrite andb_false_r. reflexivity.
  - destruct j; cbn [nth_error Nat.eqb]; auto. rewrite IHi. reflexivity.
Qed.
Definition intact (W : wctx) : Prop :=
  length (w_result W) = length (w_states W) /\ forall i r, nth_error (w_result W) i = Some (Some r) -> nth_error (w_states W) i = Some r.
Lemma intact_fill : forall W p, intact W -> intact (w_fill W p).
Proof.
  intros W p [H1 H2]. split; cbn [w_fill w_result w_states]; [rewrite !app_length; cbn; lia|]. intros i r J.
  destruct (Nat.lt_ge_cases i (length (w_result W))) as [Lt|Ge].
  - rewrite nth_error_app1 in J by auto. apply nth_app. auto.
  - rewrite nth_error_app2 in * by lia. rewrite <- H1. destruct (i - length (w_result W)) as [|k]; cbn in *; [congruence|]. destruct k; discriminate J.
Qed.
Lemma intact_then : forall W i u, intact W -> intact (w_then W i u).
Proof.
  intros W i u [H1 H2]. split; cbn [w_then w_result w_states]; [destruct u; now rewrite ?set_nth_len|]. intros j r J. destruct u; auto.
  rewrite set_nth_nth in J. destruct (_ && _); [discriminate J|auto].
Qed.
Lemma intact_put : forall W i p, intact W -> nth_error (w_states W) i = Some p ->
  length (set_nth i (Some p) (w_result W)) = length (w_states W) /\ forall j r, nth_error (set_nth i (Some p) (w_result W)) j = Some (Some r) -> nth_error (w_states W) j = Some r.
Proof.
  intros W i p [H1 H2] P. split; [now rewrite set_nth_len|]. intros j r J. rewrite set_nth_nth in J.
  destruct (Nat.eqb_spec j i); cbn [andb] in J; auto. subst. destruct (_ <? _); auto. congruence.
Qed.
Definition all_ok (s : st) (w : nat) : Prop :=
  w_total (h_wcs (hp s) w) <= w_nready (h_wcs (hp s) w) \/
  (intact (h_wcs (hp s) w) /\ forall i, In i (hidx w (trace s)) -> exists r, nth_error (w_result (h_wcs (hp s) w)) i = Some (Some r)).
Lemma comb_total : forall s a w ins, reachable s -> comb (hp s) a w ins -> w_total (h_wcs (hp s) w) = length ins.
Proof. intros s a w ins R (p & t & J). apply (when_heap_reachable s R) in J. tauto. Qed.
Lemma hook_kind : forall s t a w idx par q a' ins, reachable s -> In (FWIn a w idx par q) (stk s t) -> comb (hp s) a' w ins ->
  a = a' /\ nth_error (w_states (h_wcs (hp s) w)) idx = Some par.
Proof.
  intros s t a w idx par q a' ins R J C. destruct (hook_ready s t a w idx par q R J) as [_ P]. apply purpose_hook in P as (t' & v & P).
  destruct (hook_input s R _ _ _ _ _ _ _ P) as [H (ins' & C')]. destruct (comb_one _ _ _ _ _ _ R C C'). auto.
Qed.
Lemma in_hidx_step : forall s h w i, (forall t0 i q, In (EvHook t0 w i q) (h_tr h) -> In (EvHook t0 w i q) (h_tr (hp s))) -> In i (hidx w (tr_of h)) -> In i (hidx w (trace s)).
Proof.
  intros s h w i H J. apply hidx_in in J as (t & q & J). apply hidx_in. exists t, q. unfold trace, tr_of in *. rewrite <- in_rev in *. auto.
Qed.
Theorem all_reachable : forall s, reachable s -> forall w ins, comb (hp s) true w ins -> all_ok s w.
Proof.
  apply (reachable_ind'' (fun s => forall w ins, comb (hp s) true w ins -> all_ok s w)).
  - intros w ins (p & t & []).
  - intros s s' R R' IH U Tr w ins C. destruct Tr as [d|t0 pre rest u E L|t0 pre rest h n E L].
    + apply tick_comb in C. destruct (IH w ins C) as [H|[H1 H2]]; [left; exact H|right; split; [exact H1|]].
      intros i J. apply H2. change (In i (hidx w (trace s ++ [EvTick (Zpos d)]))) in J. rewrite hidx_app in J. apply in_app_or in J as [J|[]]. exact J.
    + exact (IH w ins C).
    + cbn [hp] in *. destruct (comb_back _ _ _ _ _ _ _ _ _ R E L C) as [C0|(kd & hs & -> & -> & E1 & E2 & _)].
      2: { right. cbn [hp]. split; [split; rewrite E1, E2; auto; intros i r J; destruct i; discriminate J|].
        intros i J. exfalso. apply hidx_in in J as (t1 & q & J). destruct (hook_from _ _ _ _ _ R' J) as (t' & v & a & par & J' & _).
        destruct (hook_input _ R' _ _ _ _ _ _ _ J') as [X _]. cbn [hp] in X. rewrite E1 in X. destruct i; discriminate X. }
      specialize (IH w ins C0). unfold all_ok in *. cbn [hp] in *.
      pose proof (comb_total _ _ _ _ R' C) as T'. cbn [hp] in T'. rewrite T'. rewrite (comb_total _ _ _ _ R C0) in IH.
      destruct (lstep_weq _ _ _ _ _ w L (comb_lt _ _ _ _ R C0)) as [[(W1 & _ & _ & _ & _ & W2 & W3) Nh]|(f & -> & Tf)].
      { destruct IH as [IH|[I1 I2]]; [left; lia|right]. unfold intact in *. rewrite W2, W3. split; auto. intros i J. apply I2. eapply in_hidx_step; eauto. }
      pose proof (touch_effect _ _ _ _ _ _ L Tf) as Ef. pose proof (fst_reachable s R t0) as F. rewrite E in F. inversion F as [|? ? F0 _]; subst. clear F.
      destruct f; cbn [touches] in Tf; try contradiction Tf; cbn [effect] in Ef.
      * subst. destruct todo; [contradiction|]. subst. destruct Ef as (p & Ef & Nh). rewrite Ef. destruct IH as [IH|[I1 I2]]; [left; exact IH|right]. split; [now apply intact_fill|].
        intros j J. apply (in_hidx_step s) in J; auto. destruct (I2 j J) as [r0 Hr]. exists r0. cbn. now apply nth_app.
      * subst. destruct r as [[|]|]; try contradiction. subst. destruct Ef as (p & Ef & Nh). rewrite Ef. destruct IH as [IH|[I1 I2]]; [left; exact IH|right]. split; [now apply intact_fill|].
        intros j J. apply (in_hidx_step s) in J; auto. destruct (I2 j J) as [r0 Hr]. exists r0. cbn. now apply nth_app.
      * subst. destruct Ef as [Ef Et]. rewrite Ef. destruct IH as [IH|[I1 I2]]; [left; exact IH|right]. split; [now apply intact_then|].
        intros j J. apply (in_hidx_step s) in J; [|intros ? ? ? Q; cbn [hp] in Q; now rewrite Et in Q]. destruct (I2 j J) as [r0 Hr]. cbn [w_then w_result]. destruct u; [|eauto].
        rewrite set_nth_nth. destruct (Nat.eqb_spec j idx); [|cbn [andb]; eauto]. subst. exfalso.
        apply hidx_in in J as (t1 & q & J). destruct (hook_from _ _ _ _ _ R J) as (t' & v & a & par & J' & _).
        eapply (unpacked_none s t0); [exact R|rewrite E; left; reflexivity|reflexivity| |exact J']. auto.
      * destruct kd; [contradiction|]. subst. destruct Ef as [Ef Et]. rewrite Ef. destruct IH as [IH|[I1 I2]]; [left; exact IH|right]. split; [exact I1|].
        intros j J. apply (in_hidx_step s) in J; [|intros ? ? ? Q; cbn [hp] in Q; now rewrite Et in Q]. exact (I2 j J).
      * subst. exfalso. cbn [fst_] in F0. destruct (comb_one _ _ _ _ _ _ R C0 F0). discriminate.
      * subst. destruct (hook_kind s t0 all w idx par q true ins R) as [-> Hp]; [rewrite E; left; reflexivity|exact C0|]. destruct Ef as [Ef Et]. rewrite Ef.
        assert (Ht : w_total (h_wcs (hp s) w) = length ins) by exact (comb_total _ _ _ _ R C0). unfold wall_step. rewrite Ht.
        destruct (Nat.eqb_spec (S (w_nready (h_wcs (hp s) w))) (length ins)) as [Eq|Ne]; cbn [fst w_nready w_result w_states]; [left; lia|].
        destruct IH as [IH|[I1 I2]]; [left; lia|right]. split; [exact (intact_put _ _ _ I1 Hp)|]. intros j J. rewrite set_nth_nth.
        assert (Il : idx < length (w_result (h_wcs (hp s) w))) by (rewrite (proj1 I1); apply nth_error_Some; congruence).
        destruct (Nat.eqb_spec j idx).
        -- cbn [andb]. destruct (Nat.ltb_spec idx (length (w_result (h_wcs (hp s) w)))); [eauto|lia].
        -- cbn [andb]. apply I2. unfold trace, tr_of in *. cbn [hp] in J. rewrite Et in J. cbn [rev] in J. rewrite hidx_app in J. apply in_app_or in J as [J|J]; auto.
           cbn [hidx] in J. rewrite Nat.eqb_refl in J. destruct J as [J|[]]. congruence.
      * subst. destruct Ef as [Ef Et]. rewrite Ef. destruct IH as [IH|[I1 I2]]; [left; exact IH|right]. split; [exact I1|].
        intros j J. apply (in_hidx_step s) in J; [|intros ? ? ? Q; cbn [hp] in Q; now rewrite Et in Q]. exact (I2 j J).
Qed.
Lemma nodup_split : forall w tr, (forall a b c i t q t' q', tr = a ++ EvHook t w i q :: b ++ EvHook t' w i q' :: c -> False) -> NoDup (hidx w tr).
Proof.
  intros w tr. induction tr as [|e tr IH]; intros H; [constructor|].
  assert (IH' : NoDup (hidx w tr)) by (apply IH; intros a b c i t q t' q' ->; apply (H (e :: a) b c i t q t' q'); reflexivity).
  destruct e; auto. cbn [hidx]. destruct (Nat.eqb_spec w0 w); auto. subst. constructor; auto. intros J. apply hidx_in in J as (t1 & q1 & J). apply in_split in J as (b & c & ->).
  apply (H [] b c idx t q t1 q1). reflexivity.
Qed.
Lemma hidx_nodup : forall s w, reachable s -> NoDup (hidx w (trace s)).
Proof.
  intros s w R. apply nodup_split. intros a b c i t q t' q' E.
  destruct (hook_from s t w i q R) as (t1 & v1 & a1 & p1 & J1 & _); [rewrite E; apply in_or_app; right; left; reflexivity|].
  destruct (hook_from s t' w i q' R) as (t2 & v2 & a2 & p2 & J2 & _); [rewrite E; apply in_or_app; right; right; apply in_or_app; right; left; reflexivity|].
  assert (q = q') by (eapply hook_one; eauto). subst q'.
  pose proof (hook_once s q R) as H. rewrite <- (rev_involutive (h_tr (hp s))) in H. change (rev (h_tr (hp s))) with (trace s) in H. rewrite E in H.
  pose proof (costs_split (hcost q) a (EvHook t w i q) b (EvHook t' w i q) c (hcost_nn q)) as X. cbn [hcost] in X. rewrite !one_same in X. lia.
Qed.
Lemma nth_ext' : forall A (l m : list A), length l = length m -> (forall i x, nth_error m i = Some x -> nth_error l i = Some x) -> l = m.
Proof.
  intros A l. induction l as [|x l IH]; intros [|y m] E H; try discriminate E; auto.
  f_equal; [specialize (H 0 y eq_refl); now injection H|]. apply IH; [now injection E|]. intros i z J. exact (H (S i) z J).
Qed.
(** The last hook of a when_all finds every input in place. *)
Theorem all_done : forall s t rest h n w idx par q ins v, reachable s -> reachable (mkSt h (set_next (stk s) t n rest) None) ->
  stk s t = FWIn true w idx par q :: rest -> lstep (hp s) t [FWIn true w idx par q] h n -> comb (hp s) true w ins ->
  snd (wall_step (h_wcs (hp s) w) idx par) = Some v -> v = VFuts (map Some ins) /\ forall x, In x ins -> is_ready x (tr_of h).
Proof.
  intros s t rest h n w idx par q ins v R R' E L C V. pose proof (touch_effect _ _ _ _ _ w L eq_refl) as Ef. cbn [effect] in Ef. destruct Ef as [Ew Et].
  pose proof (comb_total _ _ _ _ R C) as Ht. pose proof (nready_le _ R' w) as Nr. cbn [hp] in Nr. rewrite Ew in Nr.
  destruct (hook_kind s t true w idx par q true ins R) as [_ Hp]; [rewrite E; left; reflexivity|exact C|].
  unfold wall_step in V, Nr. rewrite Ht in *. destruct (Nat.eqb_spec (S (w_nready (h_wcs (hp s) w))) (length ins)) as [Eq|Ne]; [|discriminate V].
  cbn [snd fst w_nready] in *. injection V as <-. set (s' := mkSt h (set_next (stk s) t n rest) None) in *.
  assert (C' : comb (hp s') true w ins) by (eapply comb_mono; [eapply lstep_trl; eauto|exact C]).
  destruct (prefix_reachable _ R' _ _ _ C') as (rst0 & Pf & _).
  assert (St : w_states (h_wcs h w) = w_states (h_wcs (hp s) w)).
  { rewrite Ew. destruct (wall_step _ _ _) as [w' v'] eqn:X. apply wall_same in X. tauto. }
  cbn [hp s'] in Pf.
  assert (Hi : forall i, In i (hidx w (trace s')) -> exists p, nth_error (w_states (h_wcs h w)) i = Some p /\ is_ready p (trace s')).
  { intros i J. apply hidx_in in J as (t1 & q1 & J). destruct (hook_from _ _ _ _ _ R' J) as (t2 & v2 & a2 & p2 & J2 & Rd). destruct (hook_input _ R' _ _ _ _ _ _ _ J2). eauto. }
  assert (Inc : incl (seq 0 (length ins)) (hidx w (trace s'))).
  { apply NoDup_length_incl; [now apply hidx_nodup|rewrite seq_length; lia|]. intros i J. apply in_seq. destruct (Hi i J) as (p & Np & _).
    assert (i < length (w_states (h_wcs h w))) by (apply nth_error_Some; congruence). rewrite Pf, app_length. lia. }
  assert (All : forall i, i < length ins -> exists p, nth_error (w_states (h_wcs h w)) i = Some p /\ is_ready p (trace s')) by (intros i Li; apply Hi, Inc, in_seq; lia).
  assert (rst0 = []) as ->.
  { destruct rst0 as [|z r0]; auto. exfalso. destruct (All (length (w_states (h_wcs h w)))) as (p & Np & _); [rewrite Pf, app_length; cbn; lia|].
    assert (length (w_states (h_wcs h w)) < length (w_states (h_wcs h w))) by (apply nth_error_Some; congruence). lia. }
  rewrite app_nil_r in Pf. rewrite <- Pf in All. split.
  - f_equal. destruct (all_reachable s R w ins C) as [X|[I1 I2]]; [lia|]. apply nth_ext'; [rewrite set_nth_len, map_length, (proj1 I1), <- St; congruence|].
    intros i x Hx. rewrite nth_error_map in Hx. destruct (nth_error ins i) as [y|] eqn:Hy; [|discriminate Hx]. injection Hx as <-. rewrite set_nth_nth.
    rewrite <- St, <- Pf in Hp. assert (Il : idx < length (w_result (h_wcs (hp s) w))) by (rewrite (proj1 I1), <- St, <- Pf; apply nth_error_Some; congruence).
    destruct (Nat.eqb_spec i idx).
    + cbn [andb]. subst. destruct (Nat.ltb_spec idx (length (w_result (h_wcs (hp s) w)))); [congruence|lia].
    + cbn [andb]. assert (J : In i (hidx w (trace s'))) by (apply Inc, in_seq; split; [lia|]; apply nth_error_Some; cbn; congruence).
      unfold trace, tr_of in J. cbn [hp s'] in J. rewrite Et in J. cbn [rev] in J. rewrite hidx_app in J. apply in_app_or in J as [J|J].
      * destruct (I2 i J) as [r0 Hr]. apply (proj2 I1) in Hr as Hr'. rewrite <- St, <- Pf in Hr'. congruence.
      * cbn [hidx] in J. rewrite Nat.eqb_refl in J. destruct J as [J|[]]. congruence.
  - intros x J. apply In_nth_error in J as [i J]. destruct (All i) as (p & Np & Rd); [apply nth_error_Some; congruence|]. assert (x = p) by congruence. subst. exact Rd.
Qed.

(** ** when_any *)
Lemma recover_map : forall r st, length r = length st -> (forall i x, nth_error r i = Some (Some x) -> nth_error st i = Some x) -> recover r st = map Some st.
Proof.
  induction r as [|[x|] r IH]; intros [|y st] E H; try discriminate E; auto; cbn.
  - specialize (H 0 x eq_refl) as H0. injection H0 as ->. f_equal. apply IH; [now injection E|]. intros i z J. exact (H (S i) z J).
  - f_equal. apply IH; [now injection E|]. intros i z J. exact (H (S i) z J).
Qed.
Lemma prom_same : forall h t pre h' n w, lstep h t pre h' n -> w < h_nw h -> w_prom (h_wcs h' w) = w_prom (h_wcs h w).
Proof.
  intros h t pre h' n w L W. apply lstep_hstep in L. destruct L as [e Ok|T o inp h' x Ok A]; [reflexivity|].
  destruct o; atom_split A; auto;
      repeat match goal with
        | E : wall_step _ _ _ = _ |- _ => apply w_total_all in E as [? ?]
        | E : wany_step _ _ _ = _ |- _ => apply w_total_any in E as [? ?]
        | E : wany_final _ = _ |- _ => apply w_total_fin in E as [? ?]
        end; rewrite upd_eq; match goal with |- context [?a =? ?b] => destruct (Nat.eqb_spec a b) end; subst; cbn; auto; lia.
Qed.
Lemma nw_mono : forall h t pre h' n, lstep h t pre h' n -> h_nw h <= h_nw h'.
Proof.
  intros h t pre h' n L. apply lstep_hstep in L. destruct L as [e Ok|T o inp h' x Ok A]; [auto|]. apply atom_ble in A. unfold ble, bof in A. cbn in A. lia.
Qed.
Definition mark_ok (s : st) (t : tid) (a : option frame) (f : frame) (b : list frame) : Prop :=
  match f with
  | FWMark w _ => w < h_nw (hp s) /\ (is_ready (w_prom (h_wcs (hp s) w)) (trace s) \/ match a with Some (FSet p _) | Some (FSet1 p _) => p = w_prom (h_wcs (hp s) w) | _ => False end)
  | _ => True
  end.
Theorem mark_reachable : forall s, reachable s -> forall t, adj (mark_ok s t) None (stk s t).
Proof.
  assert (St : forall s t pre rest h n u a f r, stk s t = pre ++ rest -> lstep (hp s) t pre h n -> mark_ok s u a f r -> mark_ok (mkSt h (set_next (stk s) t n rest) None) u a f r).
  { intros s t pre rest h n u a f r E L H. destruct f; cbn [mark_ok] in *; auto. destruct H as [W H]. cbn [hp]. rewrite (prom_same _ _ _ _ _ _ L W).
    split; [pose proof (nw_mono _ _ _ _ _ L); lia|]. destruct H as [H|H]; auto. left. destruct (lstep_trl _ _ _ _ _ L) as [l Et]. change (is_ready (w_prom (h_wcs (hp s) w)) (tr_of h)). rewrite Et. now apply ready_app. }
  apply (adj_rule mark_ok).
  - intros s d t a f r R _ H. destruct f; cbn [mark_ok] in *; auto. destruct H as [W [H|H]]; (split; [exact W|]); auto. left. change (is_ready (w_prom (h_wcs (hp s) w)) (trace s ++ [EvTick (Zpos d)])). now apply ready_app.
  - auto.
  - intros t. cbn. destruct t; cbn; auto.
  - intros. eapply St; eauto.
  - intros s t pre rest h n R R' E L Fp. set (s' := mkSt h (set_next (stk s) t n rest) None) in *.
    pose proof (b_inv_reachable s R) as (_ & _ & Fb). specialize (Fb t). rewrite E in Fb. apply Forall_app in Fb as [Fb _].
    split; [|split].
    + pose proof L as L0. lstep_cases L; cbn [next_frames] in *; sh_; try exact Logic.I; cbn [mark_ok].
      all: inversion Fb as [|? ? Fb1 _]; subst; cbn [fb] in Fb1.
      all: match goal with |- context [h_wcs _ ?w] => assert (W : w < h_nw (hp s)) by apply Fb1 end; (split; [cbn [hp s']; pose proof (nw_mono _ _ _ _ _ L0); lia|]).
      all: right; apply w_set_prom in A as W1; cbn in W1; cbn [hp s']; rewrite (prom_same _ _ _ _ _ _ L0 W); exact W1.
    + destruct rest as [|g r]; auto. intros Hg. pose proof (St s t pre (g :: r) h n t _ g r E L Hg) as Hg'. fold s' in Hg'. clear Hg.
      destruct g; auto. destruct Hg' as [Hn Hg']. split; auto. destruct Hg' as [Hg'|Hg']; auto.
      assert (Rd : forall q, fs_ready (h_fsts h q) = true -> is_ready q (trace s')) by (intros q; apply (ready_iff s' q R')).
      pose proof L as L0. lstep_cases L; cbn [next_frames lasto] in *; try contradiction Hg'.
      * auto.
      * left. rewrite <- Hg'. apply Rd. cbn [atom] in A. destruct (fs_ready (h_fsts (hp s) p)) eqn:Er; [injection A as <- <-; auto|]. unfold fs_set in A. injection A as <- <-. hs. rewrite upd_same. now destruct o.
    + destruct (spawned n) as [[c cfs]|] eqn:Sp; auto. destruct (lstep_spawned _ _ _ _ _ _ _ L Sp) as (_ & _ & b & ->). destruct b; cbn; auto.
Qed.
Definition fired_or_marking (s : st) (w : nat) : Prop := is_ready (w_prom (h_wcs (hp s) w)) (trace s) \/ exists t a, In (FWMark w a) (stk s t).
Lemma marking_step : forall s t pre rest h n w, reachable s -> stk s t = pre ++ rest -> lstep (hp s) t pre h n -> w < h_nw (hp s) ->
  fired_or_marking s w -> fired_or_marking (mkSt h (set_next (stk s) t n rest) None) w.
Proof.
  intros s t pre rest h n w R E L W H. unfold fired_or_marking. cbn [hp stk]. rewrite (prom_same _ _ _ _ _ _ L W).
  assert (Rd : is_ready (w_prom (h_wcs (hp s) w)) (trace s) -> is_ready (w_prom (h_wcs (hp s) w)) (trace (mkSt h (set_next (stk s) t n rest) None))).
  { intros X. destruct (lstep_trl _ _ _ _ _ L) as [l Et]. change (is_ready (w_prom (h_wcs (hp s) w)) (tr_of h)). rewrite Et. now apply ready_app. }
  destruct H as [H|(t1 & a & J)]; [auto|].
  destruct (Nat.eq_dec t1 t) as [->|Nt].
  - rewrite E in J. apply in_app_or in J as [J|J].
    + left. apply Rd. pose proof (mark_reachable s R t) as M. rewrite E in M. apply adj_app in M as [M _].
      assert (S2 : pre = [FWMark w a] \/ exists e, pre = [FThrow e; FWMark w a]).
      { clear -J L. lstep_cases L; cbn [In] in J; repeat destruct J as [J|J]; try discriminate J; try contradiction J; injection J as <- <-; eauto. }
      destruct S2 as [->|(e & ->)]; cbn [adj mark_ok] in M.
      * destruct M as [(_ & [M|[]]) _]. exact M.
      * destruct M as (_ & (_ & [M|[]]) & _). exact M.
    + right. exists t, a. rewrite next_own. apply in_or_app. auto.
  - right. exists t1, a. unfold set_next. destruct n as [fs|c cfs fs]; rewrite upd_other by auto; auto.
    destruct (Nat.eq_dec t1 c) as [->|Nc]; [|rewrite upd_other by auto; auto]. exfalso. destruct (lstep_spawned _ _ _ _ _ _ _ L eq_refl) as (Fr & _). rewrite (fresh_empty s c R Fr) in J. exact J.
Qed.
Lemma any_next : forall h t f h' n w v, lstep h t [f] h' n ->
  match f with FWFin1 w' => w' = w /\ snd (wany_final (h_wcs h w)) = Some v | FWIn false w' idx par _ => w' = w /\ snd (wany_step (h_wcs h w) idx par) = Some v | _ => False end ->
  exists a, next_frames n = [FSet (w_prom (h_wcs h w)) (OVal v); FWMark w a].
Proof.
  intros h t f0 h' n w1 v1 L T. remember [f0] as pre eqn:Ep. lstep_cases L; try discriminate Ep; injection Ep as <-; try contradiction T; destruct T as [<- T]; cbn [atom] in A.
  all: destruct (wany_final _) as [W o] eqn:Ew || destruct (wany_step _ _ _) as [W o] eqn:Ew.
  all: cbn [snd] in T; subst; cbn in A; injection A as <- <-; cbn [next_frames].
  - apply w_total_fin in Ew as [_ ->]. eauto.
  - apply w_total_any in Ew as [_ ->]. eauto.
Qed.
Definition any_ok (s : st) (w : nat) : Prop :=
  (w_ready (h_wcs (hp s) w) = false -> intact (h_wcs (hp s) w)) /\
  (w_ready (h_wcs (hp s) w) = true ->
    (exists i q, w_index (h_wcs (hp s) w) = Some i /\ nth_error (w_states (h_wcs (hp s) w)) i = Some q /\ is_ready q (trace s)) /\
    (intact (h_wcs (hp s) w) \/ fired_or_marking s w)).
Theorem any_reachable : forall s, reachable s -> forall w ins, comb (hp s) false w ins -> any_ok s w.
Proof.
  apply (reachable_ind'' (fun s => forall w ins, comb (hp s) false w ins -> any_ok s w)).
  - intros w ins (p & t & []).
  - intros s s' R R' IH U Tr w ins C. destruct Tr as [d|t0 pre rest u E L|t0 pre rest h n E L].
    + apply tick_comb in C. destruct (IH w ins C) as [H1 H2]. split; [exact H1|]. intros X. destruct (H2 X) as [(i & q & Q1 & Q2 & Q3) Q4]. split.
      * exists i, q. repeat (split; [assumption|]). change (is_ready q (trace s ++ [EvTick (Zpos d)])). now apply ready_app.
      * destruct Q4 as [Q4|[Q4|Q4]]; [left; exact Q4|right; left|right; right; exact Q4]. change (is_ready (w_prom (h_wcs (hp s) w)) (trace s ++ [EvTick (Zpos d)])). now apply ready_app.
    + exact (IH w ins C).
    + cbn [hp] in *. destruct (comb_back _ _ _ _ _ _ _ _ _ R E L C) as [C0|(kd & hs & -> & -> & E1 & E2 & _ & _ & E3)].
      2: { split; cbn [hp]; [|congruence]. intros _. split; rewrite E1, E2; auto. intros i r J; destruct i; discriminate J. }
      specialize (IH w ins C0). pose proof (comb_lt _ _ _ _ R C0) as W. pose proof (marking_step s t0 pre rest h n w R E L W) as Mk.
      assert (Rd : forall q, is_ready q (trace s) -> is_ready q (trace (mkSt h (set_next (stk s) t0 n rest) None))).
      { intros q X. destruct (lstep_trl _ _ _ _ _ L) as [l Et]. change (is_ready q (tr_of h)). rewrite Et. now apply ready_app. }
      set (s' := mkSt h (set_next (stk s) t0 n rest) None) in *.
      (* steps that leave the flags and keep the result in order *)
      assert (Keep : w_ready (h_wcs h w) = w_ready (h_wcs (hp s) w) -> w_index (h_wcs h w) = w_index (h_wcs (hp s) w) ->
        (exists l, w_states (h_wcs h w) = w_states (h_wcs (hp s) w) ++ l) -> (intact (h_wcs (hp s) w) -> intact (h_wcs h w)) -> any_ok s' w).
      { intros K1 K2 [l K3] K4. destruct IH as [H1 H2]. unfold any_ok. cbn [hp s']. rewrite K1, K2, K3. split; [auto|]. intros X. destruct (H2 X) as [(i & q & Q1 & Q2 & Q3) Q4]. split.
        - exists i, q. split; auto. split; [now apply nth_app|auto].
        - destruct Q4 as [Q4|Q4]; auto. }
      destruct (lstep_weq _ _ _ _ _ w L W) as [[(_ & _ & W1 & _ & W2 & W3 & W4) Nh]|(f & -> & Tf)].
      { apply Keep; auto; [exists []; now rewrite app_nil_r|]. unfold intact. now rewrite W3, W4. }
      pose proof (touch_effect _ _ _ _ _ _ L Tf) as Ef.
      destruct f; cbn [touches] in Tf; try contradiction Tf; cbn [effect] in Ef.
      * destruct Ef as (p & Ef & _). rewrite Ef in Keep. apply Keep; cbn; eauto. apply intact_fill.
      * destruct Ef as (p & Ef & _). rewrite Ef in Keep. apply Keep; cbn; eauto. apply intact_fill.
      * destruct Ef as (Ef & _). rewrite Ef in Keep. apply Keep; cbn [w_then w_ready w_index w_states]; auto; [exists []; now rewrite app_nil_r|apply intact_then].
      * destruct Ef as (Ef & _). rewrite Ef in Keep. apply Keep; cbn [w_process w_ready w_index w_states]; auto; exists []; now rewrite app_nil_r.
      * subst. destruct Ef as (Ef & _). destruct (wany_final (h_wcs (hp s) w)) as [W' o] eqn:Ew. cbn [fst] in Ef.
        assert (Nx := fun v => any_next _ _ _ _ _ w v L). unfold wany_final in Ew. destruct (w_ready (h_wcs (hp s) w) && negb (w_set (h_wcs (hp s) w))) eqn:Rs; injection Ew as <- <-.
        -- pose proof Rs as Rs'. apply andb_true_iff in Rs as [Rs _]. destruct IH as [_ H2]. destruct (H2 Rs) as [(i & q & Q1 & Q2 & Q3) _]. split; cbn [hp s']; rewrite Ef; cbn; [congruence|]. intros _. split; [eauto 6|].
           right. right. edestruct Nx as [a Ea]; [split; [reflexivity|]; unfold wany_final; rewrite Rs'; reflexivity|].
           exists t0, a. cbn [stk s']. rewrite next_own, Ea. right. left. reflexivity.
        -- rewrite Ef in Keep. apply Keep; auto. exists []; now rewrite app_nil_r.
      * subst. destruct (hook_kind s t0 all w idx par q false ins R) as [-> Hp]; [rewrite E; left; reflexivity|exact C0|].
        destruct (hook_ready s t0 false w idx par q R) as [Rp _]; [rewrite E; left; reflexivity|]. destruct Ef as (Ef & _).
        assert (Nx := fun v => any_next _ _ _ _ _ w v L). unfold wany_step in Ef, Nx. destruct (w_ready (h_wcs (hp s) w)) eqn:Rs; cbn [fst] in Ef.
        { rewrite Ef in Keep. apply Keep; auto. exists []; now rewrite app_nil_r. }
        destruct IH as [I1 _]. specialize (I1 Rs). destruct (_ && _) eqn:Cd in Ef; cbn [fst] in Ef; split; cbn [hp s']; rewrite Ef; cbn; try congruence; intros _; (split; [eauto 6|]).
        -- right. right. edestruct Nx as [a Ea]; [split; [reflexivity|]; rewrite Cd; reflexivity|].
           exists t0, a. cbn [stk s']. rewrite next_own, Ea. right. left. reflexivity.
        -- left. exact (intact_put _ _ _ I1 Hp).
      * destruct Ef as (Ef & _). rewrite Ef in Keep. apply Keep; cbn [w_mark w_ready w_index w_states]; auto; exists []; now rewrite app_nil_r.
Qed.
Theorem any_hook_done : forall s t rest w idx par q ins v, reachable s -> stk s t = FWIn false w idx par q :: rest -> comb (hp s) false w ins ->
  snd (wany_step (h_wcs (hp s) w) idx par) = Some v -> v = VAny (Some idx) (map Some ins) /\ nth_error ins idx = Some par /\ is_ready par (trace s).
Proof.
  intros s t rest w idx par q ins v R E C V.
  destruct (hook_kind s t false w idx par q false ins R) as [_ Hp]; [rewrite E; left; reflexivity|exact C|].
  destruct (hook_ready s t false w idx par q R) as [Rp _]; [rewrite E; left; reflexivity|].
  destruct (prefix_reachable s R _ _ _ C) as (rst0 & Pf & Pc). pose proof (comb_total _ _ _ _ R C) as Ht.
  unfold wany_step in V. destruct (w_ready (h_wcs (hp s) w)) eqn:Rs; [discriminate V|]. destruct (_ && _) eqn:Cd; [|discriminate V].
  apply andb_true_iff in Cd as [Cd _]. apply Nat.eqb_eq in Cd. injection V as <-.
  assert (rst0 = []) as -> by (destruct rst0; auto; exfalso; rewrite Pf, app_length in Ht; cbn in Ht; lia). rewrite app_nil_r in Pf. rewrite <- Pf in Hp.
  split; [|auto]. f_equal. destruct (any_reachable s R w ins C) as [I1 _]. rewrite Pf. rewrite Pf in Hp. destruct (intact_put _ _ _ (I1 Rs) Hp). now apply recover_map.
Qed.
Theorem any_final_done : forall s t rest w ins v, reachable s -> stk s t = FWFin1 w :: rest -> comb (hp s) false w ins ->
  snd (wany_final (h_wcs (hp s) w)) = Some v ->
  is_ready (w_prom (h_wcs (hp s) w)) (trace s) \/ exists i q, v = VAny (Some i) (map Some ins) /\ nth_error ins i = Some q /\ is_ready q (trace s).
Proof.
  intros s t rest w ins v R E C V. pose proof (fst_reachable s R t) as F. rewrite E in F. inversion F as [|? ? F0 _]; subst. cbn [fst_] in F0.
  destruct (comb_one _ _ _ _ _ _ R C F0) as [_ Pf]. unfold wany_final in V. destruct (_ && _) eqn:Cd; [|discriminate V]. apply andb_true_iff in Cd as [Rs _].
  injection V as <-. destruct (any_reachable s R w ins C) as [_ I2]. destruct (I2 Rs) as [(i & q & Q1 & Q2 & Q3) Q4].
  destruct Q4 as [Q4|[Q4|(t1 & a & J)]]; [|left; exact Q4|].
  - right. exists i, q. rewrite Q1, Pf. split; [|auto]. f_equal. destruct Q4. now apply recover_map.
  - exfalso. pose proof (hold_reachable (LWhen w) eq_refl s R t) as H1. pose proof (hold_reachable (LWhen w) eq_refl s R t1) as H2.
    unfold is_holder in *. rewrite E in H1. cbn [sumf] in H1.
    assert (P : forall l, (0 <= sumf (hw (LWhen w)) l)%Z) by (intros l; apply sumf_nonneg; intros f; unfold hw; destruct (holds _ f); lia).
    assert (G : forall a, hw (LWhen w) (FWMark w a) = 1%Z) by (intros a0; unfold hw, holds; cbn; now rewrite Nat.eqb_refl).
    assert (G1 : hw (LWhen w) (FWFin1 w) = 1%Z) by (unfold hw, holds; cbn; now rewrite Nat.eqb_refl).
    pose proof (P rest). rewrite G1 in H1.
    destruct (lock_holder (LWhen w) (trace s)) as [v|]; [|lia]. destruct (Nat.eqb_spec v t); [|lia]. subst v.
    assert (G2 : (1 <= sumf (hw (LWhen w)) (stk s t1))%Z).
    { rewrite <- (G a). apply sumf_in; auto. intros f. unfold hw. destruct (holds _ f); lia. }
    destruct (Nat.eqb_spec t t1); [|lia]. subst t1. rewrite E in J. destruct J as [J|J]; [discriminate J|].
    assert (G3 : (1 <= sumf (hw (LWhen w)) rest)%Z). { rewrite <- (G a). apply sumf_in; auto. intros f. unfold hw. destruct (holds _ f); lia. }
    lia.
Qed.
