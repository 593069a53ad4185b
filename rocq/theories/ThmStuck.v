(** * ThmStuck: no thread is ever stuck without a reason the library documents. *)
From Verif Require Import Types Core State Ops Code Machine Base Spec SpecObj SpecState SpecStuck Rules Events InvCtx InvQueue InvStack InvRefs InvSleep ThmRegistry ThmSleep Adj InvThrow Replay ReplayObj ApiObj.

(** ** Threads that exist, and thread ids that do not *)
Lemma atom_ended : forall n h t T (o : op T) inp h' x, atom h t o inp = AOk h' x ->
  (ended n (tr_of h) -> exists b, h_tst h n = TEnd b) -> (match o with OLog e => log_ok (e t) | OThEnd => running (h_tst h t) = true | _ => True end) ->
  ended n (tr_of h') -> exists b, h_tst h' n = TEnd b.
Proof.
  intros n h t T o inp h' x A IH Op. pose proof (atom_event _ _ _ _ _ _ _ A) as Et. unfold tr_of in *. rewrite Et. clear Et.
  destruct o; atom_split A; cbn [rev]; unfold ended in *; rewrite ?latest_snoc; try exact IH; unfold upd.
  1: destruct (e t); cbn in Op; try contradiction; exact IH.
  all: match goal with |- context [if ?n =? ?y then _ else h_tst _ _] => rewrite ?(Nat.eqb_sym y n); destruct (Nat.eqb_spec n y); [subst|exact IH] end; try discriminate; eauto.
  all: try match goal with E : h_tst _ _ = _ |- _ => rewrite E in Op; discriminate Op end.
  all: intros K; destruct (IH K) as [b Hb]; congruence.
Qed.
Lemma end_replay : forall nt s, reachable s -> ended nt (trace s) -> exists b, h_tst (hp s) nt = TEnd b.
Proof.
  intros nt. apply (reachable_ind' (fun s => ended nt (trace s) -> exists b, h_tst (hp s) nt = TEnd b)); [discriminate|]. intros s s' R IH U Tr. destruct Tr as [d|t pre rest u E L|t pre rest h n E L].
  - change (ended nt (trace s ++ [EvTick (Zpos d)]) -> exists b, h_tst (hp s) nt = TEnd b). unfold ended. rewrite latest_snoc. exact IH.
  - exact IH.
  - change (trace _) with (tr_of h). cbn [hp]. pose proof (stk_inv_reachable s R t) as Sk. rewrite E in Sk.
    lstep_cases L; try (eapply atom_ended; [exact A|exact IH|exact Logic.I]).
    all: try (match goal with |- ended _ (tr_of (emit ?a ?b)) -> _ => change (ended nt (tr_of a ++ [b]) -> exists y, h_tst a nt = TEnd y) end; unfold ended; rewrite latest_snoc; exact IH).
    eapply atom_ended; [exact A|exact IH|]. cbn [app] in Sk. unfold stk_ok in Sk. destruct (running _); [reflexivity|discriminate Sk].
Qed.
Lemma fresh_ids : forall s, reachable s -> exists m, forall n, m <= n -> h_tst (hp s) n = TNew.
Proof.
  apply (replay_rule (fun h tr => exists m, forall n, m <= n -> h_tst h n = TNew)).
  - exists 1. intros n H. cbn. destruct n; [lia|reflexivity].
  - intros h l d IH. exact IH.
  - intros h l e IH Ok. exact IH.
  - intros h ? ? o ? ? ? G O [m IH] At NN. destruct o; try contradiction; atom_split At; try (exists m; exact IH).
    all: match goal with |- context [upd _ ?y _] => exists (Nat.max m (S y)); intros n' Hn; rewrite upd_other by lia; apply IH; lia end.
Qed.

(** ** Every frame has something to do *)
Definition sleeps {T} (o : op T) (f : frame) : Prop := match o with OWake i dl => exists k, f = FSleep i dl k | _ => True end.
Ltac doit := do 4 eexists; split; [reflexivity|first [exact Logic.I|cbn; eauto]].
Lemma focus_do : forall s t f r, reachable s -> stk s t = f :: r ->
  (exists u fin, f = FUser u fin) \/
  exists T (o : op T) k rest, focus (f :: r) = Some (Do o k, rest) /\ sleeps o f.
Proof.
  intros s t f r R E. pose proof (flow_reachable s R t) as F. rewrite E in *. cbn [adj] in F. destruct F as [F Fr].
  destruct f; try (left; eauto; fail); right; cbn [focus code]; try (doit; fail).
  all: try (repeat (match goal with |- context [match ?x with _ => _ end] => destruct x end; try (doit; fail)); fail).
  - destruct F as [F _]. specialize (F eq_refl). destruct r as [|g r]; [contradiction|]. destruct g; try contradiction. doit.
  - destruct F as (_ & F & _ & _). specialize (F eq_refl). destruct r as [|g r]; [now elim F|]. cbn [adj] in Fr. destruct Fr as [(_ & _ & _ & G) _].
    specialize (G eq_refl). destruct G as [[G|[G _]]|G]; [| |contradiction].
    + destruct g; try discriminate G; cbn [catch]; doit.
    + destruct g; try discriminate G; cbn [catch]; doit.
Qed.

(** ** What an operation waits for *)
Definition reason_of {T} (o : op T) : option reason :=
  match o with
  | OLock l => Some (ROwn l)
  | OAttach p _ | OGetVal p _ => Some (ROwn (LState p))
  | OPFind pl _ | OPFuts pl | OPCount pl | OPMoveW pl => Some (ROwn (LPool pl))
  | OWake i dl => Some (RWake i dl)
  | OJoin n => Some (RJoin n)
  | OCleanWake dl => Some (RClean dl)
  | _ => None
  end.
Definition goes {T} (h : heap) (t : tid) (o : op T) : Prop := exists inp, atom h t o inp <> ABlock.
Lemma lock_goes : forall s t l T (o : op T), reachable s ->
  (h_locks (hp s) l = None \/ h_locks (hp s) l = Some t -> goes (hp s) t o) ->
  (lapsed t (ROwn l) (trace s) -> goes (hp s) t o) /\ (goes (hp s) t o \/ ~ lapsed t (ROwn l) (trace s)).
Proof.
  intros s t l T o R H. pose proof (replay_locks l s R) as E. cbn [lapsed]. rewrite <- E.
  destruct (h_locks (hp s) l) as [u|]; [|split; auto]. destruct (Nat.eq_dec u t) as [->|N]; [split; auto|].
  split; [intros X; now elim N; apply X|]. right. intros X. now elim N; apply X.
Qed.
Lemma op_goes : forall s t T (o : op T), reachable s ->
  match o with OWake i dl => exists k r, stk s t = FSleep i dl k :: r | _ => True end ->
  match reason_of o with
  | Some r => (lapsed t r (trace s) -> goes (hp s) t o) /\ (goes (hp s) t o \/ ~ lapsed t r (trace s))
  | None => goes (hp s) t o
  end.
Proof.
  intros s t T o R Sl. destruct o; cbn [reason_of];
    try (exists 0; cbn [atom]; unfold do_proc, do_takesleep, with_local, take_log, do_reg, do_unreg, do_release;
         repeat match goal with |- context [match ?x with _ => _ end] => destruct x end; discriminate);
    try (apply lock_goes; auto; intros [L|L]; exists 0; cbn [atom]; unfold leaf; rewrite L, ?Nat.eqb_refl;
         repeat match goal with |- context [match ?x with _ => _ end] => destruct x end; discriminate).
  - pose proof (replay_clock s R) as Ck. pose proof (rv_regd _ (r_inv_reachable s R)) as Rg. change (tr_of (hp s)) with (trace s) in Rg. cbn [lapsed]. unfold reg_ids. rewrite Rg, <- Ck.
    assert (H : h_regd (hp s) = [] \/ (z <= h_now (hp s))%Z -> goes (hp s) t (OCleanWake z)).
    { intros [H|H]; exists 1; cbn [atom]; [rewrite H; rewrite orb_true_r; discriminate|].
      apply Z.leb_le in H. rewrite H, orb_true_r. destruct (h_regd (hp s)); discriminate. }
    split; [exact H|]. destruct (h_regd (hp s)); [auto|]. destruct (Z_le_gt_dec z (h_now (hp s))); [auto|]. right. intros [X|X]; [discriminate X|lia].
  - destruct Sl as (k & r & E). destruct (sleep_woken s R t _ _ E) as (Lc & W1 & W2). pose proof (pending_spec s i R) as P. pose proof (replay_clock s R) as Ck.
    cbn [lapsed]. rewrite <- Ck. set (c := h_ctxs (hp s) i) in *.
    destruct (alive (hp s) i) eqn:Al.
    2: { assert (goes (hp s) t (OWake i o)) by (exists 0; cbn [atom]; unfold do_wake; rewrite Al; discriminate). auto. }
    assert (Go1 : cx_wakeup c = true \/ (exists d, o = Some d /\ (d <= h_now (hp s))%Z) -> goes (hp s) t (OWake i o)).
    { intros H. exists 1. cbn [atom]. unfold do_wake. fold c. rewrite Al.
      assert (Y : (cx_wakeup c && (cx_sig c || negb (1 =? 0))) || match o with Some d => (d <=? h_now (hp s))%Z | None => false end = true).
      { destruct H as [->|(d & -> & Hd)]; [now rewrite orb_true_r|]. apply Z.leb_le in Hd. now rewrite Hd, orb_true_r. }
      rewrite Y, Lc, Nat.eqb_refl. destruct (take_task _) as [[|] ?]; discriminate. }
    assert (Wk : cx_wakeup c = true <-> accepted i (trace s) <> started i (trace s) \/ exit_requested i (trace s)).
    { rewrite W2. fold c in P. rewrite P. rewrite (exit_dec s i R). fold c. split; (intros [X|X]; [left|now right]).
      - intros Y. apply X. now apply (app_inv_head (started i (trace s))); rewrite app_nil_r.
      - intros Y. apply X. now rewrite Y, app_nil_r. }
    split.
    + intros [X|[X|X]]; apply Go1; [left; apply Wk; auto|left; apply Wk; auto|now right].
    + destruct (cx_wakeup c) eqn:Ew; [left; auto|].
      assert (De : (exists d, o = Some d /\ (d <= h_now (hp s))%Z) \/ ~ exists d, o = Some d /\ (d <= h_now (hp s))%Z).
      { destruct o as [d|]; [|right; intros (? & ? & _); discriminate]. destruct (Z_le_gt_dec d (h_now (hp s))); [eauto|]. right. intros (? & X & Y). injection X as <-. lia. }
      destruct De as [De|De]; [left; auto|]. right. intros [X|[X|X]]; [| |now apply De].
      * assert (false = true) by (apply Wk; auto). discriminate.
      * assert (false = true) by (apply Wk; auto). discriminate.
  - destruct (fresh_ids s R) as [m H]. exists (Nat.max m (S t)). cbn [atom]. rewrite H by lia. destruct (Nat.eqb_spec (Nat.max m (S t)) t); [lia|]. discriminate.
  - cbn [lapsed]. assert (H : ended t0 (trace s) <-> goes (hp s) t (OJoin t0)).
    { split.
      - intros X. destruct (end_replay _ _ R X) as [b Hb]. exists 0. cbn [atom]. rewrite Hb. discriminate.
      - intros [inp X]. cbn [atom] in X. apply (replay_end _ _ R). destruct (h_tst (hp s) t0); try (now elim X). eauto. }
    split; [apply H|]. assert (De : goes (hp s) t (OJoin t0) \/ ~ goes (hp s) t (OJoin t0)).
    { unfold goes. cbn [atom]. destruct (h_tst (hp s) t0); [right|right|left; exists 0; discriminate]; intros [? X]; now elim X. }
    destruct De; [auto|right]. now rewrite H.
Qed.

Lemma goes_moves : forall s t T (o : op T) k rest, ubs s = None -> focus (stk s t) = Some (Do o k, rest) -> goes (hp s) t o -> can_move s t.
Proof.
  intros s t T o k rest U F [inp G]. right. exists inp. unfold step. rewrite U, F. cbn [exec]. destruct (atom (hp s) t o inp); [now elim G|eauto|eauto].
Qed.
Theorem never_stuck : forall s t, reachable s -> ubs s = None -> stk s t <> [] -> can_move s t \/ exists r, waits_for s t r.
Proof.
  intros s t R U N. destruct (stk s t) as [|f r] eqn:E; [now elim N|]. clear N.
  destruct (focus_do s t f r R E) as [(u & fin & ->)|(T & o & k & rest & F & Sl)].
  { left. left. exists AMyId. unfold step. rewrite U, E. eauto. }
  assert (X : forall s', stk s' t = f :: r -> match o with OWake i dl => exists k r, stk s' t = FSleep i dl k :: r | _ => True end).
  { intros s' E'. destruct o; auto. destruct Sl as [k' ->]. eauto. }
  pose proof (op_goes s t T o R (X s E)) as G. destruct (reason_of o) as [w|] eqn:W.
  - destruct G as [_ [G|G]]; [left; apply (goes_moves s t T o k rest); auto; now rewrite E|]. right. exists w. split; auto.
    intros s' R' U' E' O. rewrite E in E'. pose proof (op_goes s' t T o R' (X s' E')) as G'. rewrite W in G'. destruct G' as [G' _].
    apply (goes_moves s' t T o k rest); auto. now rewrite E'.
  - left. apply (goes_moves s t T o k rest); auto. now rewrite E.
Qed.
