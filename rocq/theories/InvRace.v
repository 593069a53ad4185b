(** * InvRace: which plain members two threads can access at the same time. *)
From Verif Require Import Types Core State Ops Code Machine Base Spec Rules Events InvStack Calls InvRefs InvCv InvPack Replay ReplayObj ThmObj Count Contract Adj InvLock InvHook InvWhen InvFill InvComb InvArmed SpecRace.

(** ** The pool is locked while its workers are told *)
Definition notifies (pl : nat) (f : frame) : Prop := match f with FPNotify q _ | FPDisp q _ => q = pl | _ => False end.
Definition unl_below (pl : nat) (a : option frame) (f : frame) (r : list frame) : Prop := notifies pl f -> exists b, r = FPUnl pl :: b.
Theorem unl_reachable : forall pl s, reachable s -> forall t, adj (unl_below pl) None (stk s t).
Proof.
  intros pl. apply (adj_rule (fun _ _ => unl_below pl)); auto.
  - intros t. cbn. destruct (t =? 0)%nat; cbn; auto. repeat split; intros [].
  - intros s t pre rest h n R R' E L A. split; [|split].
    + lstep_cases L; cbn [next_frames] in *; sh_; try exact Logic.I; unfold unl_below; try (intros []; fail).
      all: cbn [notifies]; intros Q; subst; cbn [app]; eauto.
      all: destruct A as [A _]; destruct (A eq_refl) as [b H]; cbn [app] in H; rewrite H; eauto.
    + destruct rest as [|g r]; auto.
    + destruct (spawned n) as [[c cfs]|] eqn:Sp; auto. destruct (lstep_spawned _ _ _ _ _ _ _ L Sp) as (_ & _ & b & ->).
      destruct b; cbn; unfold unl_below; cbn; tauto.
Qed.

(** ** A frame that holds a lock *)
Lemma hw_nonneg : forall l fs, (0 <= sumf (hw l) fs)%Z.
Proof. intros l fs. induction fs as [|f fs IH]; cbn [sumf]; [lia|]. unfold hw at 1. destruct (holds l f); lia. Qed.
Lemma hw_in : forall l fs f, In f fs -> holds l f = true -> (1 <= sumf (hw l) fs)%Z.
Proof.
  intros l fs f. induction fs as [|g fs IH]; [intros []|]. intros [->|I] H; cbn [sumf].
  - unfold hw at 1. rewrite H. pose proof (hw_nonneg l fs). lia.
  - specialize (IH I H). unfold hw at 1. destruct (holds l g); lia.
Qed.
Lemma holder : forall l s t f, internal l = true -> reachable s -> In f (stk s t) -> holds l f = true -> lock_holder l (trace s) = Some t.
Proof.
  intros l s t f I R J H. pose proof (hold_reachable l I s R t) as Q. pose proof (hw_in l _ f J H) as G. unfold is_holder in Q.
  destruct (lock_holder l (trace s)) as [u|]; [|lia]. destruct (Nat.eqb_spec u t); [congruence|lia].
Qed.

(** ** The lock of a member *)
Definition lock_of (c : cell) : lockid :=
  match c with
  | CExn p | CVal p | CCbs p => LState p
  | CFlag w | CElem w _ => LWhen w
  | CMain => LUser 0
  | CJobs pl | CWorkers pl => LPool pl
  end.
Lemma lock_refl : forall l, lock_eqb l l = true.
Proof. destruct l; cbn; apply Nat.eqb_refl. Qed.
(** ** The elements that the thread in when_all or when_any has not passed to a continuation yet *)
Definition builds (w i : nat) (f : frame) : Prop :=
  match f with
  | FWFillAll w' _ _ (_ :: _) acc => w' = w /\ length acc = i
  | FWEach w' _ _ i' (WrH (_ :: _)) | FWThen w' _ _ i' _ _ _ => w' = w /\ i' = i
  | _ => False
  end.
Lemma builds_stage : forall w i f, builds w i f -> exists k, stage f = Some (w, k) /\ k <= i.
Proof.
  intros w i f H. destruct f; cbn in H; try contradiction; cbn [stage].
  - destruct todo; [contradiction|]. destruct H as [-> <-]. exists 0. split; auto. lia.
  - destruct r as [[]|]; try contradiction. destruct H as [-> ->]. eauto.
  - destruct H as [-> ->]. eauto.
Qed.
Lemma builds_more : forall s t w i f, reachable s -> In f (stk s t) -> builds w i f ->
  exists a ins, comb (hp s) a w ins /\ i < length ins /\ w_processed (h_wcs (hp s) w) <= i.
Proof.
  intros s t w i f R J H. pose proof (fst_reachable s R t) as F. eapply Forall_forall in F; [|exact J].
  destruct f; cbn in H; try contradiction; cbn [fst_] in F.
  - destruct todo as [|n l]; [contradiction|]. destruct H as [-> <-]. destruct F as (ins & rest & C & E & M & P & Hr). inversion Hr; subst.
    exists (is_all kd). eexists. split; [exact C|]. rewrite <- M, app_length, !map_length, P. cbn. lia.
  - destruct r as [[|n l]|]; try contradiction. destruct H as [-> ->]. destruct F as (ins & C & P & Le & rest & E & Hr). inversion Hr; subst.
    exists (is_all kd). eexists. split; [exact C|]. rewrite app_length. cbn. lia.
  - destruct H as [-> ->]. destruct F as [N (ins & C & P & Q)].
    assert (i < length (w_states (h_wcs (hp s) w))) by (apply nth_error_Some; congruence).
    exists (is_all kd), ins. split; [exact C|]. split; [|exact P]. destruct r as [l|acc].
    + destruct Q as (_ & rest & -> & _). rewrite app_length. lia.
    + destruct Q as [<- _]. auto.
Qed.
Lemma elems_in : forall w n a, In a (elems w n) -> exists i, a = mkAc (CElem w i) true false.
Proof. intros w n a H. unfold elems in H. apply in_map_iff in H as (i & <- & _). eauto. Qed.
Lemma elem_of : forall h g a w i, In a (accesses h g) -> ac_cell a = CElem w i -> builds w i g \/ g = FWFin1 w \/
  exists al idx par q, g = FWIn al w idx par q /\
    (idx = i \/ (al = true /\ S (w_nready (h_wcs h w)) = w_total (h_wcs h w)) \/ (al = false /\ w_processed (h_wcs h w) = w_total (h_wcs h w))).
Proof.
  intros h g a w i J C.
  assert (El : forall w' n, In a (elems w' n) -> w' = w) by (intros w' n X; apply elems_in in X as [j ->]; cbn in C; congruence).
  assert (One : forall c b o l, In a (mkAc c b o :: l) -> c = CElem w i \/ In a l) by (intros c b o l [<-|X]; auto).
  destruct g; cbn [accesses] in J; try contradiction.
  all: try (left; cbn [builds]; repeat match type of J with In _ (match ?x with _ => _ end) => destruct x; try contradiction J end;
    apply One in J as [J|[]]; injection J as -> ->; auto; fail).
  all: try (exfalso; repeat match type of J with In _ (match ?x with _ => _ end) => destruct x; try contradiction J end;
    repeat (apply One in J as [J|J]; [discriminate J|]); try contradiction J;
    repeat match type of J with In _ (match ?x with _ => _ end) => destruct x; try contradiction J end;
    repeat (apply One in J as [J|J]; [discriminate J|]); contradiction J).
  - right. left. apply One in J as [J|J]; [discriminate J|]. destruct (_ && _); [|contradiction]. apply El in J. congruence.
  - right. right. apply One in J as [J|J]; [discriminate J|]. destruct all.
    + apply One in J as [J|J]; [injection J as -> ->; eauto 8|]. destruct (Nat.eqb_spec (S (w_nready (h_wcs h w0))) (w_total (h_wcs h w0))); [|contradiction].
      apply El in J. subst w0. eauto 10.
    + destruct (w_ready _); [contradiction|]. apply One in J as [J|J]; [injection J as -> ->; eauto 8|].
      destruct (_ && _) eqn:X; [|contradiction]. apply andb_prop in X as [X _]. apply Nat.eqb_eq in X. apply El in J. subst w0. eauto 10.
Qed.
(** No continuation touches such an element. *)
Lemma elem_free : forall s t u f r g r' w i a inp s', reachable s -> t <> u -> stk s t = f :: r -> stk s u = g :: r' -> builds w i f ->
  In a (accesses (hp s) g) -> ac_cell a = CElem w i -> step s (LStep u inp) = Some s' -> False.
Proof.
  intros s t u f r g r' w i a inp s' R N Ef Eg B J Ca St.
  destruct (builds_stage _ _ _ B) as (k & Sk & Ki).
  assert (Jf : In f (stk s t)) by (rewrite Ef; now left). assert (Jg : In g (stk s u)) by (rewrite Eg; now left).
  destruct (builds_more s t w i f R Jf B) as (b & ins & C & Li & Lp). pose proof (comb_total _ _ _ _ R C) as Tt.
  assert (New : forall t' q v a' idx par, In (EvState t' q v (PuHook a' w idx par)) (trace s) -> idx < k).
  { intros t' q v a' idx par H. destruct (Nat.le_gt_cases k idx) as [L|]; auto. exfalso. eapply (unpacked_none s t f w k idx); eauto. }
  destruct (elem_of _ _ _ _ _ J Ca) as [B'|[->|(al & idx & par & q & -> & H)]].
  - destruct (builds_stage _ _ _ B') as (k' & Sk' & _).
    apply (one_builder s t [f] r f u g w k k' R Ef); auto; [now left|congruence].
  - pose proof (fst_reachable s R u) as F. eapply Forall_forall in F; [|exact Jg]. pose proof (pst_reachable s R u) as P. eapply Forall_forall in P; [|exact Jg].
    cbn in F, P. destruct (comb_one _ _ _ _ _ _ R C F) as [_ ->]. lia.
  - destruct (hook_ready s u al w idx par q R Jg) as [_ Pu]. apply purpose_hook in Pu as (t' & v & Pu). pose proof (New _ _ _ _ _ _ Pu) as Lk.
    destruct H as [->|[[-> H]|[-> H]]]; [lia| |lia].
    assert (Rs : reachable s') by (eapply reachable_step; eauto).
    assert (Ht : trace s' = trace s ++ [EvHook u w idx q]).
    { unfold step in St. destruct (ubs s); [discriminate St|]. rewrite Eg in St. cbn [focus code exec atom] in St.
      destruct (wall_step _ _ _) as [x y]. cbn in St. injection St as <-. unfold trace. cbn. hs. reflexivity. }
    pose proof (hidx_nodup s' w Rs) as Nd. rewrite Ht, hidx_app in Nd. cbn [hidx] in Nd. rewrite Nat.eqb_refl in Nd.
    pose proof (nready_le s R w) as Nr.
    assert (Le : length (hidx w (trace s) ++ [idx]) <= length (seq 0 k)).
    { apply NoDup_incl_length; auto. intros j X. apply in_seq. apply in_app_or in X as [X|[<-|[]]]; [|lia].
      apply hidx_in in X as (t1 & q1 & X). destruct (hook_from _ _ _ _ _ R X) as (t2 & v2 & a2 & p2 & X2 & _). apply New in X2. lia. }
    rewrite app_length, seq_length in Le. cbn in Le. lia.
Qed.
(** An access is made by the thread in a combinator to an element that is not passed on yet,
    the read in main_thread::get_id, the write in init, the read in get of a void future,
    or with the lock. *)
Lemma guarded : forall s t f r a, reachable s -> stk s t = f :: r -> In a (accesses (hp s) f) ->
  (ac_cell a = CMain /\ ((f = FMainId /\ ac_write a = false) \/ ((exists i, f = FInit3 i) /\ ac_own a = true))) \/
  (exists p x, ac_cell a = CExn p /\ f = FGet3 p x /\ fs_void (h_fsts (hp s) p) = true /\ ac_write a = false) \/
  (exists w i, ac_cell a = CElem w i /\ builds w i f) \/
  (ac_cell a <> CMain /\ ac_own a = false /\ lock_holder (lock_of (ac_cell a)) (trace s) = Some t /\
     (forall p, ac_cell a = CExn p -> (exists e, f = FSet1 p (OExn e)) /\ fs_ready (h_fsts (hp s) p) = false)) \/
  (ac_cell a <> CMain /\ ac_own a = true /\ (forall w i, ac_cell a <> CElem w i) /\ (forall p, ac_cell a = CExn p -> ac_write a = false) /\
     forall inp s' u, step s (LStep t inp) = Some s' -> lock_holder (lock_of (ac_cell a)) (trace s) = Some u -> u = t).
Proof.
  intros s t f r a R E J.
  assert (Own : forall l, internal l = true -> holds l f = true -> lock_holder l (trace s) = Some t).
  { intros l I H. apply (holder l s t f I R); [rewrite E; now left|exact H]. }
  assert (Un : forall pl, notifies pl f -> lock_holder (LPool pl) (trace s) = Some t).
  { intros pl N. pose proof (unl_reachable pl s R t) as A. rewrite E in A. destruct A as [A _]. destruct (A N) as [b ->].
    apply (holder (LPool pl) s t (FPUnl pl)); auto; [rewrite E; right; now left|]. unfold holds. cbn [hold]. apply lock_refl. }
  assert (Lf : forall l T (o : op T) (k : T -> next), code f = Do o k -> focus (stk s t) = Some (Do o k, r) ->
             (exists x : ares T, forall inp, atom (hp s) t o inp = leaf (hp s) t l x) ->
             forall inp s' u, step s (LStep t inp) = Some s' -> lock_holder l (trace s) = Some u -> u = t).
  { intros l T o k _ Fc (x & At) inp s' u St H. unfold step in St. destruct (ubs s); [discriminate|]. rewrite Fc in St. cbn [exec] in St. rewrite At in St.
    unfold leaf in St. rewrite (replay_locks l s R), H in St. destruct (Nat.eqb_spec u t); [auto|]. discriminate St. }
  assert (El : forall w n, In a (elems w n) -> exists i, a = mkAc (CElem w i) true false) by (intros w n; apply elems_in).
  destruct f; cbn [accesses] in J; try contradiction.
  all: try (destruct (fs_ready (h_fsts (hp s) p)) eqn:Rd; [contradiction|]).
  all: try (destruct (fs_void (h_fsts (hp s) p)) eqn:Vd).
  all: try (match type of J with context [match ?o with OVal _ => _ | OExn _ => _ end] => destruct o end).
  all: try (match type of J with In _ (match ?x with _ => _ end) => destruct x; try contradiction J end).
  all: try (match type of J with In _ (match ?x with _ => _ end) => destruct x; try contradiction J end).
  all: cbn [In] in J; repeat (destruct J as [<-|J]); try contradiction; cbn [ac_cell ac_write ac_own lock_of].
  all: try (left; split; [reflexivity|]; eauto; fail).
  all: try (right; left; eauto 8; fail).
  all: try (right; right; left; do 2 eexists; split; [reflexivity|split; reflexivity]; fail).
  all: try (right; right; right; left; split; [discriminate|split; [reflexivity|split; [apply Own; [reflexivity|unfold holds; cbn [hold]; apply lock_refl]|intros ? Q; try discriminate Q; injection Q as <-; eauto]]]; fail).
  all: try (right; right; right; left; split; [discriminate|split; [reflexivity|split; [apply Un; reflexivity|discriminate]]]; fail).
  all: try (right; right; right; right; split; [discriminate|split; [reflexivity|split; [discriminate|split; [intros; try discriminate; reflexivity|]]]];
    eapply Lf; [reflexivity|rewrite E; reflexivity|eexists; intros; cbn [atom]; try rewrite Vd; reflexivity]).
  (* FWFin1, FWIn *)
  all: assert (Lw : lock_holder (LWhen w) (trace s) = Some t) by (apply Own; [reflexivity|unfold holds; cbn [hold]; apply lock_refl]).
  all: assert (Q : exists i, a = mkAc (CElem w i) true false) by
    (repeat match type of J with
      | In _ (elems _ _) => exact (El _ _ J)
      | In _ (if ?x then _ else _) => destruct x
      | In _ (_ :: _) => destruct J as [<-|J]; [eauto; fail|]
      | In _ [] => contradiction J
      end).
  all: destruct Q as [j ->]; right; right; right; left; cbn; split; [discriminate|split; [reflexivity|split; [exact Lw|discriminate]]].
Qed.

Theorem only_known : forall s t u c, reachable s -> race s t u c -> known_race s t u c \/ known_race s u t c.
Proof.
  intros s t u c R (N & a & b & (Ea & f & r & Sf & Ja) & (Eb & g & r' & Sg & Jb) & Ca & Cb & W & O).
  destruct Ea as (ia & sa & Sa). destruct Eb as (ib & sb & Sb).
  destruct (guarded s t f r a R Sf Ja) as [(Ma & Qa)|[(p & x & Qa & Fa & Va & Wa)|[(w & i & Qa & Ba)|[(Na & Oa & La & Xa)|(Na & Oa & Ya & Xa & La)]]]];
  destruct (guarded s u g r' b R Sg Jb) as [(Mb & Qb)|[(p' & x' & Qb & Fb & Vb & Wb)|[(w' & i' & Qb & Bb)|[(Nb & Ob & Lb & Xb)|(Nb & Ob & Yb & Xb & Lb)]]]];
    try congruence;
    try (exfalso; apply (elem_free s t u f r g r' w i b ib sb); congruence);
    try (exfalso; apply (elem_free s u t g r' f r w' i' a ia sa); congruence).
  - rewrite Ma in Ca. subst c. cbn [known_race].
    destruct Qa as [[-> Wa]|[[i ->] Oa]]; destruct Qb as [[-> Wb]|[[j ->] Ob]].
    + rewrite Wa, Wb in W. discriminate W.
    + left. split; [exists r|exists j, r']; auto.
    + right. split; [exists r'|exists i, r]; auto.
    + rewrite Oa, Ob in O. discriminate O.
  - rewrite Wa, Wb in W. discriminate W.
  - left. assert (Hc : c = CExn p) by congruence. destruct (Xb p) as [[e ->] Rd]; [congruence|]. rewrite Hc. cbn [known_race].
    split; [exists x, r; congruence|]. split; [exists e, r'; congruence|]. auto.
  - rewrite Wa, (Xb p) in W by congruence. discriminate W.
  - right. assert (Hc : c = CExn p') by congruence. destruct (Xa p') as [[e ->] Rd]; [congruence|]. rewrite Hc. cbn [known_race].
    split; [exists x', r'; congruence|]. split; [exists e, r; congruence|]. auto.
  - rewrite Ca in La. rewrite Cb in Lb. exfalso. apply N. now apply (Lb ib sb t).
  - rewrite Wb, (Xa p') in W by congruence. discriminate W.
  - rewrite Ca in La. rewrite Cb in Lb. exfalso. apply N. symmetry. now apply (La ia sa u).
  - rewrite Oa, Ob in O. discriminate O.
Qed.
