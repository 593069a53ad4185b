(** * InvGuard: nothing else happens under the lock of a shared state. *)
From Verif Require Import Types Core State Ops Code Machine Base Spec SpecLock Rules Events InvStack Calls InvCv InvPack Replay ReplayObj ThmObj Count Contract InvLock.

Lemma since_snoc : forall l tr e, since l (tr ++ [e]) = match e with EvLock _ k => if lock_eqb k l then [] else since l tr ++ [e] | _ => since l tr ++ [e] end.
Proof. intros. unfold since. rewrite fold_left_app. reflexivity. Qed.
Definition relock (l : lockid) (e : event) : bool := match e with EvLock _ k => lock_eqb k l | _ => false end.
Lemma since_keep : forall l tr e, relock l e = false -> since l (tr ++ [e]) = since l tr ++ [e].
Proof. intros l tr e H. rewrite since_snoc. destruct e; auto. cbn in H. now rewrite H. Qed.

Definition gone (p : sid) (tr : list event) (k : task) : Prop := k = TNop \/ exists i ks, In (EvCtxGone i ks) (since (LState p) tr) /\ In k ks.
Definition zf (p : sid) (tr : list event) (f : frame) : Prop :=
  match f with
  | FNotify (SSt q) true => q = p
  | FNotifyL _ | FRel _ | FRun TNop | FDrop TNop | FDisp _ TNop LkDisc | FInvoke _ TNop LkDisc | FPush _ TNop LkDisc => True
  | FDestroy l => forall x, In x l -> exists k, x = DTask k /\ gone p tr k
  | _ => False
  end.
Lemma gone_app : forall p tr l k, (forall e, In e l -> relock (LState p) e = false) -> gone p tr k -> gone p (tr ++ l) k.
Proof.
  intros p tr l k N [->|(i & ks & A & B)]; [now left|]. right. exists i, ks. split; auto.
  induction l as [|e l IH] using rev_ind; [now rewrite app_nil_r|]. rewrite app_assoc, since_keep by (apply N, in_or_app; right; now left).
  apply in_or_app. left. apply IH. intros x X. apply N, in_or_app. now left.
Qed.
Lemma swept_app : forall p t tr l, (forall e, In e l -> relock (LState p) e = false) -> swept t p tr -> swept t p (tr ++ l).
Proof.
  intros p t tr l N (k & i & ks & A & K & B & C). exists k, i, ks. assert (forall e, In e (since (LState p) tr) -> In e (since (LState p) (tr ++ l))) as M.
  { intros e I. induction l as [|e' l IH] using rev_ind; [now rewrite app_nil_r|]. rewrite app_assoc, since_keep by (apply N, in_or_app; right; now left).
    apply in_or_app. left. apply IH. intros x X. apply N, in_or_app. now left. }
  auto.
Qed.
Lemma zf_app : forall p tr l f, (forall e, In e l -> relock (LState p) e = false) -> zf p tr f -> zf p (tr ++ l) f.
Proof.
  intros p tr l f N. destruct f; cbn; auto. intros H x I. destruct (H x I) as (k & -> & G). exists k. split; auto. now apply gone_app.
Qed.

Lemma tr_emit : forall h e, tr_of (emit h e) = tr_of h ++ [e].
Proof. reflexivity. Qed.
Lemma zdrop : forall p t tr k r l, (forall x, In x (DTask k :: r) -> exists k, x = DTask k /\ gone p tr k) -> k = TNop \/ l = l ->
  (k = TNop -> l = r) -> Forall (zf p (tr ++ [EvDrop t k])) [FDestroy l] \/ swept t p (tr ++ [EvDrop t k]).
Proof.
  intros p t tr k r l H _ E. destruct (H (DTask k) (or_introl eq_refl)) as (k' & X & G). injection X as <-.
  assert (D : k = TNop \/ k <> TNop) by (destruct k; (now left) || (right; discriminate)). destruct D as [D|D].
  - left. rewrite (E D). constructor; [|constructor]. intros x I. destruct (H x (or_intror I)) as (k' & -> & G'). exists k'. split; auto. apply gone_app; auto.
    intros e [<-|[]]. reflexivity.
  - right. destruct G as [->|(i & ks & A & B)]; [congruence|]. exists k, i, ks. rewrite since_keep by reflexivity.
    split; [apply in_or_app; right; now left|]. split; auto. split; auto. apply in_or_app. auto.
Qed.
(** Steps of frames in the zone. *)
Lemma zstep : forall p h t pre h' n, lstep h t pre h' n -> Forall (zf p (tr_of h)) pre ->
  Forall (zf p (tr_of h')) (next_frames n) \/ swept t p (tr_of h').
Proof.
  intros p h t pre h' n L F. lstep_cases L; cbn [next_frames]; inversion F as [|? ? F1 F2]; subst; cbn [zf] in F1; try contradiction.
  all: try (left; repeat constructor; fail).
  all: try match type of F1 with forall x, In x (DBody _ :: _) -> _ => destruct (F1 _ (or_introl eq_refl)) as (? & ? & _); discriminate end.
  all: try match type of F1 with forall x, In x (DProm _ :: _) -> _ => destruct (F1 _ (or_introl eq_refl)) as (? & ? & _); discriminate end.
  all: try match type of F1 with forall x, In x (DCap _ :: _) -> _ => destruct (F1 _ (or_introl eq_refl)) as (? & ? & _); discriminate end.
  all: try match type of F1 with forall x, In x (DW _ :: _) -> _ => destruct (F1 _ (or_introl eq_refl)) as (? & ? & _); discriminate end.
  all: try (cbn [atom] in A; inversion A; subst; rewrite tr_emit; eapply zdrop; [exact F1|now right|]; intros X; try discriminate X; reflexivity).
  - destruct k; try contradiction. left. constructor; [|constructor]. cbn. intros x0 [<-|[]]. exists TNop. split; auto. now left.
  - cbn [atom] in A. unfold do_release in A. destruct (alive _ _); inversion A; subst; [left; constructor|].
    left. destruct (ctx_pending _) as [|k0 ks] eqn:E; [constructor|]. rewrite tr_emit. constructor; [|constructor]. intros y Y. apply in_map_iff in Y as (k & <- & Y).
    exists k. split; auto. right. exists i, (k0 :: ks). rewrite since_keep by reflexivity. split; auto. apply in_or_app. right. now left.
  - destruct k; try contradiction. destruct c; try contradiction. left. cbn. constructor; [|constructor]. cbn. intros x0 [<-|[]]. exists TNop. split; auto. now left.
  - destruct k; try contradiction. destruct c; try contradiction. left. destruct x; cbn; constructor; try constructor; cbn; auto. intros x0 [<-|[]]. exists TNop. split; auto. now left.
  - destruct k; try contradiction. destruct c; try contradiction. left. repeat constructor.
  - destruct k; try contradiction. destruct c; try contradiction. left. destruct (_ =? _); repeat constructor.
Qed.
Lemma zdrop2 : forall p t tr k r, (forall x, In x (DTask k :: r) -> exists k, x = DTask k /\ gone p tr k) -> k = TNop \/ swept t p (tr ++ [EvDrop t k]).
Proof.
  intros p t tr k r H. destruct (H (DTask k) (or_introl eq_refl)) as (k' & X & G). injection X as <-.
  destruct G as [->|(i & ks & A & B)]; [now left|]. assert (D : k = TNop \/ k <> TNop) by (destruct k; (now left) || (right; discriminate)). destruct D as [D|D]; [now left|].
  right. exists k, i, ks. rewrite since_keep by reflexivity. split; [apply in_or_app; right; now left|]. split; auto. split; auto. apply in_or_app. auto.
Qed.
Lemma zevent : forall p h t pre h' n ev, lstep h t pre h' n -> Forall (zf p (tr_of h)) pre -> h_tr h' = ev :: h_tr h ->
  guard_event p ev \/ swept t p (tr_of h') \/ actor ev = None.
Proof.
  intros p h t pre h' n ev L F X. pose proof X as X0. ev_cases L X; inversion F as [|? ? F1 F2]; subst; cbn [zf] in F1; try contradiction.
  all: try match type of F1 with forall x, In x (DBody _ :: _) -> _ => destruct (F1 _ (or_introl eq_refl)) as (? & ? & _); discriminate end.
  all: try match type of F1 with forall x, In x (DProm _ :: _) -> _ => destruct (F1 _ (or_introl eq_refl)) as (? & ? & _); discriminate end.
  all: try match type of F1 with forall x, In x (DCap _ :: _) -> _ => destruct (F1 _ (or_introl eq_refl)) as (? & ? & _); discriminate end.
  all: try match type of F1 with forall x, In x (DW _ :: _) -> _ => destruct (F1 _ (or_introl eq_refl)) as (? & ? & _); discriminate end.
  all: try (injection X as <-).
  all: try (unfold tr_of; rewrite X0; destruct (zdrop2 p t _ _ _ F1) as [D|D]; [left; rewrite D; exact I|right; left; exact D]).
  all: try (left; exact I; fail).
  - destruct (alive _ _); [discriminate X|]. injection X as <-. auto.
  - destruct k; try contradiction. now left.
  - destruct s; try contradiction. destruct all; try contradiction. left. exact F1.
Qed.
(** Steps of the frame that holds the lock. *)
Lemma lock_eq : forall a b, lock_eqb a b = true -> a = b.
Proof. intros [] [] E; try discriminate E; cbn in E; apply Nat.eqb_eq in E; congruence. Qed.
Lemma sem_state : forall p s l k, sem_lk s l k -> match l with Some x => lock_eqb x (LState p) | None => false end = true -> s = SSt p /\ l = Some (LState p).
Proof.
  intros p s l k S H. destruct k; cbn in S.
  - destruct S as [m ->]. discriminate H.
  - destruct S as [m ->]. discriminate H.
  - destruct S as [-> ->]. cbn in H. apply Nat.eqb_eq in H. now subst.
  - subst. discriminate H.
Qed.
Lemma hevent : forall p h t g0 h' n ev, lstep h t [g0] h' n -> lkf g0 -> holds (LState p) g0 = true -> h_tr h' = ev :: h_tr h -> guard_event p ev.
Proof.
  intros p h t g0 h' n ev L K H X. remember [g0] as pre. ev_cases L X; try discriminate; injection Heqpre as <-; try discriminate H; unfold holds in H; cbn [hold] in H.
  all: try (injection X as <-); cbn [guard_event].
  all: try (cbn [lkf] in K; destruct (sem_state _ _ _ _ K H) as [-> E]; try (injection E as ->); reflexivity).
  all: try (apply lock_eq in H; congruence).
  destruct x; [|discriminate X]. injection X as <-. apply lock_eq in H. cbn. congruence.
Qed.
(** New frames that hold the lock. *)
Lemma hnew : forall p h t pre h' n ab g0 r, lstep h t pre h' n -> next_frames n = ab ++ g0 :: r -> holds (LState p) g0 = true -> Forall (zf p (tr_of h')) ab.
Proof.
  intros p h t pre h' n ab g0 r L E H.
  assert (Q : ab = [] \/ ab = [FNotify (SSt p) true]); [|destruct Q as [-> | ->]; repeat constructor].
  assert (Z : forall fs, fs = ab ++ g0 :: r -> Forall (fun f => holds (LState p) f = false) fs -> False).
  { intros fs -> F. rewrite Forall_forall in F. rewrite (F g0) in H; [discriminate|]. apply in_or_app. right. now left. }
  assert (Z1 : forall f fs, f :: fs = ab ++ g0 :: r -> Forall (fun f => holds (LState p) f = false) fs -> ab = []).
  { intros f fs X F. destruct ab as [|a ab]; auto. injection X as -> X. exfalso. rewrite Forall_forall in F. rewrite (F g0) in H; [discriminate|]. rewrite X. apply in_or_app. right. now left. }
  assert (Fl : forall fs, Forall (fun f => holds (LState p) f = false) fs -> fs = ab ++ g0 :: r -> ab = []) by (intros fs F X; exfalso; eauto).
  lstep_cases L; cbn [next_frames] in E.
  all: try (left; eapply Z1; [exact E|]; repeat constructor; fail).
  all: try (left; eapply Fl; [|exact E]; fl_; reflexivity).
  all: try (left; match type of E with context [match ?x with _ => _ end] => destruct x end; (eapply Z1; [exact E|]; repeat constructor; fail)).
  - left. destruct k as [| |? [?|] ?|], st; cbn [semresume] in E; first [eapply Z1; [exact E|]; repeat constructor; fail|eapply Fl; [|exact E]; constructor].
  - destruct x as [cbs|]; [|left; eapply Z1; [exact E|]; repeat constructor].
    destruct ab as [|a [|b ab]]; auto; cbn [app] in E.
    + injection E as <- <- <-. right. cbn in H. unfold holds in H. cbn in H. apply Nat.eqb_eq in H. now subst.
    + injection E as _ _ E. now destruct ab.
Qed.

(** What the thread does above the frame that holds the lock. *)
Definition zone (p : sid) (t : tid) (tr : list event) (fs : list frame) : Prop :=
  forall ab f rest, fs = ab ++ f :: rest -> holds (LState p) f = true -> Forall (zf p tr) ab \/ swept t p tr.
Lemma hold_in : forall l s t f, internal l = true -> reachable s -> In f (stk s t) -> holds l f = true -> lock_holder l (trace s) = Some t.
Proof.
  intros l s t f I R Hf H. pose proof (hold_reachable l I s R t) as Q. unfold is_holder in Q.
  assert (1 <= sumf (hw l) (stk s t))%Z.
  { apply in_split in Hf as (a & b & ->). rewrite sumf_app. cbn [sumf]. assert (hw l f = 1%Z) by (unfold hw; now rewrite H).
    assert (forall x, 0 <= hw l x)%Z as N by (intros; unfold hw; destruct (holds l x); discriminate).
    pose proof (sumf_nonneg _ (hw l) a N). pose proof (sumf_nonneg _ (hw l) b N). lia. }
  destruct (lock_holder l (trace s)) as [u|]; [|lia]. destruct (Nat.eqb_spec u t); [congruence|lia].
Qed.
Lemma holder_in : forall l s t, internal l = true -> reachable s -> lock_holder l (trace s) = Some t -> exists f, In f (stk s t) /\ holds l f = true.
Proof.
  intros l s t I R H. pose proof (hold_reachable l I s R t) as Q. unfold is_holder in Q. rewrite H, Nat.eqb_refl in Q.
  induction (stk s t) as [|f fs IH]; [discriminate Q|]. cbn [sumf] in Q. destruct (holds l f) eqn:E; [exists f; split; [now left|auto]|].
  assert (hw l f = 0%Z) by (unfold hw; now rewrite E).
  destruct IH as (g & A & B); [lia|]. exists g. split; auto. now right.
Qed.
Lemma app_split : forall A (x y ab : list A) f r, x ++ y = ab ++ f :: r ->
  (exists r1, x = ab ++ f :: r1 /\ r = r1 ++ y) \/ (exists a2, y = a2 ++ f :: r /\ ab = x ++ a2).
Proof.
  induction x as [|a x IH]; intros y ab f r E; cbn in E; [right; eauto|]. destruct ab as [|b ab]; injection E as -> E.
  - left. exists x. auto.
  - apply IH in E as [(r1 & -> & ->)|(a2 & -> & ->)]; [left; exists r1|right; exists a2]; auto.
Qed.
Theorem zone_reachable : forall p s, reachable s -> forall t, zone p t (trace s) (stk s t).
Proof.
  intros p. apply (reachable_ind'' (fun s => forall t, zone p t (trace s) (stk s t))).
  - intros t ab f rest E H. exfalso. assert (If : In f (stk st0 t)) by (rewrite E; apply in_or_app; right; now left).
    destruct t; cbn in If; [|contradiction]. destruct If as [<-|[<-|[]]]; discriminate H.
  - intros s s' R R' IH U Tr.
    assert (S : exists l, trace s' = trace s ++ l /\ forall t e, In e l -> (exists f, In f (stk s t) /\ holds (LState p) f = true) -> relock (LState p) e = false).
    { destruct Tr as [d|t pre rest u E L|t pre rest h n E L].
      - exists [EvTick (Zpos d)]. split; [reflexivity|]. intros t e [<-|[]] _. reflexivity.
      - exists []. split; [now rewrite app_nil_r|]. intros t0 e [].
      - destruct (lstep_tr _ _ _ _ _ L) as [X|[e X]].
        + exists []. split; [unfold trace, tr_of; cbn [hp]; now rewrite X, app_nil_r|]. intros t' e [].
        + exists [e]. assert (Y : trace (mkSt h (set_next (stk s) t n rest) None) = trace s ++ [e]) by (unfold trace, tr_of; cbn [hp]; rewrite X; reflexivity).
          split; [exact Y|]. intros t' e' [<-|[]] (f & If & Hf). pose proof (hold_in (LState p) s t' f eq_refl R If Hf) as Hl.
          pose proof (lock_events _ R' (trace s) e [] Y) as LE. destruct e; auto. cbn. destruct (lock_eqb l (LState p)) eqn:EQ; auto. apply lock_eq in EQ. subst. congruence. }
    destruct S as (l & Et & Nl).
    assert (Keep : forall t, zone p t (trace s') (stk s t)).
    { intros t ab f rest E H. assert (N : forall e, In e l -> relock (LState p) e = false).
      { intros e Ie. eapply (Nl t); eauto. exists f. split; auto. rewrite E. apply in_or_app. right. now left. }
      rewrite Et. destruct (IH t ab f rest E H) as [Z|Z]; [left|right; now apply swept_app].
      eapply Forall_impl; [|exact Z]. intros. now apply zf_app. }
    destruct Tr as [d|t pre rest u E L|t pre rest h n E L]; [exact Keep|exact Keep|].
    change (trace (mkSt h _ _)) with (tr_of h) in Keep, Et. assert (Mv : zone p t (tr_of h) (next_frames n ++ rest)).
    { intros ab f r Ef Hf.
      destruct (app_split _ (next_frames n) rest ab f r Ef) as [(r1 & E1 & E2)|(a2 & E1 & E2)].
      - left. eapply hnew; eauto.
      - assert (Eo : stk s t = (pre ++ a2) ++ f :: r) by (rewrite E, E1; now rewrite <- app_assoc). subst ab.
        assert (N : forall e, In e l -> relock (LState p) e = false).
        { intros e Ie. eapply (Nl t); eauto. exists f. split; auto. rewrite Eo. apply in_or_app. right. now left. }
        destruct (IH t _ f r Eo Hf) as [Z|Z]; [|right; rewrite Et; now apply swept_app].
        apply Forall_app in Z as [Z1 Z2]. destruct (zstep p _ _ _ _ _ L Z1) as [Z|Z]; [|now right].
        left. apply Forall_app. split; auto. rewrite Et. eapply Forall_impl; [|exact Z2]. intros. now apply zf_app. }
    intros u. cbn [stk]. change (trace (mkSt h _ _)) with (tr_of h). unfold set_next. destruct n as [fs|c cfs fs]; cbn [next_frames] in Mv; rewrite !upd_eq.
    + destruct (Nat.eqb_spec u t) as [->|]; auto.
    + destruct (Nat.eqb_spec u t) as [->|]; auto. destruct (Nat.eqb_spec u c) as [->|]; [|apply Keep].
      destruct (InvRefs.lstep_spawned _ _ _ _ _ c cfs L eq_refl) as (_ & _ & b & ->).
      intros ab f r Ef Hf. exfalso. assert (If : In f (tframes b)) by (rewrite Ef; apply in_or_app; right; now left).
      destruct b; cbn in If; repeat (destruct If as [<-|If]; [discriminate Hf|]); destruct If.
Qed.

Theorem guard_quiet : forall s, reachable s -> at_each (fun tr e => forall t p, actor e = Some t -> lock_holder (LState p) tr = Some t ->
  guard_event p e \/ swept t p (tr ++ [e])) (trace s).
Proof.
  apply (reachable_ind'' (fun s => at_each _ (trace s))).
  - intros a e b E. destruct a; discriminate E.
  - intros s s' R R' IH U Tr. destruct Tr as [d|t pre rest u E L|t pre rest h n E L]; [|exact IH|].
    + change (trace _) with (trace s ++ [EvTick (Zpos d)]). apply at_each_snoc; auto. intros t p A. discriminate A.
    + destruct (lstep_tr _ _ _ _ _ L) as [X|[e X]]; [unfold trace, tr_of; cbn [hp]; rewrite X; exact IH|].
      assert (Y : trace (mkSt h (set_next (stk s) t n rest) None) = trace s ++ [e]) by (unfold trace, tr_of; cbn [hp]; rewrite X; reflexivity).
      rewrite Y. apply at_each_snoc; auto. intros u p A H. destruct (lstep_actor _ _ _ _ _ _ L X) as [B|B]; [|congruence].
      assert (u = t) as -> by congruence. destruct (holder_in (LState p) s t eq_refl R H) as (f & If & Hf). apply in_split in If as (ab & r & Ef).
      pose proof (zone_reachable p s R t ab f r Ef Hf) as Z. rewrite E in Ef.
      assert (Y' : tr_of h = trace s ++ [e]) by exact Y.
      assert (NL : relock (LState p) e = false).
      { pose proof (lock_events _ R' (trace s) e [] Y) as LE. destruct e; auto. cbn. destruct (lock_eqb l (LState p)) eqn:EQ; auto. apply lock_eq in EQ. subst. congruence. }
      destruct (app_split _ pre rest ab f r Ef) as [(r1 & E1 & E2)|(a2 & E1 & E2)].
      * subst. destruct ab as [|a ab].
        -- left. assert (r1 = []) as -> by (cbn in L; inversion L; subst; auto; discriminate Hf).
           cbn in L. eapply hevent; eauto. pose proof (lkf_reachable s R t) as F. rewrite E in F. now inversion F.
        -- right. destruct Z as [Z|Z]; [|apply swept_app; auto; intros e' [<-|[]]; exact NL].
           exfalso. inversion Z as [|? ? Z1 Z2]; subst. cbn in L. inversion L; subst; try (now destruct ab); now cbn in Z1.
      * subst ab. destruct Z as [Z|Z]; [|right; apply swept_app; auto; intros e' [<-|[]]; exact NL].
        apply Forall_app in Z as [Z1 Z2]. destruct (zevent p _ _ _ _ _ _ L Z1 X) as [Q|[Q|Q]]; [now left|right; now rewrite <- Y'|congruence].
Qed.

(** The thread is never blocked. *)
Theorem guard_moves : forall s t p, reachable s -> ubs s = None -> lock_holder (LState p) (trace s) = Some t ->
  swept t p (trace s) \/ exists s', step s (LStep t 0) = Some s'.
Proof.
  intros s t p R U H. destruct (holder_in (LState p) s t eq_refl R H) as (f & If & Hf). apply in_split in If as (ab & r & Ef).
  destruct (zone_reachable p s R t ab f r Ef Hf) as [Z|Z]; [right|now left]. unfold step. rewrite U, Ef.
  assert (HL : h_locks (hp s) (LState p) = Some t) by (rewrite replay_locks by auto; exact H).
  assert (NB : forall T (o : op T) k fs, atom (hp s) t o 0 <> ABlock -> exists s', exec s t (Do o k) fs 0 = Some s').
  { intros T o k fs N. unfold exec. destruct (atom (hp s) t o 0); [congruence| |]; eauto. }
  destruct ab as [|a ab].
  - cbn [app]. pose proof (lkf_reachable s R t) as F. rewrite Ef in F. inversion F as [|? ? K _]; subst. clear F.
    assert (UN : forall q, lock_eqb q (LState p) = true -> atom (hp s) t (OUnlock q) 0 <> ABlock) by (intros q Q; apply lock_eq in Q; subst; cbn [atom]; rewrite HL, Nat.eqb_refl; discriminate).
    destruct f; try discriminate Hf; cbn [focus code]; unfold holds in Hf; cbn [hold] in Hf.
    all: try (match goal with d : option _ |- context [match ?d with Some _ => Do _ _ | None => _ end] => destruct d end).
    all: apply NB; try (now apply UN); cbn [atom]; unfold with_local.
    all: repeat match goal with |- (match ?x with _ => _ end) <> _ => destruct x end; try discriminate.
  - inversion Z as [|? ? Z1 Z2]; subst. cbn [app]. destruct a; try contradiction; cbn [focus code].
    all: repeat match goal with |- context [exec _ _ (match ?x with _ => _ end)] => destruct x; try contradiction end.
    all: apply NB; cbn [atom]; unfold do_release.
    all: repeat match goal with |- (match ?x with _ => _ end) <> _ => destruct x end; try discriminate.
(*END*)
Qed.
