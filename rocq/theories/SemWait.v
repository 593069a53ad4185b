(** * SemWait: one round of semaphore::wait or wait_for inside an API call.
    The caller fixes what it knows at the start of the round ([R]); this file
    follows the round to its end. *)
From Verif Require Import Types Core State Ops Code Machine Base Spec SpecApi SpecWait SpecSync Rules Events InvCtx InvQueue InvStack InvAff InvTop InvSleep
  Calls Contract ContractLib Replay ReplayObj ThmObj Calm ApiWait.

(** ** Locks stay with their holder *)
Lemma latest_app : forall A (f : event -> option A) d a b, latest f d (a ++ b) = latest f (latest f d a) b.
Proof. intros. unfold latest. now rewrite fold_left_app. Qed.
Lemma lock_eqb_eq : forall a b, lock_eqb a b = true -> a = b.
Proof. intros [] [] H; cbn in H; try discriminate H; apply Nat.eqb_eq in H; now subst. Qed.
Lemma lock_eqb_refl : forall a, lock_eqb a a = true.
Proof. intros []; cbn; apply Nat.eqb_refl. Qed.
Lemma holder_snoc : forall l tr e, lock_holder l (tr ++ [e]) =
  match e with
  | EvLock t k => if lock_eqb k l then Some t else lock_holder l tr
  | EvUnlock _ k => if lock_eqb k l then None else lock_holder l tr
  | _ => lock_holder l tr
  end.
Proof. intros. unfold lock_holder. rewrite latest_snoc. destruct e; auto; destruct (lock_eqb _ _); auto. Qed.
Lemma at_each_app : forall P a b, at_each P (a ++ b) -> at_each P a.
Proof. intros P a b H x e y ->. apply (H x e (y ++ b)). now rewrite <- app_assoc. Qed.
Lemma at_each_end : forall P a e b, at_each P (a ++ e :: b) -> P a e.
Proof. intros P a e b H. now apply (H a e b). Qed.
Lemma holder_quiet : forall l t tr tr', quiet t tr tr' -> lock_holder l tr = Some t -> lock_holder l tr' = Some t.
Proof.
  intros l t tr tr' (s & x & R & E & -> & N) H. pose proof (lock_events s R) as LE. rewrite E in LE. clear E R s.
  induction x as [|e x IH] using rev_ind; [now rewrite app_nil_r|].
  rewrite app_assoc in *. pose proof (at_each_end _ _ _ _ LE) as Le.
  assert (H' : lock_holder l (tr ++ x) = Some t) by (apply IH; [intros e' I; apply N, in_or_app; now left|now apply at_each_app in LE]).
  rewrite holder_snoc. assert (Ne : by_thread t e = false) by (apply N, in_or_app; right; now left).
  destruct e; auto; (destruct (lock_eqb l0 l) eqn:El; [apply lock_eqb_eq in El; subst l0|auto]).
  - congruence.
  - rewrite Le in H'. injection H' as ->. unfold by_thread in Ne. cbn in Ne. rewrite Nat.eqb_refl in Ne. discriminate.
Qed.

(** ** Actions of closures *)
Definition tame (e : event) : bool :=
  match e with
  | EvStart _ _ _ | EvSleep _ _ | EvDone _ _ | EvAbort _ _ | EvWaiter _ _ _ _ _ | EvUnwaiter _ _ _
  | EvLock _ (LUser _) | EvUnlock _ (LUser _) | EvMxAcq _ _ | EvMxRel _ _ | EvCall _ _ | EvRet _ _ _
  | EvReg _ _ _ _ | EvUnreg _ _ | EvLoc _ _ | EvGot _ _ _ | EvRetr _ _ _ | EvAttach _ _ _ => false
  | _ => true
  end.
Definition tames (l : list event) : Prop := forall e, In e l -> tame e = true.
Lemma tames_nil : tames [].
Proof. intros e []. Qed.
Lemma tames_one : forall (b : bool) e, tame e = true -> tames (if b then [e] else []).
Proof. intros [] e H e' I; [|contradiction]. destruct I as [<-|[]]. exact H. Qed.
Lemma tame_code : forall f h t inp h' n, calm f = true -> runs (code f) h t inp h' n -> tames (new_acts t h h').
Proof.
  intros f h t inp h' n C R.
  destruct f; try discriminate C; code_cases R; rewrite (new_acts_op _ _ _ _ _ _ _ A); cbn [op_event]; try apply tames_nil; try (apply tames_one; reflexivity);
    repeat match goal with |- context [match ?x with _ => _ end] =>
      lazymatch x with context [match _ with _ => _ end] => fail | by_thread _ _ => fail | _ => destruct x end end; try apply tames_nil; try (apply tames_one; reflexivity).
Qed.
Lemma tame_catch : forall f e h t inp h' n, calm f = true -> runs (catch f e) h t inp h' n -> tames (new_acts t h h').
Proof.
  intros f e h t inp h' n C R.
  destruct f; try discriminate C; code_cases R; rewrite (new_acts_op _ _ _ _ _ _ _ A); cbn [op_event]; try apply tames_nil; apply tames_one; reflexivity.
Qed.
Lemma tame_top : forall h t h' n above r, top_step h t h' n above r -> calms above = true -> tames (new_acts t h h').
Proof.
  intros h t h' n above r T C. inversion T; subst; cbn [calms forallb] in C.
  - erewrite (new_acts_one t h) by reflexivity. now apply tames_one.
  - erewrite (new_acts_one t h) by reflexivity. now apply tames_one.
  - apply andb_true_iff in C as [C1 C2]. eapply tame_code; eauto.
  - apply andb_true_iff in C as [_ C]. apply andb_true_iff in C as [C1 C2]. eapply tame_catch; eauto.
Qed.
Lemma tame_sched : forall l, tames l -> filter sched l = [].
Proof.
  induction l as [|e l IH]; intros H; [reflexivity|]. cbn. pose proof (H e (or_introl eq_refl)) as X.
  rewrite IH by (intros e' I; apply H; now right). destruct e; try reflexivity; discriminate X.
Qed.
Lemma tame_lock : forall t m l held, tames l -> fold_left (lock_step t m) l (Some held) = Some held.
Proof.
  induction l as [|e l IH]; intros held H; [reflexivity|]. cbn [fold_left]. pose proof (H e (or_introl eq_refl)) as X.
  replace (lock_step t m (Some held) e) with (Some held); [apply IH; intros e' I; apply H; now right|].
  destruct e; try discriminate X; try reflexivity; destruct l0; try reflexivity; discriminate X.
Qed.
(** Actions that do not occur while waiting. *)
Definition busy (e : event) : bool :=
  match e with
  | EvWaiter _ _ _ _ _ | EvUnwaiter _ _ _ | EvMxAcq _ _ | EvMxRel _ _ | EvCall _ _ | EvRet _ _ _
  | EvReg _ _ _ _ | EvUnreg _ _ | EvLoc _ _ | EvGot _ _ _ | EvRetr _ _ _ | EvAttach _ _ _ => true
  | _ => false
  end.
Lemma busy_waiting : forall e, busy e = false -> waiting e = false.
Proof. intros [] H; try reflexivity; discriminate H. Qed.
Lemma tame_busy : forall l, tames l -> forall e, In e l -> busy e = false.
Proof. intros l H e I. specialize (H e I). destruct e; try reflexivity; discriminate H. Qed.

(** ** Program points of a round *)
(** The waiting thread holds its lock if it did when the round started, at [m0]. *)
Definition hold (t : tid) (l : option lockid) (m0 tr : list event) : Prop :=
  forall x, l = Some x -> lock_holder x m0 = Some t -> lock_holder x tr = Some t.
Definition path_ok (t : tid) (l : option lockid) (b : list event) (held : bool) : Prop :=
  match l with Some (LUser m) => lock_path t m b = Some held | _ => True end.
(** It has registered after the actions [a0] and done [b] since. *)
Definition regd (t : tid) (cl : call) (tr : list event) (s : semid) (i : id) (tk : nat) (a0 b : list event) : Prop :=
  (exists f, cl_acts cl = a0 ++ EvWaiter t s i tk f :: b) /\ (forall e, In e b -> busy e = false) /\
  sometime cl tr (fun x => my_id t x = i).
Definition late (cl : call) (tr : list event) (dur : option Z) (m0 : list event) : Prop :=
  exists d, dur = Some d /\ sometime cl tr (fun x => clock m0 + d < clock x + 1000)%Z.
Definition reason (t : tid) (cl : call) (tr : list event) (dur : option Z) (m0 : list event) (tk : nat) (st : bool) : Prop :=
  if st then late cl tr dur m0 else sometime cl tr (interrupted tk) \/ sometime cl tr (exit_seen t).
Definition tmok (cl : call) (tr : list event) (dur : option Z) (m0 : list event) (tm : option (Z * Z)) : Prop :=
  match dur, tm with
  | None, None => True
  | Some d, Some (n, e) => (clock m0 + d <= e)%Z /\ sometime cl tr (fun x => n <= clock x)%Z
  | _, _ => False
  end.
Definition eok (dur : option Z) (m0 : list event) (e : option Z) : Prop :=
  match dur, e with None, None => True | Some d, Some e => (clock m0 + d <= e)%Z | _, _ => False end.
Definition usok (cl : call) (tr : list event) (us e : option Z) : Prop :=
  match us, e with None, None => True | Some u, Some e => sometime cl tr (fun x => e - 999 <= clock x + u)%Z | _, _ => False end.
Definition dlok (dl e : option Z) : Prop :=
  match dl, e with None, None => True | Some z, Some e => (e - 999 <= z)%Z | _, _ => False end.

Section Round.
Variable sel : api -> bool.
Variable Post : tid -> call -> list event -> res -> Prop.
Variable mid : tid -> call -> list event -> frame -> list frame -> Prop.
(** What the caller knows: semaphore, lock, duration and continuation of the round,
    the actions [a0] before it and the history [m0] at its start. *)
Variable R : tid -> call -> list event -> semid -> option lockid -> option Z -> semk -> list event -> list event -> Prop.

Inductive pt (t : tid) (cl : call) (tr : list event) (s : semid) (l : option lockid) (dur : option Z) (k : semk) (a0 m0 : list event) : frame -> Prop :=
| p_sem : cl_acts cl = a0 -> hold t l m0 tr -> pt t cl tr s l dur k a0 m0 (FSem s l dur k)
| p_id : forall tm, cl_acts cl = a0 -> hold t l m0 tr -> tmok cl tr dur m0 tm -> pt t cl tr s l dur k a0 m0 (FSemId s l tm k)
| p_add : forall i tm, cl_acts cl = a0 -> hold t l m0 tr -> tmok cl tr dur m0 tm -> sometime cl tr (fun x => my_id t x = i) ->
    pt t cl tr s l dur k a0 m0 (FSemAdd s l i tm k)
| p_tok : forall i tk tm st b, regd t cl tr s i tk a0 b -> path_ok t l b true -> hold t l m0 tr -> tmok cl tr dur m0 tm ->
    (st = true -> late cl tr dur m0) -> pt t cl tr s l dur k a0 m0 (FSemTok s l i tk tm st k)
| p_exit : forall i tk tm st b, regd t cl tr s i tk a0 b -> path_ok t l b true -> hold t l m0 tr -> tmok cl tr dur m0 tm ->
    (st = true -> late cl tr dur m0) -> pt t cl tr s l dur k a0 m0 (FSemExit s l i tk tm st k)
| p_go : forall i tk tm b, regd t cl tr s i tk a0 b -> path_ok t l b true -> tmok cl tr dur m0 tm ->
    pt t cl tr s l dur k a0 m0 (FSemGo s l i tk tm k)
| p_waitfor : forall i tk n e b, regd t cl tr s i tk a0 b -> path_ok t l b false -> tmok cl tr dur m0 (Some (n, e)) ->
    pt t cl tr s l dur k a0 m0 (FWaitFor (e - n) (WSem s l i tk (Some e) k))
| p_wait : forall i tk us e b, regd t cl tr s i tk a0 b -> path_ok t l b false -> eok dur m0 e -> usok cl tr us e ->
    pt t cl tr s l dur k a0 m0 (FWait us (WSem s l i tk e k))
| p_wait1 : forall c i tk us e b, regd t cl tr s i tk a0 b -> path_ok t l b false -> eok dur m0 e -> usok cl tr us e ->
    pt t cl tr s l dur k a0 m0 (FWait1 c us (WSem s l i tk e k))
| p_sleep : forall c i tk dl e b, regd t cl tr s i tk a0 b -> path_ok t l b false -> eok dur m0 e -> dlok dl e ->
    pt t cl tr s l dur k a0 m0 (FSleep c dl (WSem s l i tk e k))
| p_re : forall i tk e st b, regd t cl tr s i tk a0 b -> path_ok t l b false -> eok dur m0 e ->
    (st = true -> late cl tr dur m0) -> pt t cl tr s l dur k a0 m0 (FSemRe s l i tk e st k)
| p_now : forall i tk e st b, regd t cl tr s i tk a0 b -> path_ok t l b true -> hold t l m0 tr -> eok dur m0 (Some e) ->
    (st = true -> late cl tr dur m0) -> pt t cl tr s l dur k a0 m0 (FSemNow s l i tk e st k)
| p_rem : forall i tk st b, regd t cl tr s i tk a0 b -> path_ok t l b true -> hold t l m0 tr -> reason t cl tr dur m0 tk st ->
    pt t cl tr s l dur k a0 m0 (FSemRem s l i st k).

Definition ext (m0 tr : list event) : Prop := exists b, tr = m0 ++ b.
Inductive smid (t : tid) (cl : call) (tr : list event) : frame -> list frame -> Prop :=
| sm_alone : forall s l dur k a0 m0 f, R t cl tr s l dur k a0 m0 -> ext m0 tr -> pt t cl tr s l dur k a0 m0 f -> smid t cl tr f []
| sm_run : forall s l dur k a0 m0 i tk e b c kt x l', R t cl tr s l dur k a0 m0 -> ext m0 tr ->
    regd t cl tr s i tk a0 b -> path_ok t l b false -> eok dur m0 e -> scheds cl = l' ++ [EvStart t c kt] -> calms x = true ->
    smid t cl tr (FSemRe s l i tk e false k) (x ++ [FPoEnd c])
| sm_thrown : forall s l dur k a0 m0 i tk e b c kt l' ex, R t cl tr s l dur k a0 m0 -> ext m0 tr ->
    regd t cl tr s i tk a0 b -> path_ok t l b false -> scheds cl = l' ++ [EvStart t c kt; EvAbort t c] ->
    smid t cl tr (FSemRe s l i tk e false k) [FThrow ex].

Hypothesis HR : forall t cl tr a x s l dur k a0 m0, R t cl tr s l dur k a0 m0 -> R t (add_acts a cl) (tr ++ x) s l dur k a0 m0.
Hypothesis Hmid : forall t cl tr f g, smid t cl tr f g -> mid t cl tr f g.
(** The round is over. *)
Hypothesis Hdone : forall s t cl sm l dur k a0 m0 i tk f b st, reachable s -> sel (cl_api cl) = true -> incall t cl (trace s) ->
  R t cl (trace s) sm l dur k a0 m0 -> ext m0 (trace s) ->
  cl_acts cl = a0 ++ EvWaiter t sm i tk f :: b ++ [EvUnwaiter t sm i] -> (forall e, In e b -> busy e = false) ->
  sometime cl (trace s) (fun x => my_id t x = i) -> path_ok t l b true -> hold t l m0 (trace s) ->
  reason t cl (trace s) dur m0 tk st -> newbot Post mid t cl (trace s) (semresume k st).
(** A task processed while waiting has thrown. *)
Hypothesis Hexn : forall t cl tr sm l dur k a0 m0 i tk f b c kt l' e, sel (cl_api cl) = true ->
  R t cl tr sm l dur k a0 m0 -> cl_acts cl = a0 ++ EvWaiter t sm i tk f :: b -> (forall e, In e b -> busy e = false) ->
  sometime cl tr (fun x => my_id t x = i) -> path_ok t l b false -> scheds cl = l' ++ [EvStart t c kt; EvAbort t c] -> Post t cl tr (RExn e).

Lemma HR_tr : forall t cl tr x s l dur k a0 m0, R t cl tr s l dur k a0 m0 -> R t cl (tr ++ x) s l dur k a0 m0.
Proof. intros. rewrite <- (add_acts_nil cl). now apply HR. Qed.
Lemma HR_acts : forall t cl tr a s l dur k a0 m0, R t cl tr s l dur k a0 m0 -> R t (add_acts a cl) tr s l dur k a0 m0.
Proof. intros. rewrite <- (app_nil_r tr). now apply HR. Qed.
Lemma ext_app : forall m0 tr x, ext m0 tr -> ext m0 (tr ++ x).
Proof. intros m0 tr x [b ->]. exists (b ++ x). now rewrite app_assoc. Qed.
Lemma regd_tr : forall t cl tr x s i tk a0 b, regd t cl tr s i tk a0 b -> regd t cl (tr ++ x) s i tk a0 b.
Proof. intros t cl tr x s i tk a0 b (A & B & C). split; auto. split; auto with mono. Qed.
Lemma regd_acts : forall t cl tr x a s i tk a0 b, regd t cl tr s i tk a0 b -> (forall e, In e a -> busy e = false) ->
  regd t (add_acts a cl) (tr ++ x) s i tk a0 (b ++ a).
Proof.
  intros t cl tr x a s i tk a0 b ((f & A) & B & C) N. split; [|split; auto with mono].
  - exists f. cbn. rewrite A, <- app_assoc. reflexivity.
  - intros e I. apply in_app_iff in I as [I|I]; auto.
Qed.
Lemma late_tr : forall cl tr x dur m0, late cl tr dur m0 -> late cl (tr ++ x) dur m0.
Proof. intros cl tr x dur m0 (d & E & H). exists d. split; auto with mono. Qed.
Lemma late_mono : forall cl tr a x dur m0, late cl tr dur m0 -> late (add_acts a cl) (tr ++ x) dur m0.
Proof. intros cl tr a x dur m0 (d & E & H). exists d. split; auto with mono. Qed.
Lemma tmok_tr : forall cl tr x dur m0 tm, tmok cl tr dur m0 tm -> tmok cl (tr ++ x) dur m0 tm.
Proof. intros cl tr x [d|] m0 [[n e]|]; cbn; auto. intros [A B]. auto with mono. Qed.
Lemma tmok_mono : forall cl tr a x dur m0 tm, tmok cl tr dur m0 tm -> tmok (add_acts a cl) (tr ++ x) dur m0 tm.
Proof. intros cl tr a x [d|] m0 [[n e]|]; cbn [tmok]; auto. intros [A B]. auto with mono. Qed.
Lemma usok_tr : forall cl tr x us e, usok cl tr us e -> usok cl (tr ++ x) us e.
Proof. intros cl tr x [d|] [e|]; cbn; auto with mono. Qed.
Lemma usok_mono : forall cl tr a x us e, usok cl tr us e -> usok (add_acts a cl) (tr ++ x) us e.
Proof. intros cl tr a x [d|] [e|]; cbn [usok]; auto with mono. Qed.
Lemma reason_tr : forall t cl tr x dur m0 tk st, reason t cl tr dur m0 tk st -> reason t cl (tr ++ x) dur m0 tk st.
Proof. intros t cl tr x dur m0 tk []; cbn; auto using late_tr. intros [H|H]; auto with mono. Qed.
Lemma reason_mono : forall t cl tr a x dur m0 tk st, reason t cl tr dur m0 tk st -> reason t (add_acts a cl) (tr ++ x) dur m0 tk st.
Proof. intros t cl tr a x dur m0 tk []; cbn [reason]; auto using late_mono. intros [H|H]; auto with mono. Qed.
Lemma hold_quiet : forall t l m0 tr tr', hold t l m0 tr -> quiet t tr tr' -> hold t l m0 tr'.
Proof. intros t l m0 tr tr' H Q x E X. eapply holder_quiet; eauto. Qed.
#[local] Hint Resolve HR HR_tr HR_acts ext_app regd_tr late_tr late_mono tmok_tr tmok_mono usok_tr usok_mono reason_tr reason_mono hold_quiet : mono.

Lemma smid_quiet : forall t cl tr tr' f g, smid t cl tr f g -> quiet t tr tr' -> smid t cl tr' f g.
Proof.
  intros t cl tr tr' f g H Q. assert (E : exists x, tr' = tr ++ x) by (destruct Q as (s & x & _ & _ & -> & _); eauto).
  destruct H as [s l dur k a0 m0 f HRr X P| |].
  - assert (P' : pt t cl tr' s l dur k a0 m0 f).
    { assert (HQ : hold t l m0 tr -> hold t l m0 tr') by (intros; eapply hold_quiet; eauto). clear Q.
      destruct E as [x ->]. destruct P; econstructor; eauto with mono. }
    destruct E as [x ->]. eapply sm_alone; eauto with mono.
  - destruct E as [y ->]. eapply sm_run; eauto with mono.
  - destruct E as [y ->]. eapply sm_thrown; eauto with mono.
Qed.
Lemma smid_inner : forall t cl tr x f g, smid t cl tr f g -> inner (g ++ [f]) -> smid t cl (tr ++ x) f g.
Proof.
  intros t cl tr x f g H In. destruct H as [s l dur k a0 m0 f HRr X P| |].
  - exfalso. destruct In as (u & fin & r & E). destruct P; discriminate E.
  - eapply sm_run; eauto with mono.
  - eapply sm_thrown; eauto with mono.
Qed.
Lemma smid_user : forall t cl tr f above, smid t cl tr f above -> match f with FUser _ _ | FThrow _ => False | _ => True end.
Proof. intros t cl tr f above [s l dur k a0 m0 f' _ _ P| |]; try exact I. destruct P; exact I. Qed.
Lemma smid_res : forall t cl tr r above, smid t cl tr (FRes r) above -> False.
Proof.
  intros t cl tr r above H. remember (FRes r) as f eqn:E. destruct H as [s l dur k a0 m0 f' _ _ P| |]; try discriminate E.
  destruct P; discriminate E.
Qed.

Lemma smid_catch : forall s t cl f e inp h n, reachable s -> sel (cl_api cl) = true -> 
  runs (catch f e) (hp s) t inp h n -> smid t cl (trace s) f [FThrow e] ->
  newbot Post mid t (add_acts (new_acts t (hp s) h) cl) (tr_of h) (next_frames n).
Proof.
  intros s t cl f e inp h n Rs S Ru M. remember [FThrow e] as ab eqn:Eab. destruct M as [| |]; try discriminate Eab.
  - destruct x as [|g [|g' x]]; discriminate Eab.
  - code_cases Ru. stepinfo A. unfold newbot. cbn [next_frames rev app]. right. left. split; [reflexivity|].
    rewrite add_acts_nil. destruct H1 as ((f & Ea1) & N & I). eapply Hexn; eauto with mono.
Qed.

Lemma smid_above : forall s t cl f above r h n, reachable s ->
  (exists es, tr_of h = trace s ++ es) ->
  top_step (hp s) t h n above r -> smid t cl (trace s) f above ->
  smid t (add_acts (new_acts t (hp s) h) cl) (tr_of h) f (next_frames n ++ r).
Proof.
  intros s t cl f above r h n Rs (es & Et) T M.
  destruct M as [s0 l dur k a0 m0 f HRr X P|s0 l dur k a0 m0 i tk e b c kt x l' HRr X Rg Pa Eo Sc Cx|s0 l dur k a0 m0 i tk e b c kt l' ex HRr X Rg Pa Sc].
  - inversion T.
  - destruct x as [|g x].
    + cbn [app] in T. inversion T as [v u fin r1 Eh En Y|ex u fin r1 Eh En Y|inp f1 r1 Ru Y|inp ex g r1 Ru Y]; subst.
      code_cases Ru. stepinfo A. cbn [next_frames app]. eapply sm_alone; eauto with mono.
      eapply p_re with (b := b ++ [EvDone t c]); eauto with mono.
      * eapply regd_acts; eauto. intros e0 [<-|[]]. reflexivity.
      * destruct l as [[]|]; cbn [path_ok] in *; auto. unfold lock_path in *. rewrite fold_left_app, Pa. reflexivity.
      * discriminate.
    + destruct (top_calm _ _ _ _ (g :: x) [FPoEnd c] r T Cx) as [(x' & -> & T')|(ex & g' & bot & inp & Ex & Eb & -> & Ru)]; [discriminate|..].
      * destruct (calm_top _ _ _ _ _ _ T' Cx) as [C1 C2]. pose proof (tame_top _ _ _ _ _ _ T' Cx) as Tm. rewrite app_assoc, Et.
        eapply sm_run with (b := b ++ new_acts t (hp s) h); eauto with mono.
        -- eapply regd_acts; eauto. now apply tame_busy.
        -- destruct l as [[]|]; cbn [path_ok] in *; auto. unfold lock_path in *. rewrite fold_left_app, Pa. now apply tame_lock.
        -- rewrite scheds_add, C2, app_nil_r. eauto.
      * injection Eb as <- <-. cbn [catch] in Ru. code_cases Ru. stepinfo A. cbn [next_frames app].
        eapply sm_thrown with (b := b ++ [EvAbort t c]); eauto with mono.
        -- eapply regd_acts; eauto. intros e0 [<-|[]]. reflexivity.
        -- destruct l as [[]|]; cbn [path_ok] in *; auto. unfold lock_path in *. rewrite fold_left_app, Pa. reflexivity.
        -- rewrite scheds_add, Sc, <- app_assoc. reflexivity.
  - inversion T; subst. now match goal with H : runs (code (FThrow _)) _ _ _ _ _ |- _ => cbn in H end.
Qed.

Lemma hold_step : forall t l m0 s h T (o : op T) inp x, atom (hp s) t o inp = AOk h x ->
  match op_event (hp s) t o x with Some (EvLock _ _) | Some (EvUnlock _ _) => False | _ => True end ->
  hold t l m0 (trace s) -> hold t l m0 (tr_of h).
Proof.
  intros t l m0 s h T o inp x A N H y E X. specialize (H y E X). rewrite (step_trace _ _ _ _ _ _ _ A).
  change (tr_of (hp s)) with (trace s). destruct (op_event (hp s) t o x) as [e|]; [|now rewrite app_nil_r].
  rewrite holder_snoc. destruct e; auto; contradiction.
Qed.

Ltac alone_ := unfold newbot; cbn [rev app next_frames]; left; apply Hmid; eapply sm_alone; [try solve [eauto with mono]|try solve [eauto with mono]|].
Lemma smid_code : forall s s' t cl f inp h n, reachable s -> reachable s' -> hp s' = h -> sel (cl_api cl) = true -> incall t cl (trace s) ->
  (exists rest, stk s t = f :: FApi (cl_api cl) :: rest) ->
  runs (code f) (hp s) t inp h n -> smid t cl (trace s) f [] ->
  newbot Post mid t (add_acts (new_acts t (hp s) h) cl) (tr_of h) (next_frames n).
Proof.
  intros s s' t cl f inp h n Rs Rs' Eh Se C [rest ST] Ru M. remember (@nil frame) as ab eqn:Eab.
  destruct M as [s0 l dur k a0 m0 f HRr X P|s0 l dur k a0 m0 i tk e b c kt x l' HRr X Rg Pa Eo Sc Cx|]; try discriminate Eab; [|destruct x; discriminate Eab].
  assert (Es : tr_of h = trace s') by (unfold trace, tr_of; now rewrite Eh). clear Eab Eh.
  assert (NOW : forall P : list event -> Prop, P (trace s) -> sometime cl (trace s) P) by (intros P' HP; exists (trace s); split; auto; eapply moment_now; eauto).
  assert (CLK : forall m b, trace s = m ++ b -> (clock m <= clock (trace s))%Z) by (intros; eapply clock_mono; eauto).
  destruct P as [Ea0 Ho|tm Ea0 Ho Tm|i tm Ea0 Ho Tm Id|i tk tm st b Rg Pa Ho Tm La|i tk tm st b Rg Pa Ho Tm La|i tk tm b Rg Pa Tm
    |i tk n0 e b Rg Pa Tm|i tk us e b Rg Pa Eo Us|c i tk us e b Rg Pa Eo Us|c i tk dl e b Rg Pa Eo Dl|i tk e st b Rg Pa Eo La|i tk e st b Rg Pa Ho Eo La|i tk st b Rg Pa Ho Re].
  - (* FSem *) code_cases Ru; opinfo A; cbn [atom] in A; injection A as _ <-; quiet_.
    + alone_. apply p_id; auto. cbn [tmok]. rewrite (replay_clock s Rs). split; [|apply NOW; lia].
      destruct X as [y X]. specialize (CLK _ _ X). lia.
    + alone_. now apply p_id.
  - (* FSemId *) code_cases Ru; opinfo A. quiet_. alone_. apply p_add; auto. apply NOW. rewrite <- (rd_myid s Rs).
    cbn [atom] in A. brki A; try discriminate A; now injection A as _ <-.
  - (* FSemAdd *) code_cases Ru; opinfo A.
    assert (Ho' : hold t l m0 (tr_of h)) by (eapply hold_step; eauto; exact I).
    noisy. alone_. rewrite <- Et. eapply (p_tok _ _ _ _ _ _ _ _ _ i x tm false []); auto.
    + rewrite Et. split; [|split; [intros ? []|auto with mono]]. eexists. cbn. reflexivity.
    + destruct l as [[]|]; cbn; auto.
    + rewrite Et. auto with mono.
    + discriminate.
  - (* FSemTok *) code_cases Ru; opinfo A; cbn [atom] in A; injection A as _ <-; quiet_;
    (destruct (h_toks (hp s) tk) eqn:Tk;
     [solve [alone_; eapply p_rem; eauto; destruct st; [apply La; reflexivity|]; left; apply NOW; now apply (replay_toks tk s Rs)]|]);
     try solve [alone_; eapply p_exit; eauto].
    alone_. eapply p_rem; eauto. unfold reason, late. cbn [tmok] in Tm. destruct dur as [d|]; [|contradiction].
    destruct Tm as [Tm1 Tm2]. exists d. split; auto. eapply st_imp; [|exact Tm2]. cbv beta. intros m Hm.
    match goal with H : (_ <=? _)%Z = true |- _ => apply Z.leb_le in H end. lia.
  - (* FSemExit *) code_cases Ru; opinfo A. pose proof (rd_loc s Rs t) as Lt. cbn [atom] in A.
    assert (Xe : x = true -> exit_seen t (trace s)).
    { intros ->. unfold exit_seen. rewrite <- Lt. brki A; try discriminate A; auto. injection A as _ Y. now apply (rd_exit s Rs). }
    quiet_. destruct x.
    + alone_. eapply p_rem; eauto. destruct st; [apply La; reflexivity|]. right. now apply NOW, Xe.
    + alone_. eapply p_go; eauto.
  - (* FSemGo *)
    assert (K : forall a x, (forall e, In e a -> busy e = false) -> path_ok t l (b ++ a) false ->
      newbot Post mid t (add_acts a cl) (trace s ++ x)
       (match tm with None => [FWait None (WSem s0 l i tk None k)] | Some (n, e) => [FWaitFor (e - n) (WSem s0 l i tk (Some e) k)] end)).
    { intros a y Na Pb. destruct tm as [[n' e']|].
      - alone_. eapply (p_waitfor _ _ _ _ _ _ _ _ _ i tk n' e' (b ++ a)); [now apply regd_acts|auto|]. eapply tmok_mono; eauto.
      - alone_. eapply (p_wait _ _ _ _ _ _ _ _ _ i tk None None (b ++ a)); [now apply regd_acts|auto| |exact I].
        cbn [tmok] in Tm. destruct dur; [contradiction|exact I]. }
    clear Tm. code_cases Ru; opinfo A; cbn [next_frames];
      match type of Et with
      | _ = _ ++ [] => quiet_; specialize (K [] []); rewrite add_acts_nil, !app_nil_r in K; apply K; [intros ? []|exact I]
      | _ => noisy; apply K; [intros ? [<-|[]]; reflexivity|]; destruct l0; cbn [path_ok] in *; auto;
             unfold lock_path in *; rewrite fold_left_app, Pa; cbn; now rewrite !Nat.eqb_refl
      end.
  - (* FWaitFor *) cbn [tmok] in Tm. destruct dur as [d|]; [|contradiction]. destruct Tm as [Tm1 Tm2].
    code_cases Ru; opinfo A; cbn [atom] in A; injection A as _ <-; quiet_.
    + cbn [wresume]. alone_. eapply p_re; eauto. discriminate.
    + alone_. eapply p_wait; eauto. cbn [usok]. eapply st_imp; [|exact Tm2]. cbv beta. intros m Hm.
      pose proof (Z.div_mod (e - n0) 1000 ltac:(lia)). pose proof (Z.mod_pos_bound (e - n0) 1000 ltac:(lia)). lia.
  - (* FWait *) code_cases Ru; opinfo A. cbn [atom] in A. injection A as _ <-. quiet_. destruct (h_loc (hp s) t) as [c|].
    + alone_. eapply p_wait1; eauto.
    + cbn [wresume]. alone_. eapply p_re; eauto. discriminate.
  - (* FWait1 *) code_cases Ru; opinfo A. pose proof (rd_take s Rs _ _ _ _ _ A) as Tk. destruct x as [kt| |n'].
    + noisy. cbn [run_one wresume app]. unfold newbot. cbn [rev app]. left. apply Hmid.
      eapply (sm_run _ _ _ s0 l dur k a0 m0 i tk e (b ++ [EvStart t c kt]) c kt [FRun kt; FDrop kt]); eauto with mono.
      * apply regd_acts; auto. intros ? [<-|[]]; reflexivity.
      * destruct l as [[]|]; cbn [path_ok] in *; auto. unfold lock_path in *. rewrite fold_left_app, Pa. reflexivity.
      * now rewrite scheds_add.
    + quiet_. cbn [wresume]. alone_. eapply p_re; eauto. discriminate.
    + noisy. alone_. eapply (p_sleep _ _ _ _ _ _ _ _ _ c i tk _ e (b ++ [EvSleep t c])); eauto.
      * apply regd_acts; auto. intros ? [<-|[]]; reflexivity.
      * destruct l as [[]|]; cbn [path_ok] in *; auto. unfold lock_path in *. rewrite fold_left_app, Pa. reflexivity.
      * destruct us as [u|], e as [e|]; cbn [usok dlok option_map] in *; auto.
        destruct Us as (m & (y & z & Em & Ez) & Hm). specialize (CLK _ _ Ez). lia.
  - (* FSleep *) code_cases Ru; opinfo A. destruct x as [lt x]. pose proof (rd_wake s Rs _ _ _ _ _ _ _ _ _ ST A) as Xk. cbn [fst snd] in *.
    destruct x as [kt|].
    + destruct lt; [now elim Xk|]. noisy. cbn [run_one wresume app]. unfold newbot. cbn [rev app]. left. apply Hmid.
      eapply (sm_run _ _ _ s0 l dur k a0 m0 i tk e (b ++ [EvStart t c kt]) c kt [FRun kt; FDrop kt]); eauto with mono.
      * apply regd_acts; auto. intros ? [<-|[]]; reflexivity.
      * destruct l as [[]|]; cbn [path_ok] in *; auto. unfold lock_path in *. rewrite fold_left_app, Pa. reflexivity.
      * now rewrite scheds_add.
    + quiet_. cbn [app wresume]. alone_. eapply p_re; eauto. intros ->. destruct Xk as (_ & z & -> & Lz). destruct e as [e|]; [|contradiction].
      unfold late. destruct dur as [d|]; [|contradiction]. exists d. split; auto. apply NOW. cbn [dlok eok] in *. lia.
  - (* FSemRe *)
    assert (K : forall a x, (forall e, In e a -> busy e = false) -> path_ok t l (b ++ a) true -> hold t l m0 (trace s ++ x) ->
      newbot Post mid t (add_acts a cl) (trace s ++ x)
       (match e with None => [FSemTok s0 l i tk None st k] | Some e => [FSemNow s0 l i tk e st k] end)).
    { intros a y Na Pb Hb. destruct e as [e|].
      - alone_. eapply (p_now _ _ _ _ _ _ _ _ _ i tk e st (b ++ a)); [now apply regd_acts|auto|auto|auto|]. intros Y. apply late_mono. auto.
      - alone_. eapply (p_tok _ _ _ _ _ _ _ _ _ i tk None st (b ++ a)); [now apply regd_acts|auto|auto| |intros Y; apply late_mono; auto].
        unfold eok in Eo. destruct dur; [contradiction|exact I]. }
    clear Eo. code_cases Ru; opinfo A; cbn [next_frames];
      match type of Et with
      | _ = _ ++ [] => quiet_; specialize (K [] []); rewrite add_acts_nil, !app_nil_r in K; apply K; [intros ? []|exact I|intros y Y; discriminate Y]
      | _ => noisy; apply K; [intros ? [<-|[]]; reflexivity| |intros y Y _; injection Y as <-; now rewrite holder_snoc, lock_eqb_refl];
             destruct l0; cbn [path_ok] in *; auto;
             unfold lock_path in *; rewrite fold_left_app, Pa; cbn; now rewrite !Nat.eqb_refl
      end.
  - (* FSemNow *) code_cases Ru; opinfo A. cbn [atom] in A. injection A as _ <-. quiet_. alone_. eapply p_tok; eauto.
    unfold eok in Eo. destruct dur as [d|]; [|contradiction]. cbn [tmok]. split; auto. apply NOW. rewrite (replay_clock s Rs). lia.
  - (* FSemRem *) code_cases Ru; opinfo A.
    assert (Ho' : hold t l m0 (tr_of h)) by (eapply hold_step; eauto; exact I).
    noisy. rewrite <- Et. destruct Rg as ((f & Ea1) & Nb & Id).
    rewrite Es in *.
    eapply (Hdone s' t _ s0 l dur k a0 m0 i tk f b st); auto; try rewrite Et; auto with mono.
    + apply incall_app. exact C.
    + cbn. rewrite Ea1, <- app_assoc. reflexivity.
Qed.
End Round.
