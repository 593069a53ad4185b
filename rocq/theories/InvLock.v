(** * InvLock: who holds the internal locks. *)
From Verif Require Import Types Core State Ops Code Machine Base Spec Rules Events InvStack Calls InvCv InvPack Replay ReplayObj ThmObj Count Contract.

(** ** The lock a waiting future releases is that of its state *)
Definition sem_lk (s : semid) (l : option lockid) (k : semk) : Prop :=
  match k with
  | KState p _ _ => l = Some (LState p) /\ s = SSt p
  | KMx _ _ => l = None
  | KCv | KCvFor => exists m, l = Some (LUser m)
  end.
Definition wk_lk (k : wk) : Prop := match k with WSem s l _ _ _ k => sem_lk s l k | _ => True end.
Definition lkf (f : frame) : Prop :=
  match f with
  | FSem s l _ k | FSemId s l _ k | FSemAdd s l _ _ k | FSemTok s l _ _ _ _ k | FSemExit s l _ _ _ _ k | FSemGo s l _ _ _ k
  | FSemRe s l _ _ _ _ k | FSemNow s l _ _ _ _ k | FSemRem s l _ _ k => sem_lk s l k
  | FWaitFor _ k | FWait _ k | FWait1 _ _ k | FSleep _ _ k => wk_lk k
  | _ => True
  end.
Theorem lkf_reachable : forall s, reachable s -> forall t, Forall lkf (stk s t).
Proof.
  apply (frame_rule reachable (fun _ _ => lkf)); try exact I; auto.
  intros s t pre rest h n R E L Fp _.
  lstep_cases L; (split; [|try exact I; cbn [spawned]; try (fl_; exact I)]); cbn [next_frames];
    inversion Fp as [|? ? Fp1 Fp2]; subst; fl_; try exact I; cbn [lkf wk_lk sem_lk] in *; eauto.
Qed.

(** ** The frames that hold a lock *)
Definition internal (l : lockid) : bool := match l with LUser _ => false | _ => true end.
Definition hold (f : frame) : option lockid :=
  match f with
  | FSet1 p _ | FSetFail p | FSet2 p _ | FStW1 p _ _ | FStW2 p _ _ | FStEnd p _ _ => Some (LState p)
  | FSem _ l _ _ | FSemId _ l _ _ | FSemAdd _ l _ _ _ | FSemTok _ l _ _ _ _ _ | FSemExit _ l _ _ _ _ _ | FSemGo _ l _ _ _ _
  | FSemNow _ l _ _ _ _ _ | FSemRem _ l _ _ _ => l
  | FWIn _ w _ _ _ | FWMark w _ | FWUnl w _ | FWFin1 w => Some (LWhen w)
  | FSched3 _ pl _ _ _ _ _ | FPUnl pl | FPChg1 pl _ _ | FPClr1 pl _ _ | FPClrAll pl | FCheck2 pl _ => Some (LPool pl)
  | _ => None
  end.
Definition holds (l : lockid) (f : frame) : bool := match hold f with Some x => lock_eqb x l | None => false end.
Definition hw (l : lockid) (f : frame) : Z := if holds l f then 1%Z else 0%Z.
Definition hd (l : lockid) (e : event) : Z :=
  match e with EvLock _ x => if lock_eqb x l then 1%Z else 0%Z | EvUnlock _ x => if lock_eqb x l then (-1)%Z else 0%Z | _ => 0%Z end.
Lemma hw_destroy : forall l ks, sumf (hw l) (destroy ks) = 0%Z.
Proof. destruct ks; reflexivity. Qed.
Lemma hw_lresume : forall l c ok b, sumf (hw l) (lresume c ok b) = 0%Z.
Proof. intros l [] ok []; reflexivity. Qed.
Lemma hw_wresume : forall l k b, sumf (hw l) (wresume k b) = 0%Z.
Proof. intros l [] b; reflexivity. Qed.
Lemma user_not : forall l m, internal l = true -> lock_eqb (LUser m) l = false.
Proof. intros l m H. destruct l; try discriminate H; reflexivity. Qed.
Lemma hw_semresume : forall l s lk k b, internal l = true -> sem_lk s lk k -> sumf (hw l) (semresume k b) = match lk with Some x => if lock_eqb x l then 1%Z else 0%Z | None => 0%Z end.
Proof.
  intros l s lk k b I S. destruct k as [| |p d g|m i]; cbn in S.
  - destruct S as [m ->]. now rewrite user_not.
  - destruct S as [m ->]. now rewrite user_not.
  - destruct S as [-> ->]. destruct d, b; cbn [semresume sumf]; unfold hw, holds; cbn [hold]; destruct (lock_eqb (LState p) l); reflexivity.
  - subst. reflexivity.
Qed.

Lemma lstep_hold : forall l h t pre h' n, internal l = true -> Forall lkf pre -> lstep h t pre h' n ->
  sumf (hw l) (next_frames n) = (sumf (hw l) pre + sumf (hd l) (new_acts t h h'))%Z.
Proof.
  intros l h t pre h' n I F L. lstep_cases L; cbn [next_frames];
    try (rewrite (new_acts_op _ _ _ _ _ _ _ A); cbn [op_event]);
    try (erewrite (new_acts_one t h) by reflexivity); unfold by_thread; cbn [actor]; rewrite ?Nat.eqb_refl; cbn [sumf hd app];
    try reflexivity.
  all: inversion F as [|? ? F1 F2]; subst; clear F; cbn [lkf] in F1.
  all: repeat match goal with |- context [match ?x with _ => _ end] =>
      lazymatch x with context [match _ with _ => _ end] => fail | actor _ => fail | lock_eqb _ _ => fail | _ =>
        destruct x; cbn [actor fst snd]; rewrite ?Nat.eqb_refl end end;
    unfold run_one; cbn [app]; rewrite ?sumf_app, ?hw_destroy, ?hw_lresume, ?hw_wresume; cbn [sumf hd]; rewrite ?hw_lresume, ?hw_wresume;
    try (erewrite hw_semresume by eassumption); unfold hw, holds; cbn [hold]; rewrite ?user_not by auto.
  all: repeat match goal with |- context [lock_eqb ?a ?b] => destruct (lock_eqb a b) end; try reflexivity.
  all: try match goal with |- context [api_frames ?c] => destruct c; cbn [api_frames sumf hold]; rewrite ?user_not by auto; reflexivity end.
  all: try match goal with |- context [ufin_ret ?c _] => destruct c; reflexivity end.
  all: try match goal with |- context [spresume _ _ ?c] => destruct c; reflexivity end.
  all: try match goal with |- context [gresume ?c _] => destruct c; reflexivity end.
  all: try match goal with |- context [wresume_after _ ?c] => destruct c; reflexivity end.
  all: try match goal with |- context [pact_frames _ _ ?c] => destruct c; reflexivity end.
  all: try (match goal with l0 : option lockid |- _ => destruct l0 as [x0|]; try destruct (lock_eqb x0 l); reflexivity end).
Qed.
Lemma holder_snoc : forall l tr e, lock_holder l (tr ++ [e]) =
  match e with
  | EvLock t k => if lock_eqb k l then Some t else lock_holder l tr
  | EvUnlock _ k => if lock_eqb k l then None else lock_holder l tr
  | _ => lock_holder l tr
  end.
Proof. intros. unfold lock_holder. rewrite latest_snoc. destruct e; auto; destruct (lock_eqb _ _); auto. Qed.
Definition is_holder (l : lockid) (t : tid) (tr : list event) : Z :=
  match lock_holder l tr with Some u => if u =? t then 1%Z else 0%Z | None => 0%Z end.
Lemma hold_balance : forall l t s, reachable s -> balance (hd l) t (trace s) = is_holder l t (trace s).
Proof.
  intros l t s R. pose proof (lock_events s R) as H. unfold is_holder. induction (trace s) as [|e tr IH] using rev_ind; [reflexivity|].
  assert (A : at_each (fun tr e => match e with EvLock t l => lock_holder l tr = None | EvUnlock t l => lock_holder l tr = Some t | EvMxAcq t m => mx_holder m tr = None | _ => True end) tr).
  { intros a x b E. apply (H a x (b ++ [e])). rewrite E. now rewrite <- app_assoc. }
  specialize (IH A). specialize (H tr e [] eq_refl). rewrite balance_snoc, holder_snoc, IH. unfold by_thread.
  destruct e; cbn [hd actor]; try (destruct (_ =? _); lia); try lia.
  - destruct (lock_eqb l0 l) eqn:E; [|destruct (_ =? _); lia]. assert (l0 = l) as -> by (destruct l0, l; try discriminate E; cbn in E; apply Nat.eqb_eq in E; congruence).
    cbn in H. rewrite H. destruct (_ =? _); reflexivity.
  - destruct (lock_eqb l0 l) eqn:E; [|destruct (_ =? _); lia]. assert (l0 = l) as -> by (destruct l0, l; try discriminate E; cbn in E; apply Nat.eqb_eq in E; congruence).
    cbn in H. rewrite H. destruct (_ =? _); reflexivity.
Qed.
Theorem hold_reachable : forall l, internal l = true -> forall s, reachable s -> forall t, sumf (hw l) (stk s t) = is_holder l t (trace s).
Proof.
  intros l I s R t. rewrite <- (hold_balance l t s R). revert s R t. apply count_rule.
  - intros []; reflexivity.
  - intros []; reflexivity.
  - intros s t pre rest h n R U E L. apply lstep_hold; auto. pose proof (lkf_reachable s R t) as F. rewrite E in F. now apply Forall_app in F.
Qed.
