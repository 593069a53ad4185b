(** * InvTerm: when an exception meets a function that must not throw. *)
From Verif Require Import Types Core State Ops Code Machine Base Spec SpecApi SpecFire SpecThrow Rules Events InvCtx InvStack InvRefs
  Calls Contract ContractLib Adj InvPack InvFire InvFill InvTab ThmCheck InvThrow ApiThrow Replay ReplayObj InvUb SpecUb SpecTerm InvTop OwnProm InvReady SpecOwn Own.

Definition hdn (b : list frame) : Prop := match b with FNoexcept :: _ => True | _ => False end.
(** What runs above a destructor of a promise or of a thread. *)
Definition noe (f : frame) (b : list frame) : Prop :=
  match f with
  | FThrow e => hdn b /\ (e = XSatisfied \/ e = XNotJoinable)
  | FSet _ _ | FSet1 _ _ | FSetFail _ | FThJoin _ | FThJoin1 _ => hdn b
  | f => esc f = false
  end.
Definition under_stop (x : option frame) (f : frame) (b : list frame) : Prop :=
  match x with Some FNoexcept => noe f b | Some (FDestroy _) | Some (FNotifyL _) => esc f = false | _ => True end.
Definition tn (f : frame) (b : list frame) : Prop := under_stop (find stops b) f b.
Lemma find_app : forall A (p : A -> bool) a b, find p (a ++ b) = match find p a with Some x => Some x | None => find p b end.
Proof. induction a as [|x a IH]; intros b; cbn; auto. destruct (p x); auto. Qed.
Lemma quiet_noe : forall f b, esc f = false -> noe f b.
Proof. intros f b H. destruct f; try exact H; discriminate H. Qed.
Lemma quiet_tn : forall f b, esc f = false -> tn f b.
Proof. intros f b H. unfold tn, under_stop. destruct (find stops b) as [[]|]; auto. now apply quiet_noe. Qed.
Theorem tn_reachable : forall s, reachable s -> forall t, adj (fun _ => tn) None (stk s t).
Proof.
  apply (adj_rule (fun s t _ => tn)); auto.
  - intros [|t]; cbn; auto; repeat split; exact Logic.I.
  - intros s t pre rest h n R R' E L Fp. split; [|split].
    3: { destruct (spawned n) as [[c cfs]|] eqn:Sp; auto. destruct (lstep_spawned _ _ _ _ _ _ _ L Sp) as (_ & _ & b & ->).
      destruct b; cbn [tframes adj]; repeat split; exact Logic.I. }
    2: { destruct rest; auto. }
    pose proof (flow_reachable s R t) as Fl. rewrite E in Fl.
    pose proof L as L0. lstep_cases L; cbn [next_frames] in *; cbn [adj] in Fp; cbn [app adj] in Fl; sh_; try exact Logic.I.
    all: try (apply quiet_tn; reflexivity).
    all: repeat match goal with H : _ /\ _ |- _ => destruct H end.
    all: unfold tn in *; cbn [app find stops] in *.
    all: try (destruct (find stops rest) as [[]|]; cbn [under_stop noe esc hdn] in *; auto; try discriminate; fail).
    all: try (destruct (find stops rest) as [[]|]; cbn [under_stop noe hdn] in *; auto; exfalso; repeat match goal with H : _ /\ _ |- _ => destruct H end; try contradiction; try discriminate; fail).
    all: match goal with H : flow _ _ _ _ |- _ => destruct H as (F1 & F2 & F3 & F4); cbn [fine rs] in F1, F3 end.
    all: try match goal with k : task |- under_stop _ (FRun ?k) _ => destruct (tesc k) eqn:Tk; [|apply quiet_tn; exact Tk] | |- under_stop _ (FDrop ?k) _ => destruct (tesc k) eqn:Tk; [|apply quiet_tn; exact Tk] end.
    all: try (specialize (F3 eq_refl); subst; cbn [lresume app find stops] in *).
    all: try congruence.
    all: try (destruct (find stops rest) as [[]|]; cbn [under_stop noe hdn esc] in *; rewrite ?Tk in *; try exact Logic.I; discriminate).
    all: try match goal with |- context [wresume ?k _] => destruct k; cbn [wresume app find stops]; destruct (find stops rest) as [[]|]; cbn [under_stop noe hdn esc] in *; try exact Logic.I; discriminate end.
    + destruct (tesc k) eqn:Tk; [|exact (quiet_tn (FRun k) (FDrop k :: lresume c true None ++ rest) Tk)]. specialize (F3 eq_refl). subst c. cbn [lresume destroy app find stops].
      destruct (find stops rest) as [[]|]; cbn [under_stop noe esc] in *; rewrite ?Tk in *; try exact Logic.I; discriminate.
    + cbn [destroy app find stops]. destruct (find stops rest) as [[]|]; cbn [under_stop noe esc] in *; rewrite ?Tk in *; try exact Logic.I; discriminate.
    + destruct (find stops rest) as [[]|]; cbn [under_stop noe esc lkesc] in *; rewrite ?orb_true_r in *; try exact Logic.I; discriminate.
    + destruct (find stops rest) as [[]|]; cbn [under_stop noe esc] in *; try exact Logic.I; apply orb_false_iff in H1; apply H1.
    + specialize (F1 eq_refl). destruct rest as [|[] rest]; try contradiction F1. exact Logic.I.
    + pose proof (take_pack s pl lv inp h' t x R A) as Tp. rewrite Heqo in Tp. exact (quiet_tn (FRun t0) (FCheckEnd pl n t0 :: rest) Tp).
Qed.
Lemma tn_top : forall s t f b, reachable s -> stk s t = f :: b -> tn f b.
Proof. intros s t f b R E. pose proof (tn_reachable s R t) as H. rewrite E in H. apply H. Qed.

(** ** The destructor of a promise *)
Definition shf (t : tid) (tr : list event) (f : frame) : Prop :=
  match f with
  | FSet p _ | FSet1 p _ => forall o, ~ In (EvReady t p o) tr
  | FSetFail p => exists u o, u <> t /\ In (EvReady u p o) tr
  | FThrow e => e = XSatisfied -> late_set t tr
  | _ => True
  end.
(** An exception that waits for objects to be destroyed is not above such a destructor. *)
Definition thn (a : option frame) (f : frame) (b : list frame) : Prop :=
  match a, f with Some _, FThrow _ => ~ hdn b | _, _ => True end.
Theorem thn_reachable : forall s, reachable s -> forall t, adj thn None (stk s t).
Proof.
  apply (adj_rule (fun s t => thn)); auto.
  - intros [|t]; cbn; auto; repeat split; exact Logic.I.
  - intros s t pre rest h n R R' E L Fp. split; [|split].
    3: { destruct (spawned n) as [[c cfs]|] eqn:Sp; auto. destruct (lstep_spawned _ _ _ _ _ _ _ L Sp) as (_ & _ & b & ->).
      destruct b; cbn [tframes adj]; repeat split; exact Logic.I. }
    2: { destruct rest as [|g r]; auto. unfold thn. destruct g; try (destruct (lasto None (next_frames n)); auto; fail).
      destruct (lstep_pre _ _ _ _ _ L) as (P1 & _). destruct pre as [|f pre]; [congruence|]. cbn [lasto].
      assert (X : exists y, lasto (Some f) pre = Some y) by (clear; revert f; induction pre as [|z pre IH]; intros f; cbn; eauto).
      destruct X as [y ->]. intros N. destruct (lasto None (next_frames n)); auto. }
    pose proof (tn_top s t) as Tn. rewrite E in Tn. clear R'.
    lstep_cases L; cbn [next_frames] in *; sh_; try exact Logic.I.
    all: try (unfold thn; match goal with |- context [lasto None ?l] => destruct (lasto None l); exact Logic.I end).
    all: cbn [app destroy lasto thn] in *; try (unfold thn; match goal with |- match ?x with _ => _ end => destruct x end; try exact Logic.I).
    all: intros Hn; destruct rest as [|[] rest]; try contradiction Hn; specialize (Tn _ _ R eq_refl); cbn in Tn; try discriminate Tn; destruct Tn as [[] _].
Qed.
Lemma below_plain : forall s t pre f r tr, reachable s -> stk s t = pre ++ f :: FNoexcept :: r -> pre <> [] -> shf t tr f.
Proof.
  intros s t pre f r tr R E N.
  assert (X : under f = true).
  { pose proof (under_reachable s R t) as H. rewrite E in H. destruct pre as [|g pre]; [congruence|]. cbn in H. rewrite unders_app in H.
    apply andb_true_iff in H as [_ H]. cbn in H. now destruct (under f). }
  destruct f; try exact Logic.I; try discriminate X. exfalso.
  pose proof (thn_reachable s R t) as H. apply (adj_in _ _ pre (FThrow e) (FNoexcept :: r)) in H; auto.
  destruct pre as [|g pre]; [congruence|]. cbn [lasto] in H.
  assert (Y : exists y, lasto (Some g) pre = Some y) by (clear; revert g; induction pre as [|z pre IH]; intros g; cbn; eauto).
  destruct Y as [y Y]. rewrite Y in H. now apply H.
Qed.
Definition shp (t : tid) (tr : list event) (fs : list frame) : Prop := forall f r, fs = f :: FNoexcept :: r -> shf t tr f.
Lemma shf_quiet : forall t tr l f, (forall e, In e l -> by_thread t e = false) -> shf t tr f -> shf t (tr ++ l) f.
Proof.
  intros t tr l f Q H. destruct f; try exact H; cbn [shf] in *.
  - intros E. destruct (H E) as (p & u & o & a & b & E' & N & I & Qb). exists p, u, o, a, (b ++ l). rewrite E', <- app_assoc. repeat split; auto.
    intros e' He. apply in_app_or in He as [He|He]; auto.
  - intros o' X. apply in_app_or in X as [X|X]; [now apply (H o')|]. apply Q in X. unfold by_thread in X. cbn in X. now rewrite Nat.eqb_refl in X.
  - intros o' X. apply in_app_or in X as [X|X]; [now apply (H o')|]. apply Q in X. unfold by_thread in X. cbn in X. now rewrite Nat.eqb_refl in X.
  - destruct H as (u & o & N & X). exists u, o. split; auto. apply in_or_app. now left.
Qed.
Lemma other_quiet : forall h t pre h' n es u, lstep h t pre h' n -> tr_of h' = tr_of h ++ es -> u <> t -> forall e, In e es -> by_thread u e = false.
Proof.
  intros h t pre h' n es u L Et N e I. unfold tr_of in Et. destruct (lstep_tr _ _ _ _ _ L) as [X|[e' X]]; rewrite X in Et.
  - rewrite <- (app_nil_r (rev _)) in Et at 1. apply app_inv_head in Et. subst es. contradiction.
  - cbn [rev] in Et. apply app_inv_head in Et. subst es. destruct I as [<-|[]].
    unfold by_thread. destruct (lstep_actor _ _ _ _ _ _ L X) as [->| ->]; auto. apply Nat.eqb_neq. auto.
Qed.
Lemma ready_ev : forall p tr, is_ready p tr -> exists u o, In (EvReady u p o) tr.
Proof.
  intros p tr. unfold is_ready. induction tr as [|e tr IH] using rev_ind; [intros H; now destruct H|].
  rewrite outcome_snoc. setoid_rewrite in_app_iff. destruct e; try (intros H; destruct (IH H) as (u9 & o' & X); eauto; fail).
  match goal with |- (if ?q =? p then _ else _) <> _ -> _ => destruct (Nat.eqb_spec q p) as [->|N] end.
  - intros _. eexists. eexists. right. left. reflexivity.
  - intros H. destruct (IH H) as (u & o' & X); eauto.
Qed.
Lemma lock_tr : forall h t l inp h' x, atom h t (OLock l) inp = AOk h' x -> tr_of h' = tr_of h ++ [EvLock t l].
Proof. intros h t l inp h' x A. apply atom_event in A. cbn in A. unfold tr_of. now rewrite A. Qed.
Lemma unlock_tr : forall h t l inp h' x, atom h t (OUnlock l) inp = AOk h' x -> tr_of h' = tr_of h ++ [EvUnlock t l].
Proof. intros h t l inp h' x A. apply atom_event in A. cbn in A. unfold tr_of. now rewrite A. Qed.
Theorem shp_reachable : forall s, reachable s -> forall t, shp t (trace s) (stk s t).
Proof.
  apply (reachable_ind'' (fun s => forall t, shp t (trace s) (stk s t))).
  - intros [|t] f r X; discriminate X.
  - intros s s' R R' IH U Tr. destruct Tr as [d|t pre rest u E L|t pre rest h n E L].
    + intros t f r X. apply (shf_quiet t (trace s) [EvTick (Zpos d)]); [|eapply IH; exact X]. intros e [<-|[]]. reflexivity.
    + exact IH.
    + intros v f9 r9 X. set (s' := mkSt h (set_next (stk s) t n rest) None) in *.
      destruct (lstep_trace _ _ _ _ _ L) as (es & Et & _ & Le). change (trace s') with (tr_of h).
      destruct (Nat.eq_dec v t) as [->|Nv].
      * change (stk s' t) with (set_next (stk s) t n rest t) in X. rewrite next_own in X. clear s' R' Le.
        pose proof (tn_top s t) as Tn. specialize (IH t). rewrite E in IH, Tn.
        lstep_cases L; cbn [next_frames] in X.
        all: try (injection X as <- X; exact Logic.I).
        all: try (cbn [app] in X; subst rest; refine (below_plain s t [_] f9 r9 _ R E _); discriminate).
        all: try (cbn [app] in X; subst rest; refine (below_plain s t [_; _] f9 r9 _ R E _); discriminate).
        all: repeat match type of X with
          | context [destroy ?b] => destruct b; cbn [destroy app map] in X
          | context [wresume ?b _] => destruct b; cbn [wresume app] in X
          | context [gresume ?b _] => destruct b; cbn [gresume app] in X
          | context [semresume ?b ?c] => destruct b as [| |? [?|] ?|], c; cbn [semresume app] in X
          | context [lresume ?b _ _] => destruct b; cbn [lresume app] in X
          | context [wresume_after _ ?b] => destruct b; cbn [wresume_after app] in X
          | context [pact_frames _ _ ?b] => destruct b; cbn [pact_frames app] in X
          | context [spresume _ _ ?b] => destruct b; cbn [spresume app] in X
          | context [ufin_ret ?b _] => destruct b; cbn [ufin_ret app] in X
          | context [api_frames ?b] => destruct b; cbn [api_frames app] in X
          | context [match ?b with _ => _ end ++ _] => destruct b eqn:?; cbn [app] in X
          end.
        all: try (cbn [app] in X; injection X as <- X; exact Logic.I).
        all: try (cbn [app] in X; subst rest; refine (below_plain s t [_] f9 r9 _ R E _); discriminate).
        all: cbn [app] in X; try discriminate X; injection X as <- X; try discriminate X.
        all: try (subst rest; specialize (Tn _ _ R eq_refl); cbn in Tn; try discriminate Tn; try (solve [destruct Tn as [[] _]])).
        -- intros o' Hi. cbn [atom] in A. injection A as <- Rd. apply ready_in, (ready_iff s p R) in Hi. congruence.
        -- intros Q; discriminate Q.
        -- specialize (IH _ _ eq_refl). cbn [shf] in *. intros o' Hi. rewrite (lock_tr _ _ _ _ _ _ A) in Hi. apply in_app_or in Hi as [Hi|[Hi|[]]]; [now apply (IH o')|discriminate Hi].
        -- specialize (IH _ _ eq_refl). cbn [shf] in *. assert (Rd : is_ready p (trace s) /\ tr_of h' = trace s).
           { rewrite <- (ready_iff s p R). cbn [atom] in A. op_unfold A. brki A; injection A as <-; try discriminate; auto. }
           destruct Rd as [Rd ->]. destruct (ready_ev _ _ Rd) as (v & o' & Hi). exists v, o'. split; auto. intros ->. now apply (IH o').
        -- specialize (IH _ _ eq_refl). cbn [shf] in *. intros _. destruct IH as (v & o' & N & Hi). exists p, v, o', (trace s), [].
           rewrite (unlock_tr _ _ _ _ _ _ A). repeat split; auto. intros e [].
      * assert (Q : stk s v = f9 :: FNoexcept :: r9).
        { change (stk s' v) with (set_next (stk s) t n rest v) in X. destruct n as [fs|c cfs fs]; unfold set_next in X.
          - now rewrite upd_other in X.
          - rewrite upd_other in X by auto. destruct (Nat.eq_dec v c) as [->|Nc]; [|now rewrite upd_other in X].
            rewrite upd_same in X. destruct (lstep_spawned _ _ _ _ _ c cfs L eq_refl) as (_ & _ & b & ->). destruct b; discriminate X. }
        rewrite Et. apply shf_quiet; [|eapply IH; exact Q]. eapply other_quiet; eauto.
Qed.

(** ** The destructor of a thread object *)
(** Nobody joins a thread outside the calls. *)
Lemma below_throw : forall s t pre e r, reachable s -> stk s t = pre ++ FThrow e :: FNoexcept :: r -> pre <> [] -> False.
Proof.
  intros s t pre e r R E N. pose proof (thn_reachable s R t) as H. apply (adj_in _ _ pre (FThrow e) (FNoexcept :: r)) in H; auto.
  destruct pre as [|g pre]; [congruence|]. cbn [lasto] in H.
  assert (Y : exists y, lasto (Some g) pre = Some y) by (clear; revert g; induction pre as [|z pre IH]; intros g; cbn; eauto).
  destruct Y as [y Y]. rewrite Y in H. now apply H.
Qed.
Definition shj (fs : list frame) : Prop := forall r, fs = FThrow XNotJoinable :: FNoexcept :: r -> no_api r = false.
Theorem shj_reachable : forall s, reachable s -> forall t, shj (stk s t).
Proof.
  apply (reachable_ind'' (fun s => forall t, shj (stk s t))).
  - intros [|t] r X; discriminate X.
  - intros s s' R R' IH U Tr. destruct Tr as [d|t pre rest u E L|t pre rest h n E L].
    + exact IH.
    + exact IH.
    + intros v r9 X. set (s' := mkSt h (set_next (stk s) t n rest) None) in *.
      destruct (lstep_trace _ _ _ _ _ L) as (es & Et & _ & Le). change (trace s') with (tr_of h).
      destruct (Nat.eq_dec v t) as [->|Nv].
      * change (stk s' t) with (set_next (stk s) t n rest t) in X. rewrite next_own in X. clear s' R' Le.
        pose proof (tn_top s t) as Tn. specialize (IH t). rewrite E in IH, Tn.
        lstep_cases L; cbn [next_frames] in X.
        all: try (discriminate X).
        all: try (cbn [app] in X; subst rest; exfalso; refine (below_throw s t [_] _ r9 R E _); discriminate).
        all: try (cbn [app] in X; subst rest; exfalso; refine (below_throw s t [_; _] _ r9 R E _); discriminate).
        all: repeat match type of X with
          | context [destroy ?b] => destruct b; cbn [destroy app map] in X
          | context [wresume ?b _] => destruct b; cbn [wresume app] in X
          | context [gresume ?b _] => destruct b; cbn [gresume app] in X
          | context [semresume ?b ?c] => destruct b as [| |? [?|] ?|], c; cbn [semresume app] in X
          | context [lresume ?b _ _] => destruct b; cbn [lresume app] in X
          | context [wresume_after _ ?b] => destruct b; cbn [wresume_after app] in X
          | context [pact_frames _ _ ?b] => destruct b; cbn [pact_frames app] in X
          | context [spresume _ _ ?b] => destruct b; cbn [spresume app] in X
          | context [ufin_ret ?b _] => destruct b; cbn [ufin_ret app] in X
          | context [api_frames ?b] => destruct b; cbn [api_frames app] in X
          | context [match ?b with _ => _ end ++ _] => destruct b eqn:?; cbn [app] in X
          end.
        all: try (cbn [app] in X; discriminate X).
        all: try (cbn [app] in X; subst rest; exfalso; refine (below_throw s t [_] _ r9 R E _); discriminate).
        all: cbn [app] in X; try discriminate X; injection X as X; try discriminate X.
        all: try (subst rest; specialize (Tn _ _ R eq_refl); cbn in Tn; try discriminate Tn; try (solve [destruct Tn as [[] _]])).
        pose proof (calls_reachable s R t) as C. rewrite E in C. destruct C as [C _]. exact (C eq_refl).
      * assert (Q : stk s v = FThrow XNotJoinable :: FNoexcept :: r9).
        { change (stk s' v) with (set_next (stk s) t n rest v) in X. destruct n as [fs|c cfs fs]; unfold set_next in X.
          - now rewrite upd_other in X.
          - rewrite upd_other in X by auto. destruct (Nat.eq_dec v c) as [->|Nc]; [|now rewrite upd_other in X].
            rewrite upd_same in X. destruct (lstep_spawned _ _ _ _ _ c cfs L eq_refl) as (_ & _ & b & ->). destruct b; discriminate X. }
        now apply (IH v).
Qed.

Section Join.
Variable cl : call.
Variable tr : list event.
Notation c := (cl_api cl).
Definition had (o : nat) : Prop := ends_thread o c /\ sometime cl tr (fun m => fst (thobj_of o m) <> None).
Definition lost (o : nat) : Prop := ends_thread o c /\ sometime cl tr (fun m => fst (thobj_of o m) = None /\ sometime cl m (fun m' => fst (thobj_of o m') <> None)).
Definition jfr (f : frame) : Prop :=
  match f with
  | FThJoin o | FThJoin1 o => had o
  | FThrow e => e = XNotJoinable -> exists o, lost o
  | _ => True
  end.
Definition afr (f : frame) : Prop :=
  match f with FThDtor o => c = AThDtor o | FThAssign d s => c = AThAssign d s | _ => True end.
Fixpoint jok (seg : list frame) : Prop := match seg with [] => True | f :: b => (hdn b -> jfr f) /\ afr f /\ jok b end.
End Join.
Lemma had_mono : forall cl tr l a o, had cl tr o -> had (add_acts a cl) (tr ++ l) o.
Proof. intros cl tr l a o [H1 H2]. split; [exact H1|]. now apply st_mono. Qed.
Lemma lost_mono : forall cl tr l a o, lost cl tr o -> lost (add_acts a cl) (tr ++ l) o.
Proof. intros cl tr l a o [H1 H2]. split; [exact H1|]. apply (st2_mono cl tr l a (fun m => fst (thobj_of o m) = None) (fun m => fst (thobj_of o m) <> None)). exact H2. Qed.
Lemma jfr_mono : forall cl tr l a f, jfr cl tr f -> jfr (add_acts a cl) (tr ++ l) f.
Proof. intros cl tr l a f H. destruct f; try exact H; cbn [jfr] in *; try now apply had_mono. intros E. destruct (H E) as [o X]. exists o. now apply lost_mono. Qed.
Lemma jok_mono : forall cl tr l a seg, jok cl tr seg -> jok (add_acts a cl) (tr ++ l) seg.
Proof. intros cl tr l a. induction seg as [|f b IH]; cbn; auto. intros (H1 & H2 & H3). repeat split; auto. intros Hn. apply jfr_mono; auto. Qed.
Lemma jok_tr : forall cl tr l seg, jok cl tr seg -> jok cl (tr ++ l) seg.
Proof. intros cl tr l seg H. apply (jok_mono cl tr l []) in H. now rewrite acts_nil in H. Qed.
Lemma jok_tail : forall cl tr a b, jok cl tr (a ++ b) -> jok cl tr b.
Proof. induction a as [|f a IH]; cbn; auto. intros b (_ & _ & H). auto. Qed.
Lemma join_lnk : forall s, reachable s -> forall t,
  lnk (fun cl seg => incall t cl (trace s) /\ jok cl (trace s) seg) (stk s t) (open_calls t (trace s)).
Proof.
  apply (bot_rule (fun t cl tr seg => jok cl tr seg)).
  - intros s t c pre _ _. destruct c; cbn; repeat split; auto; contradiction.
  - intros t cl tr tr' seg _ H (s & l & _ & _ & -> & _). now apply jok_tr.
  - intros t cl tr tr' l seg _ H _ ->. now apply jok_tr.
  - intros s s' t cl pre r rest h n R _ _ _ E L _ NC IC _ H. destruct (lstep_trace _ _ _ _ _ L) as (es & Et & _ & _).
    pose proof (jok_tail _ _ _ _ H) as Hr. apply (jok_mono cl (trace s) es (new_acts t (hp s) h)) in Hr. change (trace s ++ es) with (tr_of (hp s) ++ es) in Hr. rewrite <- Et in Hr.
    assert (Nw : forall P : list event -> Prop, P (trace s) -> sometime (add_acts (new_acts t (hp s) h) cl) (tr_of h) P).
    { intros P X. rewrite Et. apply (st_now t); auto. }
    assert (Mh : forall o, had cl (trace s) o -> had (add_acts (new_acts t (hp s) h) cl) (tr_of h) o) by (intros o; rewrite Et; apply had_mono).
    assert (Ms : forall P, sometime cl (trace s) P -> sometime (add_acts (new_acts t (hp s) h) cl) (trace s) P).
    { intros P X. apply (st_mono cl (trace s) [] (new_acts t (hp s) h)) in X. now rewrite app_nil_r in X. }
    set (cl' := add_acts (new_acts t (hp s) h) cl) in *. assert (Ec : cl_api cl' = cl_api cl) by reflexivity.
    pose proof (tn_top s t) as Tn. rewrite E, <- app_assoc in Tn. clearbody cl'.
    lstep_cases L; cbn [next_frames app] in *.
    all: try exact Hr.
    all: repeat match goal with
          | |- context [destroy ?b] => destruct b; cbn [destroy app map]
          | |- context [wresume ?b _] => destruct b; cbn [wresume app]
          | |- context [gresume ?b _] => destruct b; cbn [gresume app]
          | |- context [semresume ?b ?c] => destruct b as [| |? [?|] ?|], c; cbn [semresume app]
          | |- context [lresume ?b _ _] => destruct b; cbn [lresume app]
          | |- context [wresume_after _ ?b] => destruct b; cbn [wresume_after app]
          | |- context [pact_frames _ _ ?b] => destruct b; cbn [pact_frames app]
          | |- context [spresume _ _ ?b] => destruct b; cbn [spresume app]
          | |- context [ufin_ret ?b _] => destruct b; cbn [ufin_ret app]
          | |- context [match ?b with _ => _ end ++ _] => destruct b eqn:?; cbn [app]
          end.
    all: try exact Hr.
    all: unfold run_one; cbn [app jok jfr afr hdn]; repeat split; auto; try (intros []; fail); try (intros _; exact Logic.I).
    all: try (now destruct (NC c)).
    all: try (intros _ Q; discriminate Q).
    all: try (intros Hn _; exfalso; destruct r as [|[] r]; try contradiction Hn; specialize (Tn _ _ R eq_refl); cbn in Tn; first [discriminate Tn|solve [destruct Tn as [[] _]]]).
    all: try (intros Hn Q; exfalso; destruct r as [|[] r]; try contradiction Hn; specialize (Tn _ _ R eq_refl); cbn in Tn; first [discriminate Tn|solve [destruct Tn as [[] _]]]).
    all: try (cbn [jok jfr afr] in H; destruct H as [H _]; first [refine (proj1 (Mh o _))|refine (proj2 (Mh o _))]; apply H; assumption).
    all: try (cbn [jok jfr afr] in H; destruct H as (_ & H & _); rewrite Ec, H; reflexivity).
    all: try (cbn [atom] in A; injection A as <- Ex; apply Nw; rewrite <- (replay_tobj _ s R), Ex; congruence).
    intros Hn _. exists o. cbn [jok jfr] in H. destruct H as [H _]. destruct (H Hn) as [H1 H2]. split; [now rewrite Ec|].
    cbn [atom] in A. injection A as <- Ex. apply Nw. split; [rewrite <- (replay_tobj _ s R), Ex; assumption|].
    now apply Ms.
Qed.

(** ** A thread's own loop *)
Fixpoint bots (fs : list frame) : list frame := match fs with [] => [] | f :: r => if no_api fs then fs else bots r end.
Lemma bots_free : forall fs, no_api fs = true -> bots fs = fs.
Proof. intros [|f r] H; auto. cbn [bots]. now rewrite H. Qed.
Lemma bots_app : forall a b, no_api b = false -> bots (a ++ b) = bots b.
Proof.
  induction a as [|f a IH]; intros b H; auto. cbn [app bots]. change (f :: a ++ b) with ((f :: a) ++ b). rewrite no_api_app, H, andb_false_r. auto.
Qed.
Lemma bots_api : forall a c b, no_api b = true -> bots (a ++ FApi c :: b) = b.
Proof. intros a c b H. rewrite bots_app by reflexivity. cbn. now apply bots_free. Qed.
Definition loopc (t : tid) (tr : list event) : call := mkCall AProcess [] (filter (by_thread t) tr).
Definition loop_ok (t : tid) (tr : list event) (fs : list frame) : Prop := segok t (loopc t tr) (removelast (bots fs)).
Lemma loopc_app : forall t tr l, loopc t (tr ++ l) = add_acts (filter (by_thread t) l) (loopc t tr).
Proof. intros t tr l. unfold loopc, add_acts. cbn. now rewrite filter_app. Qed.
Lemma loop_mono : forall t tr l fs, loop_ok t tr fs -> loop_ok t (tr ++ l) fs.
Proof. intros t tr l fs H. unfold loop_ok. rewrite loopc_app. now apply segok_mono. Qed.
Theorem loop_reachable : forall s, reachable s -> forall t, loop_ok t (trace s) (stk s t).
Proof.
  apply (reachable_ind'' (fun s => forall t, loop_ok t (trace s) (stk s t))).
  - intros [|t]; cbn; auto. split; auto. left. split; reflexivity.
  - intros s s' R R' IH U Tr. destruct Tr as [d|t pre rest u E L|t pre rest h n E L].
    + intros t. apply (loop_mono t (trace s) [EvTick (Zpos d)]). apply IH.
    + exact IH.
    + intros v. set (s' := mkSt h (set_next (stk s) t n rest) None) in *.
      destruct (lstep_trace _ _ _ _ _ L) as (es & Et & Ea & _). change (trace s') with (tr_of h). rewrite Et.
      destruct (Nat.eq_dec v t) as [->|Nv].
      * change (stk s' t) with (set_next (stk s) t n rest t). rewrite next_own. clear s' R'.
        destruct (no_api rest) eqn:Nr.
        2: { specialize (IH t). rewrite E in IH. unfold loop_ok in *. rewrite bots_app in IH |- * by auto. rewrite loopc_app. now apply segok_mono. }
        pose proof (IH t) as J. rewrite E in J.
        assert (Oth : no_api pre = true -> no_api (next_frames n) = true -> (forall c, h <> emit (hp s) (EvCall t c)) ->
          (exists fs1, rest = fs1 ++ [FEnd]) -> loop_ok t (tr_of (hp s) ++ es) (next_frames n ++ rest)).
        { intros N1 N2 NC [fs1 ->]. unfold loop_ok in *. rewrite bots_free in J by (now rewrite no_api_app, N1, Nr).
          rewrite bots_free by (now rewrite no_api_app, N2, Nr). rewrite app_assoc, removelast_last in J |- *. rewrite loopc_app, <- Ea.
          apply (step_ok s t _ pre fs1 [FEnd] h n); auto. now rewrite E, app_assoc. }
        assert (Rs : List.hd FEnd pre <> FEnd -> exists fs1, rest = fs1 ++ [FEnd]).
        { intros Hd. pose proof (stk_inv_reachable s R t) as Hk. unfold stk_ok in Hk. rewrite E in Hk. destruct (lstep_pre _ _ _ _ _ L) as (P1 & P2 & P3).
          destruct (running _); [|destruct pre; [congruence|discriminate Hk]]. destruct Hk as (fs0 & Hk & Ne).
          destruct (no_end_split pre rest fs0 Hk Ne P1 Hd (conj P2 P3)) as (fs1 & X & _). now exists fs1. }
        pose proof (lstep_tst _ _ _ _ _ L) as Ts.
        destruct (lstep_kind _ _ _ _ _ L) as [c u fin E1 E2 E3|c r top E1 Hr E2 E3|E1 E2 E3|c b fs E1 E2 E3 E4 E5 E6|fs E1 E2 E3 E4].
        -- subst pre n. cbn [next_frames]. rewrite <- app_assoc. cbn [app]. unfold loop_ok in *. rewrite bots_api by exact Nr.
           rewrite bots_free in J by exact Nr. rewrite loopc_app. now apply segok_mono.
        -- subst pre n. cbn [next_frames app]. rewrite <- app_assoc in J. cbn [app] in J. unfold loop_ok in *. rewrite bots_api in J by auto.
           rewrite bots_free by auto. rewrite loopc_app. now apply segok_mono.
        -- subst pre n. apply (end_rest s t) in E; auto. subst rest. exact Logic.I.
        -- apply Oth; auto.
           ++ now subst n.
           ++ intros c0 X. rewrite X in E3. cbn in E3. discriminate E3.
           ++ destruct Ts as [(b0 & k & inp & -> & _)|[(_ & X & _)|((fs' & X) & _)]]; [apply Rs; discriminate|congruence|congruence].
        -- destruct Ts as [(b0 & k & inp & _ & _ & _ & _ & X)|[(E5 & X & _)|(_ & _ & Hd)]]; [congruence| |].
           ++ subst pre. apply (end_rest s t) in E; auto. subst rest. rewrite X. exact Logic.I.
           ++ apply Oth; auto; [now subst n|]. intros c0 X. rewrite X in E4. cbn in E4. destruct E4 as [Q|(e & Q & N)].
              ** apply (f_equal (@length _)) in Q. cbn in Q. lia.
              ** injection Q as <-. exact N.
      * change (stk s' v) with (set_next (stk s) t n rest v). destruct n as [fs|c cfs fs]; unfold set_next.
        -- rewrite upd_other by auto. now apply loop_mono.
        -- rewrite upd_other by auto. destruct (Nat.eq_dec v c) as [->|Nc]; [|rewrite upd_other by auto; now apply loop_mono].
           rewrite upd_same. destruct (lstep_spawned _ _ _ _ _ c cfs L eq_refl) as (_ & _ & b & ->).
           unfold loop_ok. rewrite bots_free by apply no_api_tframes. destruct b; cbn; repeat split; auto; left; repeat split; auto.
Qed.
Theorem terminate_cause : forall s t, reachable s -> terminates s t -> task_threw t (trace s) \/ late_set t (trace s) \/ lost_thread t (trace s).
Proof.
  intros s t R W. destruct (wrong_lub s t _ W) as (U & pre & rest & E & L). remember UbTerminate as u eqn:Eu.
  destruct L as [inp f u Ru|inp e g u Ru]; subst u.
  - exfalso. destruct f; cbn [code ubruns] in Ru.
    all: repeat match type of Ru with context [match ?x with _ => _ end] => destruct x eqn:?; cbn [ubruns] in Ru end; try contradiction.
    all: try (cbn [atom] in Ru; discriminate Ru).
    all: pose proof (needs_call _ _ _ _ R E) as NC; cbn [atom] in Ru; op_unfold Ru.
    all: brki Ru; try discriminate Ru.
    injection Ru as ->. destruct (NC eq_refl) as (cl & _ & _ & Ok). exact Ok.
  - pose proof (tn_top s t _ _ R E) as Tn. unfold tn in Tn. cbn [app] in E, Tn.
    destruct g; cbn [catch ubruns] in Ru; try contradiction; cbn [atom] in Ru; op_unfold Ru; brki Ru; try discriminate Ru; cbn in Tn; try discriminate Tn.
    + (* FNoexcept *) right. destruct Tn as [_ [->| ->]].
      * left. pose proof (shp_reachable s R t) as H. rewrite E in H. now apply (H (FThrow XSatisfied) rest).
      * right. pose proof (join_lnk s R t) as H. rewrite E in H.
        remember (FThrow XNotJoinable :: FNoexcept :: rest) as fs eqn:Ef. remember (open_calls t (trace s)) as cs0 eqn:Ec.
        destruct H as [fs N|seg cl u fin below cs N [IC J] _].
        -- exfalso. pose proof (shj_reachable s R t rest) as X. rewrite E in X. specialize (X Ef). subst fs. unfold no_api in *. cbn in N. congruence.
        -- destruct seg as [|f1 [|f2 seg]]; try discriminate Ef. cbn in Ef. injection Ef as -> -> _.
           cbn [jok jfr hdn] in J. destruct J as [J _]. destruct (J Logic.I eq_refl) as (o & H1 & H2).
           exists cl, o. split; [exists cs; congruence|]. auto.
    + (* FEnd *) left. assert (X : rest = []).
      { pose proof (stk_inv_reachable s R t) as H. unfold stk_ok in H. rewrite E in H. destruct (running _); [|discriminate H].
        destruct H as (fs0 & H & Ne). destruct fs0 as [|f0 [|f1 fs0]]; try discriminate H; injection H as H; subst; auto.
        exfalso. cbn in Ne. discriminate Ne. }
      subst rest. pose proof (loop_reachable s R t) as H. unfold loop_ok in H. rewrite E in H. cbn in H. destruct H as [[H|H] _]; [|discriminate H].
      destruct H as [(_ & v & H)|[H|[]]]; [|destruct H].
      split; [|exists v, e; now apply filter_In in H].
      pose proof (join_lnk s R t) as X. rewrite E in X.
      remember [FThrow e; FEnd] as fs eqn:Ef. remember (open_calls t (trace s)) as cs0 eqn:Ec. destruct X as [fs N|seg cl w fin below cs N _ _]; [now symmetry|].
      exfalso. destruct seg as [|f1 [|f2 [|f3 seg]]]; discriminate Ef.
Qed.
