(** * InvBuild: a pool has its workers before it has an object, and so before it has jobs. *)
From Verif Require Import Types Core State Ops Code Machine Base Spec SpecPool Rules Events InvBound InvStack InvRefs Adj Count Replay ReplayObj InvJobs InvCv InvPack Own.
Local Open Scope Z_scope.

(** A pool object was given the pool. *)
Definition bound (pl : nat) (tr : list event) : Prop := exists t o, In (EvPoolNew t o pl) tr.

(** ** Frames below the construction *)
Definition builds (pl : nat) (f : frame) : Prop :=
  match f with
  | FPoolB p _ | FPoolW p _ _ _ | FPWk p _ _ _ | FSpawn _ (SpPool p _ _ _) | FSpReg _ (SpPool p _ _ _) => p = pl
  | _ => False
  end.
Definition bld (pl : nat) (a : option frame) (f : frame) (r : list frame) : Prop := builds pl f -> exists o, In (FPoolEnd o pl) r.
Theorem bld_reachable : forall pl s, reachable s -> forall t, adj (bld pl) None (stk s t).
Proof.
  intros pl. apply (adj_rule (fun _ _ => bld pl)); auto.
  - intros t. cbn. destruct (t =? 0)%nat; cbn; auto. repeat split; intros [].
  - intros s t pre rest h n R R' E L A. split; [|split].
    + lstep_cases L; cbn [next_frames] in *; sh_; try exact Logic.I; unfold bld; try (intros []; fail).
      all: cbn [builds]; intros Q; try (exists o; left; now rewrite Q).
      all: destruct A as [A _]; destruct (A Q) as [o0 H]; exists o0; cbn [app In]; auto.
    + destruct rest as [|g r]; auto.
    + destruct (spawned n) as [[c cfs]|] eqn:Sp; auto. destruct (lstep_spawned _ _ _ _ _ _ _ L Sp) as (_ & _ & b & ->).
      destruct b; cbn; unfold bld; cbn; tauto.
Qed.

(** ** The construction is unique *)
Definition pe (pl : nat) (f : frame) : Z := match f with FPoolEnd _ p => if (p =? pl)%nat then 1 else 0 | _ => 0 end.
Definition is_new (pl : nat) (e : event) : bool := match e with EvPoolNew _ _ p => (p =? pl)%nat | _ => false end.
Definition bnd1 (pl : nat) (tr : list event) : Z := sumf (fun e => if is_new pl e then 1 else 0) tr.
Definition blds (pl : nat) (s : st) (B : nat) : Z := sumN (fun t => sumf (pe pl) (stk s t)) B + bnd1 pl (trace s).
Lemma pe_nn : forall pl f, 0 <= pe pl f.
Proof. intros pl []; cbn; try lia. destruct (_ =? _)%nat; lia. Qed.
Lemma new_nn : forall pl e, 0 <= if is_new pl e then 1 else 0.
Proof. intros pl e. destruct (is_new pl e); lia. Qed.
Lemma pe_destroy : forall pl l, sumf (pe pl) (destroy l) = 0.
Proof. intros pl []; reflexivity. Qed.
Lemma sumN_nn_mono : forall f B B', (forall t, 0 <= f t) -> (B <= B')%nat -> sumN f B <= sumN f B'.
Proof.
  intros f B B' N L. unfold sumN. replace B' with (B + (B' - B))%nat by lia. rewrite seq_app, sumf_app.
  pose proof (sumf_nonneg _ f (seq (0 + B) (B' - B)) N). lia.
Qed.
Lemma pe_next : forall pl h t pre h' n, lstep h t pre h' n -> (exists o lvs, pre = [FPool o lvs]) \/ Forall (fun f => pe pl f = 0) (next_frames n).
Proof.
  intros pl h t pre h' n L. lstep_cases L; try (left; eauto; fail); right; cbn [next_frames]; fl_; try reflexivity.
Qed.
Lemma pe_pool : forall o lvs h t h' n, lstep h t [FPool o lvs] h' n -> h_tr h' = h_tr h /\
  ((h_npool h' = S (h_npool h) /\ n = Go [FPoolB (h_npool h) lvs; FPoolEnd o (h_npool h)]) \/ (forall pl, sumf (pe pl) (next_frames n) = 0 /\ spawned n = None)).
Proof.
  intros o lvs h t h' n L. remember [FPool o lvs] as pre eqn:E. lstep_cases L; try discriminate E; injection E as -> ->.
  all: cbn [atom] in A; op_unfold A.
  - brki A; [discriminate A|]. injection A as <- <-. split; auto.
  - discriminate A.
Qed.
Lemma new_frame : forall u0 o0 pl0 h t pre h' n, lstep h t pre h' n -> h_tr h' = EvPoolNew u0 o0 pl0 :: h_tr h -> pre = [FPoolEnd o0 pl0] /\ n = Go [].
Proof. intros u0 o0 pl0 h t pre h' n L X. ev_cases L X. injection X as <- <- <-. auto. Qed.
Lemma bound_iff : forall pl tr, bound pl tr <-> 0 < bnd1 pl tr.
Proof.
  intros pl tr. unfold bnd1. split.
  - intros (t & o & J). apply in_split in J as (a & b & ->). rewrite sumf_app. cbn [sumf is_new]. rewrite Nat.eqb_refl.
    pose proof (sumf_nonneg _ _ a (new_nn pl)). pose proof (sumf_nonneg _ _ b (new_nn pl)). lia.
  - induction tr as [|e tr IH]; cbn [sumf]; [lia|]. destruct (is_new pl e) eqn:Q; [|intros H; destruct IH as (t & o & J); [lia|]; exists t, o; now right].
    intros _. destruct e; try discriminate Q. cbn in Q. apply Nat.eqb_eq in Q. subst. exists t, o. now left.
Qed.
Lemma bnd1_snoc : forall pl tr e, bnd1 pl (tr ++ [e]) = bnd1 pl tr + if is_new pl e then 1 else 0.
Proof. intros. unfold bnd1. rewrite sumf_app. cbn. lia. Qed.
Lemma stk_nn : forall pl s t, 0 <= sumf (pe pl) (stk s t).
Proof. intros. apply sumf_nonneg, pe_nn. Qed.
Lemma npool_mono : forall h t pre h' n, lstep h t pre h' n -> (h_npool h <= h_npool h')%nat.
Proof. intros h t pre h' n L. lstep_cases L; try exact (le_n _); apply (atom_ble _ _ _ _ _ _ _ A). Qed.
Theorem one_construction : forall pl s, reachable s -> forall B, blds pl s B <= 1 /\ ((h_npool (hp s) <= pl)%nat -> blds pl s B = 0).
Proof.
  intros pl. apply (reachable_ind'' (fun s => forall B, blds pl s B <= 1 /\ ((h_npool (hp s) <= pl)%nat -> blds pl s B = 0))).
  - intros B. assert (blds pl st0 B = 0); [|split; auto; lia]. unfold blds. cbn [bnd1 sumf]. unfold sumN. rewrite sumf_zero; auto.
    intros t _. cbn. destruct (t =? 0)%nat; reflexivity.
  - intros s s' R R' IH U Tr. destruct Tr as [d|t pre rest u E L|t pre rest h n E L]; auto.
    { intros B. specialize (IH B). unfold blds in *. cbn [stk hp] in *.
      change (trace (mkSt _ _ _)) with (trace s ++ [EvTick (Zpos d)]). rewrite bnd1_snoc. cbn [is_new]. rewrite Z.add_0_r. exact IH. }
    set (s' := mkSt h (set_next (stk s) t n rest) None) in *.
    assert (P : pt (fun u => sumf (pe pl) (stk s u)) (fun u => sumf (pe pl) (stk s' u)) (sumf (pe pl) (next_frames n) - sumf (pe pl) pre)).
    { exists t. intros u. cbn [s' stk]. destruct (spawned n) as [[c cfs]|] eqn:Sp.
      - destruct (lstep_spawned _ _ _ _ _ _ _ L Sp) as (Fr & Nc & b & ->). destruct n as [fs|c' cfs fs]; [discriminate Sp|]. injection Sp as -> ->. cbn [set_next next_frames].
        rewrite !upd_eq. destruct (Nat.eqb_spec u t) as [->|Nu]; [rewrite E, !sumf_app; lia|].
        destruct (Nat.eqb_spec u c) as [->|]; [|lia]. rewrite (fresh_empty _ _ R Fr). destruct b; reflexivity.
      - destruct n as [fs|]; [|discriminate Sp]. cbn [set_next next_frames]. rewrite upd_eq. destruct (Nat.eqb_spec u t) as [->|Nt]; [|lia].
        rewrite E, !sumf_app. lia. }
    assert (D : (sumf (pe pl) (next_frames n) + bnd1 pl (trace s') <= sumf (pe pl) pre + bnd1 pl (trace s)) \/
                (h_npool (hp s) = pl /\ h_npool h = S pl /\ sumf (pe pl) (next_frames n) = 1 /\ trace s' = trace s)).
    { destruct (pe_next pl _ _ _ _ _ L) as [(o & lvs & ->)|F].
      - destruct (pe_pool _ _ _ _ _ _ L) as [X [[Q ->]|Q]]; assert (Tq : trace s' = trace s) by (unfold trace, tr_of; cbn [s' hp]; now rewrite X).
        + cbn [next_frames sumf pe]. rewrite Tq. destruct (Nat.eqb_spec (h_npool (hp s)) pl) as [<-|]; [right|left]; auto. cbn [sumf]. lia.
        + destruct (Q pl) as [Q' _]. left. rewrite Tq, Q'. cbn. lia.
      - left. assert (N0 : sumf (pe pl) (next_frames n) = 0) by (apply sumf_zero; intros x Hx; rewrite Forall_forall in F; auto). rewrite N0.
        destruct (lstep_tr _ _ _ _ _ L) as [X|[e X]].
        + assert (Tq : trace s' = trace s) by (unfold trace, tr_of; cbn [s' hp]; now rewrite X). rewrite Tq. pose proof (sumf_nonneg _ _ pre (pe_nn pl)). lia.
        + assert (Tq : trace s' = trace s ++ [e]) by (unfold trace, tr_of; cbn [s' hp]; now rewrite X). rewrite Tq, bnd1_snoc.
          destruct (is_new pl e) eqn:Q; [|pose proof (sumf_nonneg _ _ pre (pe_nn pl)); lia].
          destruct e; try discriminate Q. cbn in Q. apply Nat.eqb_eq in Q. subst.
          destruct (new_frame _ _ _ _ _ _ _ _ L X) as [-> _]. cbn. rewrite Nat.eqb_refl. lia. }
    apply sumN_pt in P as [B0 P]. intros B.
    assert (Mo : blds pl s' B <= blds pl s' (B + B0)).
    { unfold blds. pose proof (sumN_nn_mono (fun u => sumf (pe pl) (stk s' u)) B (B + B0) (stk_nn pl s') ltac:(lia)). lia. }
    assert (Nn : 0 <= blds pl s' B).
    { unfold blds, bnd1, sumN. apply Z.add_nonneg_nonneg; apply sumf_nonneg; [intros; apply stk_nn|apply new_nn]. }
    specialize (P (B + B0)%nat ltac:(lia)). destruct (IH (B + B0)%nat) as [I1 I2].
    destruct D as [D|(D1 & D2 & D3 & D4)].
    + unfold blds in Mo at 2. rewrite P in Mo. unfold blds in I1, I2. split; [lia|]. intros N. assert ((h_npool (hp s) <= pl)%nat) by (cbn [s' hp] in N; pose proof (npool_mono _ _ _ _ _ L); lia).
      specialize (I2 H). unfold blds in *. lia.
    + specialize (I2 (Nat.eq_le_incl _ _ D1)). unfold blds in Mo at 2. rewrite P, D3, D4 in Mo. unfold blds in I2.
      pose proof (sumf_nonneg _ _ pre (pe_nn pl)). split; [lia|]. cbn [s' hp]. intros N. exfalso. rewrite D2 in N. lia.
Qed.
Theorem unbound : forall pl o s t, reachable s -> In (FPoolEnd o pl) (stk s t) -> ~ bound pl (trace s).
Proof.
  intros pl o s t R J Bd. apply bound_iff in Bd. destruct (one_construction pl s R (S t)) as [H _]. unfold blds in H.
  assert (1 <= sumf (pe pl) (stk s t)).
  { apply in_split in J as (a & b & ->). rewrite sumf_app. cbn [sumf pe]. rewrite Nat.eqb_refl.
    pose proof (sumf_nonneg _ _ a (pe_nn pl)). pose proof (sumf_nonneg _ _ b (pe_nn pl)). lia. }
  assert (sumf (pe pl) (stk s t) <= sumN (fun u => sumf (pe pl) (stk s u)) (S t)).
  { unfold sumN. rewrite seq_S, sumf_app. cbn [sumf Nat.add].
    match goal with |- _ <= ?a + _ => assert (0 <= a) by (apply sumf_nonneg; intros; apply stk_nn); lia end. }
  lia.
Qed.
Theorem object_bound : forall s, reachable s -> forall o pl, fst (h_pobj (hp s) o) = Some pl -> bound pl (trace s).
Proof.
  intros s R o pl H. rewrite replay_pobj in H by auto. revert o H. generalize (trace s). intros tr. induction tr as [|e tr IH] using rev_ind; intros o H.
  - discriminate H.
  - assert (M : bound pl tr -> bound pl (tr ++ [e])) by (intros (t & x & J); exists t, x; apply in_or_app; auto).
    unfold pool_of in *. rewrite fold_left_app in H. cbn in H. destruct e; cbn in H; try (apply M; eapply IH; eassumption).
    all: repeat match type of H with context [if ?b then _ else _] => destruct b end; try discriminate H; try (apply M; eapply IH; eassumption).
    injection H as ->. eexists _, _. apply in_or_app. right. left. reflexivity.
Qed.
Definition adds (pl : nat) (f : frame) : Prop :=
  match f with
  | FSched _ p _ _ _ _ | FSched1 _ p _ _ _ _ | FSched2 _ p _ _ _ _ _ | FSched3 _ p _ _ _ _ _ | FPChg p _ _ | FPChg1 p _ _ => p = pl
  | _ => False
  end.
Lemma bound_step : forall pl h t pre h' n, lstep h t pre h' n -> bound pl (tr_of h) -> bound pl (tr_of h').
Proof.
  intros pl h t pre h' n L (u & o & J). exists u, o. destruct (lstep_tr _ _ _ _ _ L) as [X|[e X]]; unfold tr_of in *; rewrite X; auto. cbn. apply in_or_app; auto.
Qed.
Lemma api_adds : forall pl c, Forall (fun f => ~ adds pl f) (api_frames c).
Proof. intros pl []; cbn [api_frames]; repeat constructor; cbn; auto. Qed.
Theorem adder_bound : forall pl s, reachable s -> forall t, Forall (fun f => adds pl f -> bound pl (trace s)) (stk s t).
Proof.
  intros pl. apply (frame_rule reachable (fun h _ f => adds pl f -> bound pl (tr_of h))); auto.
  - intros [].
  - intros [].
  - intros s d u f R J H K. destruct (H K) as (a & o & G). exists a, o. unfold tr_of in *. cbn. apply in_or_app; auto.
  - intros s t pre rest h n u f R F E L N J H K. eapply bound_step; eauto.
  - intros s t pre rest h n R E L Fp _. split.
    + pose proof (bound_step pl _ _ _ _ _ L) as M.
      assert (Ob : forall o, fst (h_pobj (hp s) o) = Some pl -> bound pl (tr_of (hp s))) by (intros o; apply (object_bound s R)).
      lstep_cases L; cbn [next_frames]; inversion Fp as [|? ? Fp1 Fp2]; subst; fl_; try (intros []; fail); cbn [adds] in *; auto.
      all: intros ->; apply M, (Ob o); cbn [atom] in A; injection A as <- <-; assumption.
    + destruct (spawned n) as [[c cfs]|] eqn:Sp; auto. destruct (lstep_spawned _ _ _ _ _ _ _ L Sp) as (_ & _ & b & ->). destruct b; cbn; repeat constructor; cbn; tauto.
Qed.

Definition adding (pl : nat) (e : event) : Prop := match e with EvJobAdd _ p _ _ _ _ | EvJobRegroup _ p _ _ => p = pl | _ => False end.
Lemma jobadd_frame : forall u0 pl0 j0 g0 p0 q0 h t pre h' n, lstep h t pre h' n -> h_tr h' = EvJobAdd u0 pl0 j0 g0 p0 q0 :: h_tr h -> exists f, pre = [f] /\ adds pl0 f.
Proof. intros u0 pl0 j0 g0 p0 q0 h t pre h' n L X. ev_cases L X; brki X; try discriminate X; injection X; intros; subst; eexists; split; reflexivity. Qed.
Lemma regroup_frame : forall u0 pl0 j0 g0 h t pre h' n, lstep h t pre h' n -> h_tr h' = EvJobRegroup u0 pl0 j0 g0 :: h_tr h -> exists f, pre = [f] /\ adds pl0 f.
Proof. intros u0 pl0 j0 g0 h t pre h' n L X. ev_cases L X; brki X; try discriminate X; injection X; intros; subst; eexists; split; reflexivity. Qed.
Lemma add_event_frame : forall pl0 h t pre h' n ev, lstep h t pre h' n -> h_tr h' = ev :: h_tr h -> adding pl0 ev -> exists f, pre = [f] /\ adds pl0 f.
Proof.
  intros pl0 h t pre h' n ev L X K. destruct ev; cbn in K; try contradiction; subst; eauto using jobadd_frame, regroup_frame.
Qed.
Theorem add_bound : forall pl s, reachable s -> at_each (fun tr e => adding pl e -> bound pl tr) (trace s).
Proof.
  intros pl. apply (event_rule reachable); auto.
  - intros s d R [].
  - intros s t pre rest h n e R U E L X K. destruct (add_event_frame _ _ _ _ _ _ _ L X K) as (f & -> & Kf).
    pose proof (adder_bound pl s R t) as F. rewrite E in F. inversion F; auto.
Qed.
Theorem entries_bound : forall pl s, reachable s -> entries_of pl (trace s) <> [] -> bound pl (trace s).
Proof.
  intros pl s R. pose proof (add_bound pl s R) as H. revert H. generalize (trace s). intros tr. induction tr as [|e tr IH] using rev_ind; intros H N.
  - elim N. reflexivity.
  - assert (M : bound pl tr -> bound pl (tr ++ [e])) by (intros (t & x & J); exists t, x; apply in_or_app; auto). apply M.
    assert (H' : at_each (fun tr e => adding pl e -> bound pl tr) tr) by (intros t1 x t2 ->; apply (H t1 x (t2 ++ [e])); now rewrite <- app_assoc).
    specialize (H tr e [] eq_refl). rewrite entries_snoc in N.
    destruct (entries_of pl tr) eqn:Q; [|apply IH; [exact H'|discriminate]].
    apply H. destruct e; cbn in *; auto; try (destruct (Nat.eqb_spec pl0 pl); auto; now elim N).
    destruct x as [[]|]; auto. destruct (Nat.eqb_spec pl0 pl); auto.
Qed.
Theorem worker_empty : forall pl lv n i s t rest, reachable s -> stk s t = FPWk pl lv n i :: rest -> entries_of pl (trace s) = [].
Proof.
  intros pl lv n i s t rest R E. pose proof (bld_reachable pl s R t) as A. rewrite E in A. destruct A as [A _]. destruct (A eq_refl) as [o J].
  destruct (entries_of pl (trace s)) eqn:Q; auto. exfalso. eapply (unbound pl o s t R); [rewrite E; right; exact J|]. apply entries_bound; auto. now rewrite Q.
Qed.
(** Workers are added before the pool object exists. *)
Theorem worker_first : forall s, reachable s -> at_each (fun tr e => match e with
  | EvWorker _ pl _ _ _ => ~ bound pl tr /\ entries_of pl tr = [] | _ => True end) (trace s).
Proof.
  apply (event_rule reachable); auto.
  intros s t pre rest h n e R U E L X. destruct e; auto.
    assert (Q : pre = [FPWk pl lv n0 i]) by (revert L X; clear; intros L X; ev_cases L X; injection X; intros; now subst).
    subst pre. pose proof (bld_reachable pl s R t) as A. rewrite E in A. destruct A as [A _]. destruct (A eq_refl) as [o J].
    split; [|exact (worker_empty _ _ _ _ _ _ _ R E)]. apply (unbound pl o s t R). rewrite E. right. exact J.
Qed.
