(** * InvStack: the shape of the stacks.
    A running thread has a stack that ends in its [FEnd] frame; a thread that
    was never started or has ended has an empty stack. *)
From Verif Require Import Types Core State Ops Code Machine Base Spec Rules.

Definition is_end (f : frame) : bool := match f with FEnd => true | _ => false end.
Definition no_end (fs : list frame) : bool := forallb (fun f => negb (is_end f)) fs.

Lemma no_end_app : forall a b, no_end (a ++ b) = no_end a && no_end b.
Proof. intros. unfold no_end. apply forallb_app. Qed.

Lemma no_end_api : forall c, no_end (api_frames c) = true.
Proof. destruct c; reflexivity. Qed.
Lemma no_end_destroy : forall ks, no_end (destroy ks) = true.
Proof. destruct ks; reflexivity. Qed.
Lemma no_end_lresume : forall c ok b, no_end (lresume c ok b) = true.
Proof. intros [] ok []; reflexivity. Qed.
Lemma no_end_wresume : forall k b, no_end (wresume k b) = true.
Proof. intros [] b; reflexivity. Qed.
Lemma no_end_gresume : forall k b, no_end (gresume k b) = true.
Proof. intros [] b; reflexivity. Qed.
Lemma no_end_semresume : forall k b, no_end (semresume k b) = true.
Proof. intros [| |p [d|] g|] []; reflexivity. Qed.
Lemma no_end_wafter : forall w a, no_end (wresume_after w a) = true.
Proof. intros w []; reflexivity. Qed.
Lemma no_end_pact : forall o pl a, no_end (pact_frames o pl a) = true.
Proof. intros o pl []; reflexivity. Qed.
Lemma no_end_sp : forall n i k, no_end (spresume n i k) = true.
Proof. intros n i []; reflexivity. Qed.
Lemma no_end_ufin : forall f v, no_end (ufin_ret f v) = true.
Proof. intros [] v; reflexivity. Qed.


Ltac ne := cbn [next_frames run_one app]; rewrite ?no_end_app;
  cbn [no_end forallb negb is_end andb];
  fold no_end; rewrite ?no_end_api, ?no_end_destroy, ?no_end_lresume, ?no_end_wresume, ?no_end_gresume, ?no_end_semresume,
    ?no_end_wafter, ?no_end_pact, ?no_end_sp, ?no_end_ufin; try reflexivity.

Lemma lstep_no_end : forall h t pre h' n, lstep h t pre h' n -> no_end (next_frames n) = true.
Proof.
  intros h t pre h' n L. lstep_cases L; try solve [ne].
  all: cbn [next_frames];
    repeat (match goal with |- context [match ?x with _ => _ end] => destruct x end; try solve [ne]).
Qed.

Definition running (s : tstat) : bool := match s with TRun _ => true | _ => false end.

(** Effect of an operation on the status of the native threads. *)
Lemma atom_tst : forall h t T (o : op T) inp h' x, atom h t o inp = AOk h' x ->
  match o with
  | OSpawn => fresh_thread (h_tst h inp) = true /\ inp <> t /\
              h_tst h' = upd (h_tst h) inp (TRun true)
  | OThEnd => (forall u, u <> t -> h_tst h' u = h_tst h u) /\ running (h_tst h' t) = false
  | _ => forall u, running (h_tst h' u) = running (h_tst h u)
  end.
Proof.
  intros h t T o inp h' x H.
  destruct o; cbn [atom] in H; try discriminate H;
    try solve [op_unfold H; brki H; try discriminate H; inversion H; subst; intros; hs; reflexivity].
  - destruct (fresh_thread (h_tst h inp)) eqn:F; [|discriminate H].
    destruct (Nat.eqb_spec inp t); [discriminate H|]. cbn in H. inversion H; subst. hs. auto.
  - inversion H; subst. hs. split.
    + intros. now rewrite upd_other.
    + rewrite upd_same. destruct (h_tst h t); auto.
  - destruct (h_tst h t0) eqn:E; try discriminate H. inversion H; subst. intros u. hs. rewrite upd_eq.
    destruct (Nat.eqb_spec u t0); subst; auto. now rewrite E.
  - inversion H; subst. intros u. hs. rewrite upd_eq.
    destruct (Nat.eqb_spec u t0); subst; auto. destruct (h_tst h t0); auto.
Qed.

(** Every move except starting and ending a thread. *)
Lemma lstep_tst : forall h t pre h' n, lstep h t pre h' n ->
  (exists b k inp, pre = [FSpawn b k] /\ fresh_thread (h_tst h inp) = true /\ inp <> t /\
     h_tst h' = upd (h_tst h) inp (TRun true) /\
     n = GoSpawn inp (tframes b) (match k with SpStd => [FRes (RThread inp invalid_id)] | _ => [FSpReg inp k] end)) \/
  (pre = [FEnd] /\ n = Go [] /\ (forall u, u <> t -> h_tst h' u = h_tst h u) /\ running (h_tst h' t) = false) \/
  ((exists fs, n = Go fs) /\ (forall u, running (h_tst h' u) = running (h_tst h u)) /\ hd FEnd pre <> FEnd).
Proof.
  intros h t pre h' n L. lstep_cases L;
    try solve [right; right; split; [eexists; reflexivity|]; split; [|discriminate];
               first [intros; reflexivity | exact (atom_tst _ _ _ _ _ _ _ A)]].
  1-5: left; apply atom_tst in A as A'; destruct A' as (F & N & E);
    assert (x = inp) by (cbn in A; destruct (_ && _); [now inversion A|discriminate A]);
    subst x; do 2 eexists; exists inp; split; [reflexivity|]; auto.
  right. left. apply atom_tst in A as [A B]. auto.
Qed.

Definition stk_ok (s : tstat) (fs : list frame) : Prop :=
  if running s then exists fs0, fs = fs0 ++ [FEnd] /\ no_end fs0 = true else fs = [].
Definition stk_inv (s : st) : Prop := forall t, stk_ok (h_tst (hp s) t) (stk s t).

Lemma no_end_split : forall pre rest fs0, pre ++ rest = fs0 ++ [FEnd] -> no_end fs0 = true ->
  pre <> [] -> hd FEnd pre <> FEnd -> (length pre <= 2 /\ (forall f g, pre = [f; g] -> g <> FEnd)) ->
  exists fs1, rest = fs1 ++ [FEnd] /\ no_end fs1 = true.
Proof.
  intros pre rest fs0 E N P H (L & G).
  destruct pre as [|f pre]; [congruence|]. cbn in H.
  destruct fs0 as [|f0 fs0]; cbn in E.
  { injection E as -> E. congruence. }
  injection E as <- E. cbn in N. apply andb_true_iff in N as [_ N].
  destruct pre as [|g pre]; cbn in E; [now exists fs0|].
  destruct pre as [|? ?]; [|cbn in L; lia]. cbn in E.
  destruct fs0 as [|g0 fs0]; cbn in E.
  { injection E as -> E. exfalso. now apply (G f FEnd). }
  injection E as <- E. cbn in N. apply andb_true_iff in N as [_ N]. now exists fs0.
Qed.

Lemma lstep_pre : forall h t pre h' n, lstep h t pre h' n ->
  pre <> [] /\ length pre <= 2 /\ (forall f g, pre = [f; g] -> g <> FEnd).
Proof.
  intros h t pre h' n L. destruct L; cbn; repeat split; try discriminate; auto;
    intros f0 g0 E; injection E as <- <-; try discriminate.
  intros ->. cbn in H. destruct H as (x & A & _). discriminate A.
Qed.

Theorem stk_inv_reachable : forall s, reachable s -> stk_inv s.
Proof.
  apply reachable_ind'.
  - intros t. unfold stk_ok. cbn. destruct t; cbn; auto. exists [FUser 0 UPlain]. auto.
  - intros s s' _ IH _ Tr. destruct Tr as [d|t pre rest u E L|t pre rest h n E L].
    + exact IH.
    + exact IH.
    + intros u. cbn [hp stk]. pose proof (IH u) as IHu. pose proof (IH t) as IHt.
      pose proof (lstep_no_end _ _ _ _ _ L) as NE.
      destruct (lstep_pre _ _ _ _ _ L) as (P1 & P2 & P3).
      apply lstep_tst in L as [(b & k & inp & -> & F & N & T & ->)|[(-> & -> & T & R)|((fs & ->) & T & H)]].
      * unfold set_next. rewrite T. destruct (Nat.eq_dec u t) as [->|Nt].
        -- rewrite upd_other by auto. rewrite upd_same.
           unfold stk_ok in *. destruct (running (h_tst (hp s) t)).
           ++ destruct IHt as (fs0 & Et & Nf). rewrite E in Et.
              apply no_end_split in Et as (fs1 & -> & N1); auto; try discriminate.
              exists (next_frames (GoSpawn inp (tframes b) (match k with
                 SpStd => [FRes (RThread inp invalid_id)] | _ => [FSpReg inp k] end)) ++ fs1). split.
              ** now rewrite <- app_assoc.
              ** rewrite no_end_app, NE, N1. reflexivity.
           ++ rewrite E in IHt. discriminate.
        -- rewrite (upd_other _ (upd (stk s) _ _) t) by auto. destruct (Nat.eq_dec u inp) as [->|Ni].
           ++ rewrite !upd_same. unfold stk_ok. cbn. destruct b; cbn.
              ** now exists [FRegSelf; FLoop; FUnreg].
              ** now exists [FRegSelf; FWait None WOnce; FUnreg].
              ** now exists [FUStart u None UPlain].
           ++ rewrite !upd_other by auto. exact IHu.
      * unfold set_next. destruct (Nat.eq_dec u t) as [->|Nt].
        -- rewrite upd_same. unfold stk_ok in *. rewrite R. cbn.
           destruct (running (h_tst (hp s) t)); [|rewrite E in IHt; discriminate].
           destruct IHt as (fs0 & Et & Nf). rewrite E in Et.
           destruct fs0 as [|f0 fs0]; [now injection Et|].
           cbn in Et. injection Et as <- Et. discriminate Nf.
        -- rewrite upd_other, T by auto. exact IHu.
      * unfold set_next. destruct (Nat.eq_dec u t) as [->|Nt].
        -- rewrite upd_same. unfold stk_ok in *. rewrite T.
           destruct (running (h_tst (hp s) t)).
           ++ destruct IHt as (fs0 & Et & Nf). rewrite E in Et.
              apply no_end_split in Et as (fs1 & -> & N1); auto.
              exists (fs ++ fs1). split; [now rewrite <- app_assoc|].
              rewrite no_end_app, N1. change (no_end fs = true) in NE. now rewrite NE.
           ++ destruct pre; [congruence|]. rewrite E in IHt. discriminate.
        -- rewrite upd_other by auto. unfold stk_ok in *. now rewrite T.
Qed.

(** A thread that may be started has no frames. *)
Lemma fresh_empty : forall s n, reachable s -> fresh_thread (h_tst (hp s) n) = true -> stk s n = [].
Proof.
  intros s n R F. pose proof (stk_inv_reachable s R n) as H. unfold stk_ok in H.
  destruct (h_tst (hp s) n); cbn in *; auto. discriminate.
Qed.
