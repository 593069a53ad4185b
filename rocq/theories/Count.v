(** * Count: a quantity carried by the frames of a thread equals the balance of the
    events the thread has performed. *)
From Verif Require Import Types Core State Ops Code Machine Base Spec Rules Events InvStack Calls Contract.

Fixpoint sumf {A} (w : A -> Z) (l : list A) : Z := match l with [] => 0%Z | x :: r => (w x + sumf w r)%Z end.
Lemma sumf_app : forall A (w : A -> Z) a b, sumf w (a ++ b) = (sumf w a + sumf w b)%Z.
Proof. induction a as [|x a IH]; intros b; cbn; auto. rewrite IH. lia. Qed.
Lemma sumf_zero : forall A (w : A -> Z) l, (forall x, In x l -> w x = 0%Z) -> sumf w l = 0%Z.
Proof. induction l as [|x l IH]; cbn; intros H; auto. rewrite H by auto. rewrite IH; auto. Qed.
Lemma sumf_nonneg : forall A (w : A -> Z) l, (forall x, (0 <= w x)%Z) -> (0 <= sumf w l)%Z.
Proof. induction l as [|x l IH]; cbn; intros H; [lia|]. specialize (H x) as Ha. specialize (IH H). lia. Qed.
Lemma sumf_ext : forall A (w v : A -> Z) l, (forall x, w x = v x) -> sumf w l = sumf v l.
Proof. induction l as [|x l IH]; cbn; intros H; auto. rewrite H, IH; auto. Qed.
Lemma sumf_add : forall A (w v : A -> Z) l, sumf (fun x => (w x + v x)%Z) l = (sumf w l + sumf v l)%Z.
Proof. induction l as [|x l IH]; cbn; auto. rewrite IH. lia. Qed.

Definition balance (d : event -> Z) (t : tid) (tr : list event) : Z := sumf d (filter (by_thread t) tr).

Theorem count_rule : forall (w : frame -> Z) (d : event -> Z),
  (forall t, sumf w (stk st0 t) = 0%Z) ->
  (forall b, sumf w (tframes b) = 0%Z) ->
  (forall s t pre rest h n, reachable s -> ubs s = None -> stk s t = pre ++ rest -> lstep (hp s) t pre h n ->
     sumf w (next_frames n) = (sumf w pre + sumf d (new_acts t (hp s) h))%Z) ->
  forall s, reachable s -> forall t, sumf w (stk s t) = balance d t (trace s).
Proof.
  intros w d H0 HB HS. apply (reachable_ind'' (fun s => forall t, sumf w (stk s t) = balance d t (trace s))).
  - intros t. rewrite H0. reflexivity.
  - intros s s' R R' IH U Tr t. destruct Tr as [d0|t' pre rest u E L|t' pre rest h n E L]; cbn [stk]; auto.
    { rewrite IH. unfold balance. change (trace (mkSt _ _ _)) with (trace s ++ [EvTick (Zpos d0)]). rewrite filter_app. cbn. now rewrite app_nil_r. }
    specialize (HS s t' pre rest h n R U E L).
    destruct (lstep_trace _ _ _ _ _ L) as (es & Et & En & _).
    change (trace _) with (tr_of h). rewrite Et.
    assert (B : balance d t (tr_of (hp s) ++ es) = (balance d t (trace s) + sumf d (filter (by_thread t) es))%Z).
    { unfold balance. change (tr_of (hp s)) with (trace s). now rewrite filter_app, sumf_app. }
    rewrite B. clear B. rewrite <- IH.
    assert (O : t <> t' -> filter (by_thread t) es = []).
    { intros N. destruct (lstep_tr _ _ _ _ _ L) as [X|[e X]].
      - assert (es = []) by (unfold tr_of in Et; rewrite X in Et; rewrite <- (app_nil_r (rev _)) in Et at 1; now apply app_inv_head in Et). now subst.
      - assert (es = [e]) by (unfold tr_of in Et; rewrite X in Et; cbn in Et; now apply app_inv_head in Et). subst. cbn.
        destruct (lstep_actor _ _ _ _ _ _ L X) as [A|A]; unfold by_thread; rewrite A; auto. destruct (Nat.eqb_spec t' t); congruence. }
    assert (M : sumf w (next_frames n ++ rest) = (sumf w (stk s t') + sumf d (filter (by_thread t') es))%Z).
    { rewrite sumf_app, HS, E, sumf_app, En. lia. }
    destruct (lstep_tst _ _ _ _ _ L) as [(b & k & inp & -> & F & N & T & ->)|[(-> & -> & _)|((fs & ->) & T & H)]]; unfold set_next.
    + destruct (Nat.eq_dec t t') as [->|Nt]; [rewrite upd_same; exact M|]. rewrite upd_other by auto. rewrite (O Nt). cbn [sumf].
      rewrite upd_eq. destruct (Nat.eqb_spec t inp) as [->|]; [|lia]. rewrite HB, (fresh_empty _ _ R F). reflexivity.
    + destruct (Nat.eq_dec t t') as [->|Nt]; [rewrite upd_same; exact M|]. rewrite upd_other by auto. rewrite (O Nt). cbn [sumf]. lia.
    + destruct (Nat.eq_dec t t') as [->|Nt]; [rewrite upd_same; exact M|]. rewrite upd_other by auto. rewrite (O Nt). cbn [sumf]. lia.
Qed.

(** The same with inequalities. *)
Theorem count_le : forall (w : frame -> Z) (d : event -> Z),
  (forall t, sumf w (stk st0 t) = 0%Z) ->
  (forall b, sumf w (tframes b) = 0%Z) ->
  (forall s t pre rest h n, reachable s -> ubs s = None -> stk s t = pre ++ rest -> lstep (hp s) t pre h n ->
     sumf w (next_frames n) <= sumf w pre + sumf d (new_acts t (hp s) h))%Z ->
  forall s, reachable s -> forall t, (sumf w (stk s t) <= balance d t (trace s))%Z.
Proof.
  intros w d H0 HB HS. apply (reachable_ind'' (fun s => forall t, (sumf w (stk s t) <= balance d t (trace s))%Z)).
  - intros t. rewrite H0. cbn. lia.
  - intros s s' R R' IH U Tr t. destruct Tr as [d0|t' pre rest u E L|t' pre rest h n E L]; cbn [stk]; auto.
    { specialize (IH t). unfold balance in *. change (trace (mkSt _ _ _)) with (trace s ++ [EvTick (Zpos d0)]). rewrite filter_app. cbn. now rewrite app_nil_r. }
    specialize (HS s t' pre rest h n R U E L).
    destruct (lstep_trace _ _ _ _ _ L) as (es & Et & En & _).
    change (trace _) with (tr_of h). rewrite Et.
    assert (B : balance d t (tr_of (hp s) ++ es) = (balance d t (trace s) + sumf d (filter (by_thread t) es))%Z).
    { unfold balance. change (tr_of (hp s)) with (trace s). now rewrite filter_app, sumf_app. }
    rewrite B. clear B. pose proof (IH t) as It. pose proof (IH t') as It'.
    assert (O : t <> t' -> filter (by_thread t) es = []).
    { intros N. destruct (lstep_tr _ _ _ _ _ L) as [X|[e X]].
      - assert (es = []) by (unfold tr_of in Et; rewrite X in Et; rewrite <- (app_nil_r (rev _)) in Et at 1; now apply app_inv_head in Et). now subst.
      - assert (es = [e]) by (unfold tr_of in Et; rewrite X in Et; cbn in Et; now apply app_inv_head in Et). subst. cbn.
        destruct (lstep_actor _ _ _ _ _ _ L X) as [A|A]; unfold by_thread; rewrite A; auto. destruct (Nat.eqb_spec t' t); congruence. }
    assert (M : (sumf w (next_frames n ++ rest) <= balance d t' (trace s) + sumf d (filter (by_thread t') es))%Z).
    { rewrite E in It'. rewrite sumf_app in *. rewrite En in HS. lia. }
    destruct (lstep_tst _ _ _ _ _ L) as [(b & k & inp & -> & F & N & T & ->)|[(-> & -> & _)|((fs & ->) & T & H)]]; unfold set_next.
    + destruct (Nat.eq_dec t t') as [->|Nt]; [rewrite upd_same; exact M|]. rewrite upd_other by auto. rewrite (O Nt). cbn [sumf].
      rewrite upd_eq. destruct (Nat.eqb_spec t inp) as [->|]; [|lia]. rewrite (fresh_empty _ _ R F) in It. cbn in It. rewrite HB. lia.
    + destruct (Nat.eq_dec t t') as [->|Nt]; [rewrite upd_same; exact M|]. rewrite upd_other by auto. rewrite (O Nt). cbn [sumf]. lia.
    + destruct (Nat.eq_dec t t') as [->|Nt]; [rewrite upd_same; exact M|]. rewrite upd_other by auto. rewrite (O Nt). cbn [sumf]. lia.
Qed.

(** Balances of all threads together. *)
Lemma balance_snoc : forall d t tr e, balance d t (tr ++ [e]) = (balance d t tr + if by_thread t e then d e else 0)%Z.
Proof. intros. unfold balance. rewrite filter_app, sumf_app. cbn. destruct (by_thread t e); cbn; lia. Qed.
Definition actors (tr : list event) : list tid := flat_map (fun e => match actor e with Some t => [t] | None => [] end) tr.
Lemma balance_other : forall d t tr, ~ In t (actors tr) -> balance d t tr = 0%Z.
Proof.
  intros d t tr. induction tr as [|e tr IH]; intros N; auto. cbn in N. rewrite in_app_iff in N.
  unfold balance in *. cbn. destruct (by_thread t e) eqn:B; [|apply IH; tauto].
  exfalso. apply N. left. unfold by_thread in B. destruct (actor e); [|discriminate B]. apply Nat.eqb_eq in B. now left.
Qed.
Lemma sum_one : forall (x : Z) t l, NoDup l -> In t l -> sumf (fun u => if u =? t then x else 0%Z) l = x.
Proof.
  intros x t l D I. induction l as [|a l IH]; [contradiction|]. apply NoDup_cons_iff in D as [N D]. cbn.
  destruct (Nat.eqb_spec a t).
  - subst. rewrite sumf_zero; [lia|]. intros y Y. destruct (Nat.eqb_spec y t); auto. now subst.
  - destruct I as [->|I]; [congruence|]. rewrite IH; auto.
Qed.
Theorem balance_total : forall d tr, (forall e, actor e = None -> d e = 0%Z) ->
  forall l, NoDup l -> incl (actors tr) l -> sumf d tr = sumf (fun t => balance d t tr) l.
Proof.
  intros d tr Z. induction tr as [|e tr IH] using rev_ind; intros l D I.
  - now rewrite (sumf_zero _ _ l).
  - rewrite sumf_app. cbn. rewrite (sumf_ext _ _ (fun t => balance d t tr + if by_thread t e then d e else 0)%Z) by (intros; apply balance_snoc).
    unfold actors in I. rewrite flat_map_app in I.
    rewrite sumf_add, <- IH; auto; [|intros x X; apply I, in_or_app; now left]. f_equal. rewrite Z.add_0_r.
    unfold by_thread. destruct (actor e) as [t|] eqn:A; [|rewrite Z by auto; symmetry; now apply sumf_zero].
    rewrite (sumf_ext _ _ (fun u => if u =? t then d e else 0%Z)) by (intros; rewrite Nat.eqb_sym; reflexivity).
    symmetry. apply sum_one; auto. apply I, in_or_app. right. cbn. rewrite A. now left.
Qed.
