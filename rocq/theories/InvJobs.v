(** * InvJobs: the job table and the queues of a pool against the history. *)
From Verif Require Import Types Core State Ops Code Machine Base Spec SpecPool Rules Events InvCtx InvQueue InvStack InvBound
  Calls Contract ContractLib Replay ReplayObj ReplayFut ThmObj.
From Coq Require Import Permutation.

(** ** Queues *)
Definition ent (h : handle) : nat * group := (hd_id h, hd_group h).
Fixpoint qs_above (m : nat) (qs : list (nat * list handle)) : Prop :=
  match qs with [] => True | (l, q) :: r => m <= l /\ qs_above (S l) r end.
Lemma qs_above_le : forall qs m n, n <= m -> qs_above m qs -> qs_above n qs.
Proof. intros [|[l q] qs] m n H; cbn; auto. intros [A B]. split; [lia|auto]. Qed.
Lemma qs_touch_above : forall qs m lv, m <= lv -> qs_above m qs -> qs_above m (qs_touch qs lv).
Proof.
  induction qs as [|[l q] qs IH]; intros m lv H A; cbn [qs_touch]; [cbn; auto|]. destruct A as [A B].
  destruct (Nat.eqb_spec l lv); [subst; cbn; auto|]. destruct (Nat.ltb_spec lv l); cbn.
  - auto.
  - split; auto. apply IH; auto. lia.
Qed.
Lemma qs_set_above : forall qs m lv v, qs_above m qs -> qs_above m (qs_set qs lv v).
Proof. induction qs as [|[l q] qs IH]; intros m lv v; cbn; auto. intros [A B]. destruct (l =? lv); cbn; auto. Qed.
Lemma qs_get_low : forall qs m l, qs_above m qs -> l < m -> qs_get qs l = [].
Proof. induction qs as [|[k q] qs IH]; intros m l; cbn; auto. intros [A B] H. destruct (Nat.eqb_spec k l); [lia|]. eapply IH; eauto. lia. Qed.
Lemma qs_get_touch : forall qs m lv l, qs_above m qs -> qs_get (qs_touch qs lv) l = qs_get qs l.
Proof.
  induction qs as [|[k q] qs IH]; intros m lv l A; cbn [qs_touch qs_get].
  - now destruct (lv =? l).
  - destruct A as [A B]. destruct (Nat.eqb_spec k lv); [subst; reflexivity|]. destruct (Nat.ltb_spec lv k); cbn [qs_get].
    + destruct (Nat.eqb_spec lv l); auto. destruct (Nat.eqb_spec k l); [lia|]. subst. symmetry. eapply qs_get_low; eauto.
    + destruct (k =? l); auto. eapply IH; eauto.
Qed.
Lemma qs_get_set : forall qs lv v l, In lv (map fst qs) -> qs_get (qs_set qs lv v) l = if l =? lv then v else qs_get qs l.
Proof.
  induction qs as [|[k q] qs IH]; intros lv v l H; cbn in *; [contradiction|].
  destruct (Nat.eqb_spec k lv); cbn.
  - subst. rewrite (Nat.eqb_sym l). destruct (lv =? l); auto.
  - destruct H as [H|H]; [congruence|]. destruct (Nat.eqb_spec k l); [|now apply IH]. subst. destruct (Nat.eqb_spec l lv); [congruence|auto].
Qed.
Lemma qs_touch_in : forall qs lv, In lv (map fst (qs_touch qs lv)).
Proof.
  induction qs as [|[k q] qs IH]; intros lv; cbn [qs_touch]; [cbn; auto|]. destruct (Nat.eqb_spec k lv); [subst; cbn; auto|].
  destruct (lv <? k); cbn; auto.
Qed.
Lemma qs_get_push : forall qs m lv h l, qs_above m qs -> qs_get (qs_push qs lv h) l = if l =? lv then qs_get qs l ++ [h] else qs_get qs l.
Proof.
  intros qs m lv h l A. unfold qs_push. cbv zeta. rewrite qs_get_set by apply qs_touch_in. rewrite !(qs_get_touch _ _ _ _ A).
  destruct (Nat.eqb_spec l lv); subst; auto.
Qed.
Lemma qs_push_above : forall qs lv h, qs_above 0 qs -> qs_above 0 (qs_push qs lv h).
Proof. intros. unfold qs_push. apply qs_set_above, qs_touch_above; auto. lia. Qed.

Lemma select_spec' : forall qs lv, qs_above 0 qs ->
  let s := select_level qs lv lv in
  lv <= s /\ forall l, lv <= l -> qs_get qs l <> [] -> l <= s.
Proof.
  intros qs lv A.
  assert (G : forall qs m s0, qs_above m qs -> (s0 <= m \/ s0 = lv) -> lv <= s0 ->
    lv <= select_level qs lv s0 /\ (forall l, lv <= l -> qs_get qs l <> [] -> l <= select_level qs lv s0) /\ s0 <= select_level qs lv s0).
  { clear. induction qs as [|[k q] qs IH]; intros m s0 A H L; cbn.
    - split; auto. split; auto. intros l _ X. now destruct X.
    - destruct A as [A B]. destruct (Nat.leb_spec lv k) as [Hk|Hk]; cbn [andb].
      + destruct q as [|h q]; cbn [negb].
        * destruct (IH (S k) s0 B ltac:(lia) L) as (C & D & E). split; auto. split; auto. intros l Hl. destruct (Nat.eqb_spec k l); [congruence|]. auto.
        * destruct (IH (S k) k B ltac:(lia) Hk) as (C & D & E). split; auto. split; [|lia]. intros l Hl. destruct (Nat.eqb_spec k l); [lia|]. auto.
      + destruct (IH (S k) s0 B ltac:(lia) L) as (C & D & E). split; auto. split; auto. intros l Hl. destruct (Nat.eqb_spec k l); [lia|]. auto. }
  destruct (G qs 0 lv A (or_intror eq_refl) (le_n _)) as (X & Y & _). auto.
Qed.
(** ** The chosen entry *)
Lemma max_prio_ge : forall q h, In h q -> g_prio (hd_group h) <= max_prio q.
Proof. induction q as [|a q IH]; intros h H; [contradiction|]. cbn. destruct H as [->|H]; [lia|]. specialize (IH h H). unfold max_prio in IH. lia. Qed.
Lemma max_prio_in : forall q, q <> [] -> exists h, In h q /\ g_prio (hd_group h) = max_prio q.
Proof.
  induction q as [|a q IH]; intros H; [congruence|]. destruct q as [|b q]; [exists a; cbn; split; auto; lia|].
  destruct IH as (h & I & E); [congruence|]. cbn in *. destruct (Nat.max_spec (g_prio (hd_group a)) (Nat.max (g_prio (hd_group b)) (max_prio q))) as [[_ M]|[_ M]];
    unfold max_prio in *; rewrite M; [exists h|exists a]; auto.
Qed.
Lemma first_max_spec : forall q m, (exists h, In h q /\ g_prio (hd_group h) = m) -> first_max q m < length q /\ forall d, g_prio (hd_group (nth (first_max q m) q d)) = m.
Proof.
  induction q as [|a q IH]; intros m (h & I & E); [contradiction|]. cbn. destruct (Nat.eqb_spec (g_prio (hd_group a)) m); [split; [lia|auto]|].
  destruct I as [->|I]; [congruence|]. destruct (IH m) as [A B]; [exists h; auto|]. split; [lia|auto].
Qed.
Lemma pq_index_spec : forall q inp d, q <> [] -> pq_index q inp < length q /\ forall h, In h q -> g_prio (hd_group h) <= g_prio (hd_group (nth (pq_index q inp) q d)).
Proof.
  intros q inp d H. assert (X : pq_index q inp < length q /\ g_prio (hd_group (nth (pq_index q inp) q d)) = max_prio q).
  { pose proof (first_max_spec q _ (max_prio_in q H)) as [A B]. unfold pq_index. destruct (nth_error q inp) as [h|] eqn:E; [|auto].
    destruct (Nat.eqb_spec (g_prio (hd_group h)) (max_prio q)); auto. split; [apply nth_error_Some; congruence|]. now rewrite (nth_error_nth _ _ d E). }
  destruct X as [A B]. split; auto. intros h I. rewrite B. now apply max_prio_ge.
Qed.
Lemma pool_top_spec : forall p lv inp, qs_above 0 (pl_queues p) ->
  match pool_top p lv inp with
  | Some d => let s := select_level (pl_queues p) lv lv in lv <= s /\ In d (qs_get (pl_queues p) s) /\
      (forall l, lv <= l -> qs_get (pl_queues p) l <> [] -> l <= s) /\
      forall h, In h (qs_get (pl_queues p) s) -> g_prio (hd_group h) <= g_prio (hd_group d)
  | None => forall l, lv <= l -> qs_get (pl_queues p) l = []
  end.
Proof.
  intros p lv inp A. unfold pool_top. destruct (select_spec' _ lv A) as [S1 S2]. set (s := select_level (pl_queues p) lv lv) in *.
  destruct (qs_get (pl_queues p) s) as [|a q] eqn:Q.
  - intros l Hl. destruct (qs_get (pl_queues p) l) eqn:E; auto. exfalso.
    assert (l <= s) by (apply S2; auto; congruence). 
    (* the selected queue is empty: no queue was selected *)
    assert (G : forall qs m s0, qs_above m qs -> (s0 <= m \/ s0 = lv) -> lv <= s0 -> select_level qs lv s0 = s0 \/ qs_get qs (select_level qs lv s0) <> []).
    { clear. induction qs as [|[k q] qs IH]; intros m s0 A H L; cbn; auto.
      destruct A as [A B]. destruct (Nat.leb_spec lv k) as [Hk|Hk]; cbn [andb].
      - destruct q as [|h q]; cbn [negb].
        + destruct (IH (S k) s0 B ltac:(lia) L) as [C|C]; auto. right. destruct (Nat.eqb_spec k (select_level qs lv s0)); auto. rewrite <- e in C.
          rewrite (qs_get_low _ _ _ B) in C by lia. auto.
        + right. destruct (IH (S k) k B ltac:(lia) Hk) as [C|C]; [rewrite C, Nat.eqb_refl; congruence|].
          destruct (Nat.eqb_spec k (select_level qs lv k)); auto; congruence.
      - destruct (IH (S k) s0 B ltac:(lia) L) as [C|C]; auto. right. destruct (Nat.eqb_spec k (select_level qs lv s0)); auto. rewrite <- e in C.
        rewrite (qs_get_low _ _ _ B) in C by lia. auto. }
    destruct (G _ 0 lv A (or_intror eq_refl) (le_n _)) as [C|C]; fold s in C; [|congruence].
    assert (l = s) by lia. congruence.
  - rewrite <- Q. pose proof (pq_index_spec (qs_get (pl_queues p) s) inp (mkHandle 0 (mkGroup 0 0)) ltac:(congruence)) as [B C]. cbv zeta.
    split; auto. split; [now apply nth_In|]. split; auto.
Qed.

(** ** The invariant *)
Record jinv (pl : nat) (p : pool) (tr : list event) : Prop := {
  ji_free : 1 <= pl_free p;
  ji_added : forall j, added pl j tr -> 1 <= j < pl_free p;
  ji_nodup : NoDup (map fst (pl_jobs p));
  ji_tab : map fst (pl_jobs p) = jobs_of pl tr;
  ji_in : forall j, In j (jobs_of pl tr) -> added pl j tr;
  ji_taken : forall j, taken pl j tr -> added pl j tr;
  ji_job : forall j x, In (j, x) (pl_jobs p) -> group_of pl j tr = Some (jb_group x) /\ (jb_callable x = TNull <-> taken pl j tr);
  ji_qs : qs_above 0 (pl_queues p);
  ji_perm : forall l, Permutation (filter (fun e => g_level (snd e) =? l) (entries_of pl tr)) (map ent (qs_get (pl_queues p) l));
  ji_ent : forall j x, In (j, x) (pl_jobs p) -> jb_callable x <> TNull -> In (j, jb_group x) (entries_of pl tr) }.

Lemma added_snoc : forall pl j tr e, added pl j (tr ++ [e]) <-> added pl j tr \/ exists t g p q, e = EvJobAdd t pl j g p q.
Proof.
  intros pl j tr e. split.
  - intros (t & g & p & q & I). apply in_app_iff in I as [I|[I|[]]]; [left; now exists t, g, p, q|right; now exists t, g, p, q].
  - intros [(t & g & p & q & I)|(t & g & p & q & ->)]; exists t, g, p, q; apply in_or_app; cbn; auto.
Qed.
Lemma taken_snoc : forall pl j tr e, taken pl j (tr ++ [e]) <-> taken pl j tr \/ exists t lv g, e = EvJobTake t pl j lv g.
Proof.
  intros pl j tr e. split.
  - intros (t & g & p & I). apply in_app_iff in I as [I|[I|[]]]; [left; now exists t, g, p|right; now exists t, g, p].
  - intros [(t & g & p & I)|(t & g & p & ->)]; exists t, g, p; apply in_or_app; cbn; auto.
Qed.
Lemma entries_snoc : forall pl tr e, entries_of pl (tr ++ [e]) = entries_step pl (entries_of pl tr) e.
Proof. intros. unfold entries_of. now rewrite fold_left_app. Qed.
Lemma group_snoc : forall pl j tr e, group_of pl j (tr ++ [e]) =
  match e with
  | EvJobAdd _ pl' j' g _ _ | EvJobRegroup _ pl' j' g => if (pl' =? pl) && (j' =? j) then Some g else group_of pl j tr
  | _ => group_of pl j tr
  end.
Proof. intros. unfold group_of. rewrite latest_snoc. destruct e; auto; now destruct (_ && _). Qed.
Definition jobev (pl : nat) (e : event) : bool :=
  match e with
  | EvJobAdd _ p _ _ _ _ | EvJobRegroup _ p _ _ | EvJobTake _ p _ _ _ | EvJobSkip _ p _ (Some _) | EvJobErase _ p _ | EvJobClear _ p _ => p =? pl
  | _ => false
  end.
Lemma jinv_other : forall pl p tr e, jobev pl e = false -> jinv pl p tr -> jinv pl p (tr ++ [e]).
Proof.
  intros pl p tr e E H.
  assert (A : forall j, added pl j (tr ++ [e]) <-> added pl j tr).
  { intros j. rewrite added_snoc. split; auto. intros [X|(? & ? & ? & ? & ->)]; auto. cbn in E. rewrite Nat.eqb_refl in E. discriminate. }
  assert (B : forall j, taken pl j (tr ++ [e]) <-> taken pl j tr).
  { intros j. rewrite taken_snoc. split; auto. intros [X|(? & ? & ? & ->)]; auto. cbn in E. rewrite Nat.eqb_refl in E. discriminate. }
  assert (C : jobs_of pl (tr ++ [e]) = jobs_of pl tr) by (rewrite jobs_of_snoc; destruct e; cbn in *; auto; now rewrite E).
  assert (D : entries_of pl (tr ++ [e]) = entries_of pl tr).
  { rewrite entries_snoc; destruct e; cbn in *; auto; try now rewrite E. destruct x as [[]|]; auto. now rewrite E. }
  assert (F : forall j, group_of pl j (tr ++ [e]) = group_of pl j tr).
  { intros j. rewrite group_snoc; destruct e; cbn in *; auto; now rewrite E. }
  destruct H. constructor; rewrite ?C, ?D; auto.
  - intros j. rewrite A. auto.
  - intros j I. rewrite A. auto.
  - intros j. rewrite A, B. auto.
  - intros j x I. rewrite B, F. auto.
Qed.

Lemma group_eqb_eq : forall a b, group_eqb a b = true <-> a = b.
Proof.
  intros [a1 a2] [b1 b2]. unfold group_eqb. cbn. split.
  - intros H. apply andb_true_iff in H as [A B]. apply Nat.eqb_eq in A, B. congruence.
  - intros H. injection H as -> ->. now rewrite !Nat.eqb_refl.
Qed.
Lemma entry_eqb_eq : forall a b, entry_eqb a b = true <-> a = b.
Proof.
  intros [a1 a2] [b1 b2]. unfold entry_eqb. cbn. split.
  - intros H. apply andb_true_iff in H as [A B]. apply Nat.eqb_eq in A. apply group_eqb_eq in B. congruence.
  - intros H. injection H as -> ->. apply andb_true_iff. split; [apply Nat.eqb_refl|now apply group_eqb_eq].
Qed.
Lemma drop_perm : forall x l, In x l -> Permutation l (x :: drop_one x l).
Proof.
  induction l as [|y l IH]; intros H; [contradiction|]. cbn. destruct (entry_eqb x y) eqn:E.
  - apply entry_eqb_eq in E. subst. auto.
  - destruct H as [->|H]; [rewrite (proj2 (entry_eqb_eq x x) eq_refl) in E; discriminate|].
    rewrite perm_swap. constructor. auto.
Qed.
Lemma drop_filter : forall f x l, filter f (drop_one x l) = if f x then drop_one x (filter f l) else filter f l.
Proof.
  induction l as [|y l IH]; [now destruct (f x)|]. cbn. destruct (entry_eqb x y) eqn:E.
  - apply entry_eqb_eq in E. subst. destruct (f y); auto. cbn. now rewrite (proj2 (entry_eqb_eq y y) eq_refl).
  - cbn. destruct (f y) eqn:Fy; rewrite IH; destruct (f x) eqn:Fx; auto. cbn. now rewrite E.
Qed.
Lemma drop_other : forall x y l, In y l -> x <> y -> In y (drop_one x l).
Proof.
  induction l as [|z l IH]; intros H N; [contradiction|]. cbn. destruct (entry_eqb x z) eqn:E.
  - apply entry_eqb_eq in E. subst. destruct H; auto; congruence.
  - destruct H as [->|H]; cbn; auto.
Qed.
Lemma remove_nth_perm : forall A (d : A) l n, n < length l -> Permutation l (nth n l d :: remove_nth n l).
Proof.
  induction l as [|a l IH]; intros n H; cbn in H; [lia|]. destruct n as [|n]; cbn; auto. rewrite perm_swap. constructor. apply IH. lia.
Qed.
Lemma remove_nth_map : forall A B (f : A -> B) l n, map f (remove_nth n l) = remove_nth n (map f l).
Proof. induction l as [|a l IH]; intros [|n]; cbn; auto. now rewrite IH. Qed.

Lemma pool_top_take : forall p lv inp, qs_above 0 (pl_queues p) -> pool_take p lv inp =
  let s := select_level (pl_queues p) lv lv in
  let qs := qs_touch (pl_queues p) s in
  match pool_top p lv inp with
  | None => (mkPool (pl_free p) (pl_workers p) (pl_jobs p) qs, None)
  | Some d =>
      let qs' := qs_set qs s (remove_nth (pq_index (qs_get (pl_queues p) s) inp) (qs_get (pl_queues p) s)) in
      match jobs_find (pl_jobs p) (hd_id d) with
      | None => (mkPool (pl_free p) (pl_workers p) (pl_jobs p) qs', None)
      | Some x =>
          if lv <=? g_level (jb_group x) then
            (mkPool (pl_free p) (pl_workers p)
                    (jobs_set (pl_jobs p) (hd_id d) (mkJob (jb_group x) TNull (jb_future x))) qs',
             if task_null (jb_callable x) then None else Some (hd_id d, jb_callable x))
          else (mkPool (pl_free p) (pl_workers p) (pl_jobs p) qs', None)
      end
  end.
Proof.
  intros p lv inp A. unfold pool_take, pool_top. cbv zeta. rewrite (qs_get_touch _ _ _ _ A). destruct (qs_get _ _); reflexivity.
Qed.

Lemma jobs_find_none : forall js j, jobs_find js j = None -> ~ In j (map fst js).
Proof. induction js as [|[k x] js IH]; cbn; auto. intros j H. destruct (Nat.eqb_spec k j); [discriminate|]. intros [X|X]; [congruence|]. now apply (IH j). Qed.
Lemma in_fst : forall A (js : list (nat * A)) j x, In (j, x) js -> In j (map fst js).
Proof. intros A js j x I. now apply (in_map fst) in I. Qed.
Lemma in_nodup : forall A (js : list (nat * A)) j x y, NoDup (map fst js) -> In (j, x) js -> In (j, y) js -> x = y.
Proof.
  induction js as [|[k z] js IH]; cbn; intros j x y N H1 H2; [contradiction|]. inversion N; subst.
  destruct H1 as [H1|H1], H2 as [H2|H2]; [congruence| | |eauto].
  - injection H1 as -> ->. apply in_fst in H2. contradiction.
  - injection H2 as -> ->. apply in_fst in H1. contradiction.
Qed.
Lemma jobs_set_in : forall js j y i x, NoDup (map fst js) -> In (i, x) (jobs_set js j y) -> (i = j /\ x = y) \/ (i <> j /\ In (i, x) js).
Proof.
  induction js as [|[k z] js IH]; cbn; intros j y i x N H; [contradiction|]. inversion N; subst. destruct (Nat.eqb_spec k j).
  - subst. destruct H as [H|H]; [injection H as <- <-; auto|]. right. split; auto. intros ->. apply in_fst in H. contradiction.
  - destruct H as [H|H]; [injection H as <- <-; auto|]. destruct (IH j y i x) as [?|[? ?]]; auto.
Qed.
Lemma waiting_iff : forall pl p tr j, jinv pl p tr -> (waiting_job pl j tr <-> exists x, In (j, x) (pl_jobs p) /\ jb_callable x <> TNull).
Proof.
  intros pl p tr j H. unfold waiting_job. rewrite <- (ji_tab _ _ _ H). split.
  - intros [A B]. apply in_map_iff in A as ((j' & x) & E & I). cbn in E. subst. exists x. split; auto. destruct (ji_job _ _ _ H _ _ I) as [_ X]. tauto.
  - intros (x & I & N). split; [eapply in_fst; eauto|]. destruct (ji_job _ _ _ H _ _ I) as [_ X]. tauto.
Qed.
Lemma in_entries : forall pl p tr d l, jinv pl p tr -> In d (qs_get (pl_queues p) l) -> In (ent d) (entries_of pl tr) /\ g_level (hd_group d) = l.
Proof.
  intros pl p tr d l H I. apply (in_map ent) in I. apply (Permutation_in _ (Permutation_sym (ji_perm _ _ _ H l))) in I.
  apply filter_In in I as [A B]. split; auto. cbn in B. now apply Nat.eqb_eq.
Qed.
Lemma entries_in : forall pl p tr j g, jinv pl p tr -> In (j, g) (entries_of pl tr) -> In (mkHandle j g) (qs_get (pl_queues p) (g_level g)).
Proof.
  intros pl p tr j g H I. assert (X : In (j, g) (map ent (qs_get (pl_queues p) (g_level g)))).
  { apply (Permutation_in _ (ji_perm _ _ _ H (g_level g))). apply filter_In. split; auto. apply Nat.eqb_refl. }
  apply in_map_iff in X as ([j' g'] & E & X). unfold ent in E. cbn in E. injection E as -> ->. exact X.
Qed.
Lemma top_urgent : forall pl p tr lv inp d, jinv pl p tr -> pool_top p lv inp = Some d -> most_urgent lv (hd_id d) (hd_group d) (entries_of pl tr).
Proof.
  intros pl p tr lv inp d H E. pose proof (pool_top_spec p lv inp (ji_qs _ _ _ H)) as X. rewrite E in X. destruct X as (A & B & C & D).
  destruct (in_entries _ _ _ _ _ H B) as [I L]. split; [exact I|]. rewrite L. split; auto. intros j' g' I' L'.
  apply (entries_in _ _ _ _ _ H) in I'. assert (Le : g_level g' <= select_level (pl_queues p) lv lv) by (apply C; auto; intros X; rewrite X in I'; contradiction).
  destruct (Nat.eq_dec (g_level g') (select_level (pl_queues p) lv lv)) as [Q|Q]; [|left; lia]. right. split; auto. rewrite Q in I'. apply (D _ I').
Qed.
Lemma top_none : forall pl p tr lv inp, jinv pl p tr -> pool_top p lv inp = None -> forall j g, In (j, g) (entries_of pl tr) -> g_level g < lv.
Proof.
  intros pl p tr lv inp H E j g I. pose proof (pool_top_spec p lv inp (ji_qs _ _ _ H)) as X. rewrite E in X.
  apply (entries_in _ _ _ _ _ H) in I. destruct (Nat.lt_ge_cases (g_level g) lv) as [L|L]; auto. rewrite (X _ L) in I. contradiction.
Qed.
(** Removing the chosen entry. *)
Lemma top_removed : forall pl p tr lv inp d, jinv pl p tr -> pool_top p lv inp = Some d ->
  let s := select_level (pl_queues p) lv lv in
  let qs' := qs_set (qs_touch (pl_queues p) s) s (remove_nth (pq_index (qs_get (pl_queues p) s) inp) (qs_get (pl_queues p) s)) in
  qs_above 0 qs' /\
  forall l, Permutation (filter (fun e => g_level (snd e) =? l) (drop_one (ent d) (entries_of pl tr))) (map ent (qs_get qs' l)).
Proof.
  intros pl p tr lv inp d H E s qs'.
  pose proof (pool_top_spec p lv inp (ji_qs _ _ _ H)) as X. rewrite E in X. destruct X as (_ & B & _). fold s in B.
  destruct (in_entries _ _ _ _ _ H B) as [I L]. split.
  { apply qs_set_above, qs_touch_above; [lia|apply (ji_qs _ _ _ H)]. }
  assert (N : pq_index (qs_get (pl_queues p) s) inp < length (qs_get (pl_queues p) s) /\ nth (pq_index (qs_get (pl_queues p) s) inp) (qs_get (pl_queues p) s) (mkHandle 0 (mkGroup 0 0)) = d).
  { unfold pool_top in E. fold s in E. destruct (qs_get (pl_queues p) s) eqn:Q; [discriminate|]. rewrite <- Q in *. split; [|congruence].
    apply pq_index_spec; [exact (mkHandle 0 (mkGroup 0 0))|congruence]. }
  destruct N as [N1 N2]. intros l. subst qs'. rewrite qs_get_set by apply qs_touch_in. rewrite drop_filter. cbn [ent snd]. rewrite L, (Nat.eqb_sym s).
  rewrite (qs_get_touch _ _ _ _ (ji_qs _ _ _ H)). destruct (Nat.eqb_spec l s) as [->|]; [|apply (ji_perm _ _ _ H)].
  pose proof (ji_perm _ _ _ H s) as P. apply Permutation_cons_inv with (a := ent d).
  rewrite <- drop_perm by (apply filter_In; split; [exact I|cbn; now apply Nat.eqb_eq]). rewrite P, remove_nth_map.
  change (ent d) with (ent d). rewrite <- N2 at 1. rewrite <- map_nth. apply remove_nth_perm. now rewrite map_length.
Qed.

(** ** The operations keep it and obey the rules *)
Ltac other_tk := rewrite taken_snoc; (split; [now left|]); (intros [?|(? & ? & ? & ?)]; [assumption|discriminate]).
Lemma jinv_add : forall pl p tr t g k pp q p' j, jinv pl p tr -> pool_add p g k q = (p', j) -> k <> TNull ->
  jinv pl p' (tr ++ [EvJobAdd t pl j g pp q]) /\ job_rules tr (EvJobAdd t pl j g pp q).
Proof.
  intros pl p tr t g k pp q p' j H E K. unfold pool_add in E. injection E as <- <-.
  pose proof (ji_free _ _ _ H) as F. assert (NA : ~ added pl (pl_free p) tr) by (intros A; apply (ji_added _ _ _ H) in A; lia).
  assert (TK : forall j, taken pl j (tr ++ [EvJobAdd t pl (pl_free p) g pp q]) <-> taken pl j tr).
  { intros j. rewrite taken_snoc. split; auto. intros [?|(? & ? & ? & ?)]; [assumption|discriminate]. }
  assert (AD : forall j, added pl j (tr ++ [EvJobAdd t pl (pl_free p) g pp q]) <-> added pl j tr \/ j = pl_free p).
  { intros j. rewrite added_snoc. split; intros [X|X]; auto; right.
    - destruct X as (? & ? & ? & ? & X). now injection X.
    - subst. now exists t, g, pp, q. }
  assert (JS : jobs_of pl (tr ++ [EvJobAdd t pl (pl_free p) g pp q]) = jobs_of pl tr ++ [pl_free p]) by (rewrite jobs_of_snoc; cbn; now rewrite Nat.eqb_refl).
  assert (ES : entries_of pl (tr ++ [EvJobAdd t pl (pl_free p) g pp q]) = entries_of pl tr ++ [(pl_free p, g)]) by (rewrite entries_snoc; cbn; now rewrite Nat.eqb_refl).
  assert (GR : forall j, group_of pl j (tr ++ [EvJobAdd t pl (pl_free p) g pp q]) = if pl_free p =? j then Some g else group_of pl j tr) by (intros j; rewrite group_snoc, Nat.eqb_refl; reflexivity).
  split; [|cbn; split; [lia|exact NA]].
  constructor; cbn [pl_free pl_jobs pl_queues]; rewrite ?JS, ?ES; auto.
  - intros j. rewrite AD. intros [A| ->]; [apply (ji_added _ _ _ H) in A; lia|lia].
  - rewrite map_app. cbn. rewrite (ji_tab _ _ _ H). eapply Permutation_NoDup; [apply Permutation_cons_append|]. constructor.
    + intros A. apply (ji_in _ _ _ H) in A. auto.
    + rewrite <- (ji_tab _ _ _ H). apply (ji_nodup _ _ _ H).
  - rewrite map_app. cbn. now rewrite (ji_tab _ _ _ H).
  - intros j I. rewrite AD. apply in_app_iff in I as [I|[I|[]]]; [left; now apply (ji_in _ _ _ H)|right; auto].
  - intros j. rewrite TK, AD. left. now apply (ji_taken _ _ _ H).
  - intros j x I. rewrite TK, GR. apply in_app_iff in I as [I|[I|[]]].
    + destruct (Nat.eqb_spec (pl_free p) j); [|now apply (ji_job _ _ _ H)]. subst. apply in_fst in I. rewrite (ji_tab _ _ _ H) in I. apply (ji_in _ _ _ H) in I. contradiction.
    + injection I as <- <-. rewrite Nat.eqb_refl. cbn. split; auto. split; [congruence|]. intros T. apply (ji_taken _ _ _ H) in T. contradiction.
  - apply qs_push_above, (ji_qs _ _ _ H).
  - intros l. rewrite (qs_get_push _ _ _ _ _ (ji_qs _ _ _ H)). rewrite filter_app. cbn. rewrite (Nat.eqb_sym l). destruct (g_level g =? l).
    + rewrite map_app. apply Permutation_app; [apply (ji_perm _ _ _ H)|reflexivity].
    + rewrite app_nil_r. apply (ji_perm _ _ _ H).
  - intros j x I N. apply in_or_app. apply in_app_iff in I as [I|[I|[]]]; [left; now apply (ji_ent _ _ _ H)|]. injection I as <- <-. right. now left.
Qed.
Lemma jinv_change : forall pl p tr t g p' j, jinv pl p tr -> pool_change p j g = (p', true) ->
  jinv pl p' (tr ++ [EvJobRegroup t pl j g]) /\ job_rules tr (EvJobRegroup t pl j g).
Proof.
  intros pl p tr t g p' j H E. unfold pool_change in E. destruct (jobs_find (pl_jobs p) j) as [x|] eqn:Jf; [|discriminate].
  destruct (task_null (jb_callable x)) eqn:Tn; [discriminate|]. destruct (group_eqb (jb_group x) g) eqn:Ge; [discriminate|]. injection E as <-.
  apply in_jobs_find in Jf. assert (N : jb_callable x <> TNull) by (intros X; rewrite X in Tn; discriminate).
  destruct (ji_job _ _ _ H _ _ Jf) as [G T].
  assert (TK : forall i, taken pl i (tr ++ [EvJobRegroup t pl j g]) <-> taken pl i tr).
  { intros i. rewrite taken_snoc. split; auto. intros [?|(? & ? & ? & ?)]; [assumption|discriminate]. }
  assert (AD : forall i, added pl i (tr ++ [EvJobRegroup t pl j g]) <-> added pl i tr).
  { intros i. rewrite added_snoc. split; auto. intros [?|(? & ? & ? & ? & ?)]; [assumption|discriminate]. }
  assert (JS : jobs_of pl (tr ++ [EvJobRegroup t pl j g]) = jobs_of pl tr) by (now rewrite jobs_of_snoc).
  assert (ES : entries_of pl (tr ++ [EvJobRegroup t pl j g]) = entries_of pl tr ++ [(j, g)]) by (rewrite entries_snoc; cbn; now rewrite Nat.eqb_refl).
  assert (GR : forall i, group_of pl i (tr ++ [EvJobRegroup t pl j g]) = if j =? i then Some g else group_of pl i tr) by (intros i; rewrite group_snoc, Nat.eqb_refl; reflexivity).
  split.
  - constructor; cbn [pl_free pl_jobs pl_queues]; rewrite ?JS, ?ES, ?jobs_set_fst; try apply H.
    + intros i. rewrite AD. apply H.
    + intros i. rewrite AD. apply H.
    + intros i. rewrite AD, TK. apply H.
    + intros i y I. rewrite TK, GR. apply (jobs_set_in _ _ _ _ _ (ji_nodup _ _ _ H)) in I as [[-> ->]|[I1 I2]].
      * rewrite Nat.eqb_refl. split; auto.
      * destruct (Nat.eqb_spec j i); [congruence|]. now apply (ji_job _ _ _ H).
    + apply qs_push_above, (ji_qs _ _ _ H).
    + intros l. rewrite (qs_get_push _ _ _ _ _ (ji_qs _ _ _ H)). rewrite filter_app. cbn. rewrite (Nat.eqb_sym l). destruct (g_level g =? l).
      * rewrite map_app. apply Permutation_app; [apply (ji_perm _ _ _ H)|reflexivity].
      * rewrite app_nil_r. apply (ji_perm _ _ _ H).
    + intros i y I Ny. apply in_or_app. apply (jobs_set_in _ _ _ _ _ (ji_nodup _ _ _ H)) in I as [[-> ->]|[I1 I2]]; [right; now left|left; now apply (ji_ent _ _ _ H)].
  - cbn. split; [apply (waiting_iff _ _ _ _ H); exists x; auto|]. rewrite G. intros X. injection X as X. rewrite (proj2 (group_eqb_eq _ _) X) in Ge. discriminate.
Qed.
Lemma jinv_clear : forall pl p tr t chk p' j x, jinv pl p tr -> pool_clear p j chk = (p', Some x) ->
  jinv pl p' (tr ++ [EvJobErase t pl [j]]) /\ job_rules tr (EvJobErase t pl [j]).
Proof.
  intros pl p tr t chk p' j x H E. pose proof (pool_clear_fst _ _ _ _ _ E) as Fs. unfold pool_clear in E. destruct (jobs_find (pl_jobs p) j) as [y|] eqn:Jf; [|discriminate].
  destruct (_ && _); [discriminate|]. injection E as <- ->. cbn [pl_jobs] in Fs. apply in_jobs_find in Jf.
  assert (TK : forall i, taken pl i (tr ++ [EvJobErase t pl [j]]) <-> taken pl i tr).
  { intros i. rewrite taken_snoc. split; auto. intros [?|(? & ? & ? & ?)]; [assumption|discriminate]. }
  assert (AD : forall i, added pl i (tr ++ [EvJobErase t pl [j]]) <-> added pl i tr).
  { intros i. rewrite added_snoc. split; auto. intros [?|(? & ? & ? & ? & ?)]; [assumption|discriminate]. }
  assert (JS : jobs_of pl (tr ++ [EvJobErase t pl [j]]) = map fst (jobs_erase (pl_jobs p) j)).
  { rewrite jobs_of_snoc. cbn. rewrite Nat.eqb_refl, Fs, (ji_tab _ _ _ H). apply filter_ext. intros a. now rewrite orb_false_r. }
  assert (ES : entries_of pl (tr ++ [EvJobErase t pl [j]]) = entries_of pl tr) by (now rewrite entries_snoc).
  assert (GR : forall i, group_of pl i (tr ++ [EvJobErase t pl [j]]) = group_of pl i tr) by (intros i; now rewrite group_snoc).
  assert (IN : forall z, In z (jobs_erase (pl_jobs p) j) -> In z (pl_jobs p)) by (intros z I; unfold jobs_erase in I; now apply filter_In in I).
  split; [|exists j; split; auto; rewrite <- (ji_tab _ _ _ H); eapply in_fst; eauto].
  constructor; cbn [pl_free pl_jobs pl_queues]; rewrite ?JS, ?ES; try apply H; auto.
  - intros i. rewrite AD. apply H.
  - rewrite Fs. apply NoDup_filter, H.
  - intros i. rewrite AD. intros I. apply H. rewrite <- (ji_tab _ _ _ H). rewrite Fs in I. now apply filter_In in I.
  - intros i. rewrite AD, TK. apply H.
  - intros i y I. rewrite TK, GR. apply H. auto.
  - intros i y I. apply H. auto.
Qed.
Lemma jinv_clear_all : forall pl p tr t, jinv pl p tr ->
  jinv pl (pool_clear_all p) (tr ++ [EvJobClear t pl (map fst (pl_jobs p))]) /\ job_rules tr (EvJobClear t pl (map fst (pl_jobs p))).
Proof.
  intros pl p tr t H. set (e := EvJobClear _ _ _).
  assert (TK : forall i, taken pl i (tr ++ [e]) <-> taken pl i tr).
  { intros i. rewrite taken_snoc. split; auto. intros [?|(? & ? & ? & ?)]; [assumption|discriminate]. }
  assert (AD : forall i, added pl i (tr ++ [e]) <-> added pl i tr).
  { intros i. rewrite added_snoc. split; auto. intros [?|(? & ? & ? & ? & ?)]; [assumption|discriminate]. }
  assert (JS : jobs_of pl (tr ++ [e]) = []).
  { rewrite jobs_of_snoc. cbn. rewrite Nat.eqb_refl, (ji_tab _ _ _ H). apply filter_none. intros a Ia. apply negb_false_iff, existsb_exists. exists a. split; auto. apply Nat.eqb_refl. }
  assert (ES : entries_of pl (tr ++ [e]) = []) by (rewrite entries_snoc; cbn; now rewrite Nat.eqb_refl).
  split; [|exact (ji_tab _ _ _ H)].
  constructor; cbn [pl_free pl_jobs pl_queues pool_clear_all]; rewrite ?JS, ?ES; try apply H; auto.
  all: try (intros i; rewrite ?AD, ?TK; apply H).
  all: try (intros i y []; fail). all: try (intros i []; fail). all: constructor.
Qed.
Lemma jinv_take : forall pl p tr t lv inp p' r, jinv pl p tr -> pool_take p lv inp = (p', r) ->
  match pool_top p lv inp, r with
  | Some d, Some (j, _) => let e := EvJobTake t pl j lv (hd_group d) in jinv pl p' (tr ++ [e]) /\ job_rules tr e
  | d, _ => let e := EvJobSkip t pl lv (option_map (fun d => (hd_id d, hd_group d)) d) in jinv pl p' (tr ++ [e]) /\ job_rules tr e
  end.
Proof.
  intros pl p tr t lv inp p' r H E. rewrite (pool_top_take _ _ _ (ji_qs _ _ _ H)) in E. cbv zeta in E.
  destruct (pool_top p lv inp) as [d|] eqn:T.
  2: { injection E as <- <-. cbn [option_map]. split; [|cbn; exact (top_none _ _ _ _ _ H T)].
       apply jinv_other; [reflexivity|]. destruct H. constructor; cbn [pl_free pl_jobs pl_queues]; auto.
       - apply qs_touch_above; auto. lia.
       - intros l. rewrite (qs_get_touch _ 0); auto. }
  pose proof (top_urgent _ _ _ _ _ _ H T) as U. destruct (top_removed _ _ _ _ _ _ H T) as [Qa Qp].
  set (qs' := qs_set _ _ _) in *.
  assert (UE : forall j x, In (j, x) (pl_jobs p) -> jb_callable x <> TNull -> ~ (j = hd_id d /\ jb_group x = hd_group d) -> In (j, jb_group x) (drop_one (ent d) (entries_of pl tr))).
  { intros j x I N X. apply drop_other; [now apply (ji_ent _ _ _ H)|]. unfold ent. intros Y. injection Y as Y1 Y2. auto. }
  (* the entry is removed and no job is taken *)
  assert (SK : forall e, e = EvJobSkip t pl lv (Some (hd_id d, hd_group d)) ->
    (forall x, In (hd_id d, x) (pl_jobs p) -> jb_callable x <> TNull -> jb_group x <> hd_group d) ->
    jinv pl (mkPool (pl_free p) (pl_workers p) (pl_jobs p) qs') (tr ++ [e])).
  { intros e -> X. set (e := EvJobSkip _ _ _ _).
    assert (TK : forall i, taken pl i (tr ++ [e]) <-> taken pl i tr).
    { intros i. rewrite taken_snoc. split; auto. intros [?|(? & ? & ? & ?)]; [assumption|discriminate]. }
    assert (AD : forall i, added pl i (tr ++ [e]) <-> added pl i tr).
    { intros i. rewrite added_snoc. split; auto. intros [?|(? & ? & ? & ? & ?)]; [assumption|discriminate]. }
    assert (JS : jobs_of pl (tr ++ [e]) = jobs_of pl tr) by (now rewrite jobs_of_snoc).
    assert (ES : entries_of pl (tr ++ [e]) = drop_one (ent d) (entries_of pl tr)) by (rewrite entries_snoc; cbn; now rewrite Nat.eqb_refl).
    assert (GR : forall i, group_of pl i (tr ++ [e]) = group_of pl i tr) by (intros i; now rewrite group_snoc).
    constructor; cbn [pl_free pl_jobs pl_queues]; rewrite ?JS, ?ES; try apply H; auto.
    - intros i. rewrite AD. apply H.
    - intros i. rewrite AD. apply H.
    - intros i. rewrite AD, TK. apply H.
    - intros i y I. rewrite TK, GR. now apply H.
    - intros i y I N. apply UE; auto. intros [-> Y]. now apply (X y). }
  destruct (jobs_find (pl_jobs p) (hd_id d)) as [x|] eqn:Jf.
  2: { injection E as <- <-. cbn [option_map]. pose proof (jobs_find_none _ _ Jf) as Nj.
       split; [apply SK; auto; intros x I _ _; apply Nj; eapply in_fst; eauto|]. cbn. split; auto. left. intros [W _]. rewrite <- (ji_tab _ _ _ H) in W. contradiction. }
  apply in_jobs_find in Jf. destruct (ji_job _ _ _ H _ _ Jf) as [G Tx].
  destruct (Nat.leb_spec lv (g_level (jb_group x))) as [Lx|Lx].
  - destruct (task_null (jb_callable x)) eqn:Tn; injection E as <- <-.
    + assert (jb_callable x = TNull) as Xn by (destruct (jb_callable x); auto; discriminate). cbn [option_map].
      split; [|cbn; split; auto; left; rewrite (waiting_iff _ _ _ _ H); intros (y & I & Ny); now rewrite <- (in_nodup _ _ _ _ _ (ji_nodup _ _ _ H) Jf I) in Ny].
      replace (jobs_set (pl_jobs p) (hd_id d) (mkJob (jb_group x) TNull (jb_future x))) with (pl_jobs p).
      * apply SK; auto. intros y I Ny. now rewrite <- (in_nodup _ _ _ _ _ (ji_nodup _ _ _ H) Jf I) in Ny.
      * assert (Ex : mkJob (jb_group x) TNull (jb_future x) = x) by (destruct x; cbn in *; now subst). rewrite Ex. clear -Jf H.
        pose proof (ji_nodup _ _ _ H) as N. revert N Jf. generalize (pl_jobs p). clear.
        induction l as [|[k z] l IH]; cbn; auto. intros N I. inversion N; subst. destruct (Nat.eqb_spec k (hd_id d)).
        -- destruct I as [I|I]; [congruence|]. subst. apply in_fst in I. contradiction.
        -- destruct I as [I|I]; [congruence|]. now rewrite <- IH.
    + assert (Nx : jb_callable x <> TNull) by (intros X; rewrite X in Tn; discriminate).
      set (e := EvJobTake t pl (hd_id d) lv (hd_group d)).
      assert (TK : forall i, taken pl i (tr ++ [e]) <-> taken pl i tr \/ i = hd_id d).
      { intros i. rewrite taken_snoc. split; intros [X|X]; auto; right; [destruct X as (? & ? & ? & X); now injection X|subst i; now exists t, lv, (hd_group d)]. }
      assert (AD : forall i, added pl i (tr ++ [e]) <-> added pl i tr).
      { intros i. rewrite added_snoc. split; auto. intros [?|(? & ? & ? & ? & ?)]; [assumption|discriminate]. }
      assert (JS : jobs_of pl (tr ++ [e]) = jobs_of pl tr) by (now rewrite jobs_of_snoc).
      assert (ES : entries_of pl (tr ++ [e]) = drop_one (ent d) (entries_of pl tr)) by (rewrite entries_snoc; cbn; now rewrite Nat.eqb_refl).
      assert (GR : forall i, group_of pl i (tr ++ [e]) = group_of pl i tr) by (intros i; now rewrite group_snoc).
      split.
      * constructor; cbn [pl_free pl_jobs pl_queues]; rewrite ?JS, ?ES, ?jobs_set_fst; try apply H; auto.
        -- intros i. rewrite AD. apply H.
        -- intros i. rewrite AD. apply H.
        -- intros i. rewrite AD, TK. intros [X| ->]; [exact (ji_taken _ _ _ H _ X)|]. apply (ji_in _ _ _ H). rewrite <- (ji_tab _ _ _ H). eapply in_fst; eauto.
        -- intros i y I. rewrite TK, GR. apply (jobs_set_in _ _ _ _ _ (ji_nodup _ _ _ H)) in I as [[-> ->]|[I1 I2]].
           ++ cbn. split; auto. tauto.
           ++ destruct (ji_job _ _ _ H _ _ I2) as [A B]. split; auto. rewrite B. tauto.
        -- intros i y I N. apply (jobs_set_in _ _ _ _ _ (ji_nodup _ _ _ H)) in I as [[-> ->]|[I1 I2]]; [cbn in N; congruence|]. apply UE; auto. intros [X _]. auto.
      * cbn. split; [apply (waiting_iff _ _ _ _ H); exists x; auto|]. split; auto. exists (jb_group x). auto.
  - injection E as <- <-. cbn [option_map]. split; [|cbn; split; auto; right; exists (jb_group x); auto].
    apply SK; auto. intros y I Ny Ey. rewrite <- (in_nodup _ _ _ _ _ (ji_nodup _ _ _ H) Jf I) in *. rewrite Ey in Lx. destruct U as (_ & U & _). lia.
Qed.

Lemma jinv_workers : forall pl p tr ws qs, jinv pl p tr -> qs_above 0 qs -> (forall l, qs_get qs l = qs_get (pl_queues p) l) ->
  jinv pl (mkPool (pl_free p) ws (pl_jobs p) qs) tr.
Proof. intros pl p tr ws qs [] A B. constructor; cbn [pl_free pl_jobs pl_queues]; auto. intros l. rewrite B. auto. Qed.
Lemma jinv0 : forall pl, jinv pl no_pool [].
Proof.
  intros pl. constructor; cbn; auto.
  all: try (intros j x []; fail). all: try (intros j (? & ? & ? & ? & []); fail). all: try (intros j (? & ? & ? & []); fail). all: try (intros j []; fail).
  all: constructor.
Qed.
Theorem jobs_inv : forall pl s, reachable s -> jinv pl (h_pools (hp s) pl) (trace s).
Proof.
  intros pl. apply (replay_rule (fun h tr => jinv pl (h_pools h pl) tr)).
  - apply jinv0.
  - intros h l d IH. apply jinv_other; auto.
  - intros h l e IH Ok. apply jinv_other; auto. destruct e; cbn in Ok; try contradiction; reflexivity.
  - intros h ? ? [] ? ? ? G O IH At NN; try contradiction; atom_split At; try exact IH; try (apply jinv_other; [reflexivity|exact IH]);
      unfold upd; match goal with |- context [if ?a =? ?b then _ else _] => destruct (Nat.eqb_spec a b) as [Eq|Ne]; [try subst b|] end;
      try exact IH; try (apply jinv_other; [cbn; try apply Nat.eqb_neq; auto|exact IH]).
    all: try (match goal with |- jobev _ _ = _ => idtac end; destruct (option_map _ _); cbn; auto; apply Nat.eqb_neq; congruence).
    all: try (match goal with |- jobev _ _ = _ => idtac end; cbn; apply Nat.eqb_neq; congruence).
    + destruct G as (_ & V & _). rewrite <- Eq, (proj1 (proj2 (proj2 V)) pl ltac:(lia)) in *. exact IH.
    + apply jinv_workers; auto; [apply qs_touch_above; [lia|apply IH]|]. intros l. apply (qs_get_touch _ 0), IH.
    + apply jinv_other; [reflexivity|]. apply jinv_workers; auto. apply IH.
    + eapply jinv_add in Heqp; [apply Heqp|exact IH|]. destruct O as (_ & _ & _ & _ & u & caps & ->). discriminate.
    + eapply jinv_change in Heqp; [apply Heqp|exact IH].
    + eapply jinv_clear in Heqp; [apply Heqp|exact IH].
    + apply jinv_clear_all, IH.
    + pose proof (jinv_take pl _ _ t _ _ _ _ IH Heqp) as X. match goal with E : pool_top _ _ _ = _ |- _ => rewrite E in X end. apply X.
    + pose proof (jinv_take pl _ _ t _ _ _ _ IH Heqp) as X. match goal with E : pool_top _ _ _ = _ |- _ => rewrite E in X end. apply X.
    + pose proof (jinv_take pl _ _ t _ _ _ _ IH Heqp) as X. match goal with E : pool_top _ _ _ = _ |- _ => rewrite E in X end. apply X.
    + apply jinv_other; [reflexivity|]. apply jinv_workers; auto. apply IH.
Qed.
Theorem job_rules_hold : forall s, reachable s -> at_each job_rules (trace s).
Proof.
  at_ev; cbn [atom] in A; cbn [job_rules].
  - destruct (pool_add _ _ _ _) as [p' j] eqn:P. injection A as _ <-. pose proof (jobs_inv n _ R) as J. unfold pool_add in P. injection P as _ <-.
    split; [pose proof (ji_free _ _ _ J); lia|]. intros Ad. apply (ji_added _ _ _ J) in Ad. lia.
  - destruct (pool_change _ _ _) as [p' b] eqn:P. injection A as _ ->. apply (jinv_change n _ _ t _ _ _ (jobs_inv n _ R) P).
  - destruct (pool_clear _ _ _) as [p' [y|]] eqn:P; [|discriminate A]. exact (proj2 (jinv_clear n _ _ t _ _ _ _ (jobs_inv n _ R) P)).
  - apply (ji_tab _ _ _ (jobs_inv n _ R)).
  - destruct (pool_take _ _ _) as [p' r] eqn:P; pose proof (jinv_take n _ _ t _ _ _ _ (jobs_inv n _ R) P) as X;
    destruct (pool_top _ _ _); try destruct r as [[]|]; inversion A; subst; apply X.
  - destruct (pool_take _ _ _) as [p' r] eqn:P; pose proof (jinv_take n _ _ t _ _ _ _ (jobs_inv n _ R) P) as X;
    destruct (pool_top _ _ _); try destruct r as [[]|]; inversion A; subst; apply X.
  - destruct (pool_take _ _ _) as [p' r] eqn:P; pose proof (jinv_take n _ _ t _ _ _ _ (jobs_inv n _ R) P) as X;
    destruct (pool_top _ _ _); try destruct r as [[]|]; inversion A; subst; apply X.
Qed.

(** A job that has left the table does not come back. *)
Lemma jobs_of_in : forall pl j tr e, In j (jobs_of pl (tr ++ [e])) -> In j (jobs_of pl tr) \/ exists t g p q, e = EvJobAdd t pl j g p q.
Proof.
  intros P j tr e H. rewrite jobs_of_snoc in H.
  destruct e; cbn [jobs_step] in H; auto;
    match type of H with In _ (if ?a =? P then _ else _) => destruct (Nat.eqb_spec a P) as [Eq|]; [rewrite Eq in *|auto] end.
  - apply in_app_iff in H as [H|[->|[]]]; auto. right. do 4 eexists. reflexivity.
  - apply filter_In in H. tauto.
  - apply filter_In in H. tauto.
Qed.
Lemma in_added : forall pl j tr, In j (jobs_of pl tr) -> added pl j tr.
Proof.
  induction tr as [|e tr IH] using rev_ind; [intros []|]. intros H. rewrite added_snoc. apply jobs_of_in in H as [H|H]; auto.
Qed.
Lemma added_app : forall pl j a b, added pl j a -> added pl j (a ++ b).
Proof. intros pl j a b (t & g & p & q & I). exists t, g, p, q. apply in_or_app. now left. Qed.
Lemma gone_for_good : forall pl j a b, at_each job_rules (a ++ b) -> added pl j a -> ~ In j (jobs_of pl a) -> ~ In j (jobs_of pl (a ++ b)).
Proof.
  intros pl j a b H A N. induction b as [|e b IH] using rev_ind; [now rewrite app_nil_r|]. rewrite app_assoc in *. intros I.
  apply jobs_of_in in I as [I|(t & g & p & q & ->)].
  - apply IH; auto. intros x e' y E. apply (H x e' (y ++ [e])). now rewrite E, <- app_assoc.
  - destruct (H (a ++ b) _ [] eq_refl) as [_ X]. apply X. now apply added_app.
Qed.
Lemma removed_never_taken : forall s pl j e a b, reachable s -> trace s = a ++ e :: b ->
  (exists t js, (e = EvJobErase t pl js \/ e = EvJobClear t pl js) /\ In j js) -> In j (jobs_of pl a) -> ~ taken pl j b.
Proof.
  intros s pl j e a b R E (t & js & Ee & Ij) Ia (t' & lv & g & I). apply in_split in I as (b1 & b2 & ->).
  pose proof (job_rules_hold s R) as H. rewrite E in H.
  assert (W : waiting_job pl j ((a ++ [e]) ++ b1)).
  { refine (proj1 (H _ (EvJobTake t' pl j lv g) b2 _)). now rewrite <- !app_assoc. }
  destruct W as [W _]. revert W. apply gone_for_good.
  - intros x e' y X. apply (H x e' (y ++ EvJobTake t' pl j lv g :: b2)).
    transitivity (((a ++ [e]) ++ b1) ++ EvJobTake t' pl j lv g :: b2); [now rewrite <- !app_assoc|]. now rewrite X, <- app_assoc.
  - apply added_app, in_added, Ia.
  - rewrite jobs_of_snoc. intros X. destruct Ee as [-> | ->]; cbn in X; rewrite Nat.eqb_refl in X; apply filter_In in X as [_ X];
      apply negb_true_iff in X; rewrite (proj2 (existsb_exists _ _)) in X; try discriminate; exists j; split; auto; apply Nat.eqb_refl.
Qed.
