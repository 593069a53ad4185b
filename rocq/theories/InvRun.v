(** * InvRun: tasks that have started and not ended are frames of the stack. *)
From Verif Require Import Types Core State Ops Code Machine Base Spec SpecApi Rules Events InvCtx InvQueue InvStack Calls Contract Count.

Definition wrun (i : id) (f : frame) : Z := match f with FPoEnd j => if j =? i then 1%Z else 0%Z | _ => 0%Z end.
Definition drun (i : id) (e : event) : Z :=
  match e with
  | EvStart _ j _ => if j =? i then 1%Z else 0%Z
  | EvDone _ j | EvAbort _ j => if j =? i then (-1)%Z else 0%Z
  | _ => 0%Z
  end.
Lemma wrun_destroy : forall i ks, sumf (wrun i) (destroy ks) = 0%Z.
Proof. destruct ks; reflexivity. Qed.
Lemma wrun_lresume : forall i c ok b, sumf (wrun i) (lresume c ok b) = 0%Z.
Proof. intros i [] ok []; reflexivity. Qed.
Lemma wrun_wresume : forall i k b, sumf (wrun i) (wresume k b) = 0%Z.
Proof. intros i [] b; reflexivity. Qed.

Lemma lstep_run : forall i h t pre h' n, lstep h t pre h' n ->
  sumf (wrun i) (next_frames n) = (sumf (wrun i) pre + sumf (drun i) (new_acts t h h'))%Z.
Proof.
  intros i h t pre h' n L. lstep_cases L; cbn [next_frames];
    try (rewrite (new_acts_op _ _ _ _ _ _ _ A); cbn [op_event]);
    try (erewrite (new_acts_one t h) by reflexivity); unfold by_thread; cbn [actor]; rewrite ?Nat.eqb_refl; cbn [sumf drun wrun app];
    try reflexivity;
    try (repeat match goal with |- context [match ?x with _ => _ end] => 
      lazymatch x with context [match _ with _ => _ end] => fail | _ => destruct x end end; reflexivity).
  all: repeat match goal with |- context [match ?x with _ => _ end] =>
      lazymatch x with context [match _ with _ => _ end] => fail | actor _ => fail | _ =>
        destruct x; cbn [actor fst snd]; rewrite ?Nat.eqb_refl end end;
    unfold run_one; cbn [app]; rewrite ?sumf_app, ?wrun_destroy, ?wrun_lresume, ?wrun_wresume; cbn [sumf drun wrun]; rewrite ?wrun_lresume, ?wrun_wresume; try lia.
  all: try (destruct (c =? i); lia).
  - destruct c; reflexivity.
  - destruct fin; reflexivity.
  - destruct k; reflexivity.
  - destruct k as [| |p [d|] g|], st; reflexivity.
  - destruct g; reflexivity.
  - destruct a; reflexivity.
  - destruct a; reflexivity.
Qed.
Theorem run_reachable : forall i s, reachable s -> forall t, sumf (wrun i) (stk s t) = balance (drun i) t (trace s).
Proof.
  intros i. apply count_rule.
  - intros []; reflexivity.
  - intros []; reflexivity.
  - intros s t pre rest h n R U E L. now apply lstep_run.
Qed.

Lemma drun_sum : forall i tr, sumf (drun i) tr = (Z.of_nat (length (started i tr)) - Z.of_nat (completed i tr) - Z.of_nat (aborted i tr))%Z.
Proof.
  intros i tr. induction tr as [|e tr IH]; [reflexivity|].
  unfold started, completed, aborted in *. cbn [sumf flat_map filter]. rewrite IH, app_length.
  destruct e; cbn [drun]; try (cbn; lia); destruct (i0 =? i); cbn [length]; lia.
Qed.
Lemma wrun_nonneg : forall i f, (0 <= wrun i f)%Z.
Proof. intros i f. destruct f; cbn; try lia. destruct (_ =? _); lia. Qed.
Theorem ended_started : forall i s, reachable s -> completed i (trace s) + aborted i (trace s) <= length (started i (trace s)).
Proof.
  intros i s R. pose proof (drun_sum i (trace s)) as D.
  rewrite (balance_total (drun i) (trace s)) with (l := nodup Nat.eq_dec (actors (trace s))) in D.
  - assert (0 <= sumf (fun t => balance (drun i) t (trace s)) (nodup Nat.eq_dec (actors (trace s))))%Z; [|lia].
    apply sumf_nonneg. intros t. rewrite <- run_reachable by auto. apply sumf_nonneg, wrun_nonneg.
  - intros e. destruct e; cbn; auto; discriminate.
  - apply NoDup_nodup.
  - intros x. now rewrite nodup_In.
Qed.
