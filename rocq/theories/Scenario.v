(** * Scenario: a small language to write down executions.
    Used only for examples and counterexamples: a scenario that plays is an
    execution of the machine ([play_reachable]). *)
From Verif Require Import Types Core State Ops Code Machine.

Inductive cmd :=
| Lb (l : label)                       (* exactly this label *)
| Rn (t : tid) (inp n : nat)           (* up to n steps of t, as long as it can move *)
| Call (t : tid) (c : api).            (* call, then run until user code or a block *)

Fixpoint rn (s : st) (t : tid) (inp n : nat) : st :=
  match n with
  | 0 => s
  | S m => match step s (LStep t inp) with Some s' => rn s' t inp m | None => s end
  end.

Definition play1 (s : st) (c : cmd) : option st :=
  match c with
  | Lb l => step s l
  | Rn t inp n => Some (rn s t inp n)
  | Call t c => match step s (LCall t c) with Some s' => Some (rn s' t 0 1000) | None => None end
  end.

Fixpoint play (s : st) (cs : list cmd) : option st :=
  match cs with
  | [] => Some s
  | c :: r => match play1 s c with Some s' => play s' r | None => None end
  end.

Lemma run_app : forall a b s, run s (a ++ b) = match run s a with Some s' => run s' b | None => None end.
Proof. induction a; simpl; intros; auto. destruct (step s a); auto. Qed.

Lemma rn_run : forall n s t inp, exists ls, run s ls = Some (rn s t inp n).
Proof.
  induction n; simpl; intros; [exists []; auto|].
  destruct (step s (LStep t inp)) eqn:E; [|exists []; auto].
  destruct (IHn s0 t inp) as [ls H]. exists (LStep t inp :: ls). simpl. now rewrite E.
Qed.

Lemma play1_run : forall c s s', play1 s c = Some s' -> exists ls, run s ls = Some s'.
Proof.
  destruct c; simpl; intros s s' H.
  - exists [l]. simpl. now rewrite H.
  - injection H as <-. apply rn_run.
  - destruct (step s (LCall t c)) eqn:E; [|discriminate]. injection H as <-.
    destruct (rn_run 1000 s0 t 0) as [ls H]. exists (LCall t c :: ls). simpl. now rewrite E.
Qed.

Lemma play_run : forall cs s s', play s cs = Some s' -> exists ls, run s ls = Some s'.
Proof.
  induction cs; simpl; intros s s' H.
  - injection H as <-. exists []; auto.
  - destruct (play1 s a) eqn:E; [|discriminate].
    apply play1_run in E as [l1 E]. apply IHcs in H as [l2 H].
    exists (l1 ++ l2). rewrite run_app, E. auto.
Qed.

Lemma play_reachable : forall cs s, play st0 cs = Some s -> reachable s.
Proof. intros cs s H. apply play_run in H. exact H. Qed.

(** A scenario whose last state satisfies [P] is a witness. *)
Lemma witness : forall cs (P : st -> Prop), match play st0 cs with Some s => P s | None => False end -> exists s, reachable s /\ P s.
Proof.
  intros cs P H. destruct (play st0 cs) as [s|] eqn:E; [|contradiction]. exists s. split; auto. eapply play_reachable; eauto.
Qed.
Lemma witness_of : forall A (f : st -> A) cs (P : st -> A -> Prop),
  match play st0 cs with Some s => P s (f s) | None => False end -> exists s, reachable s /\ exists x, P s x.
Proof.
  intros A f cs P H. destruct (witness cs (fun s => P s (f s)) H) as (s & R & Q). eauto.
Qed.
Arguments witness_of {A} f cs.
