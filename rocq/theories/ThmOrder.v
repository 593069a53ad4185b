(** * ThmOrder: the order in which jobs are taken. *)
From Coq Require Import List Lia. Import ListNotations.
From Verif Require Import Types State Machine Spec SpecPool SpecOrder ThmRegistry ThmPool.

Lemma given_app : forall pl j g tr l, given pl j g tr -> given pl j g (tr ++ l).
Proof. intros pl j g tr l [(t & p & q & H)|(t & H)]; [left; exists t, p, q|right; exists t]; apply in_or_app; auto. Qed.
Lemma drop_in : forall x y l, In y (drop_one x l) -> In y l.
Proof. intros x y l. induction l as [|z l IH]; cbn; auto. destruct (entry_eqb x z); cbn; intuition. Qed.
Lemma entry_given : forall pl j g tr, In (j, g) (entries_of pl tr) -> given pl j g tr.
Proof.
  intros pl j g tr. induction tr as [|e l IH] using rev_ind; [intros []|]. unfold entries_of. rewrite fold_left_app. cbn [fold_left]. fold (entries_of pl l). intros H.
  assert (K : In (j, g) (entries_of pl l) \/ given pl j g [e]).
  { unfold given. destruct e; cbn [entries_step] in H; auto; try (destruct x as [[j0 g0]|]; auto); destruct (Nat.eqb_spec pl0 pl); subst; auto.
    - apply in_app_iff in H as [H|[H|[]]]; auto. injection H as -> ->. right. left. cbn. eauto 6.
    - apply in_app_iff in H as [H|[H|[]]]; auto. injection H as -> ->. right. right. cbn. eauto 6.
    - left. eapply drop_in; eauto.
    - left. eapply drop_in; eauto.
    - destruct H. }
  destruct K as [K|K]; [apply given_app; auto|]. destruct K as [(t & p & q & K)|(t & K)]; [left; exists t, p, q|right; exists t]; apply in_or_app; auto.
Qed.
Theorem order : forall s, reachable s -> at_each (fun tr e => match e with
  | EvJobTake _ pl j lv g => given pl j g tr /\
      forall j' g', waiting_job pl j' tr -> group_of pl j' tr = Some g' -> lv <= g_level g' -> at_least g g'
  | _ => True end) (trace s).
Proof.
  intros s R tr e tr2 E. pose proof (urgent_first s R tr e tr2 E) as H. destruct e; auto. destruct H as (W & (I & L & M) & _).
  split; [now apply entry_given|]. intros j' g' W' G' L'.
  destruct (prefix_reachable s R tr _ E) as (s1 & R1 & E1). subst tr. destruct (waiting_queued s1 pl j' R1 W') as (g1 & G1 & I1). rewrite G' in G1. injection G1 as <-.
  exact (M _ _ I1 L').
Qed.
Theorem raised_order : forall s, reachable s -> at_each (fun tr e => match e with
  | EvJobTake _ pl j lv _ => never_lowered pl j tr -> exists g, group_of pl j tr = Some g /\
      forall j' g', waiting_job pl j' tr -> group_of pl j' tr = Some g' -> lv <= g_level g' -> at_least g g'
  | _ => True end) (trace s).
Proof.
  intros s R tr e tr2 E. pose proof (urgent_first s R tr e tr2 E) as H. pose proof (order s R tr e tr2 E) as O. destruct e; auto. destruct H as (_ & _ & gc & Gc & _), O as [Gv O].
  intros N. exists gc. split; auto. intros j' g' W' G' L'. specialize (N _ _ Gc Gv). specialize (O _ _ W' G' L'). unfold at_least in *. lia.
Qed.
