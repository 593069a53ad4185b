(** * InvCapOrder: the order in which the elements of the tuple are built does not matter. *)
From Coq Require Import List Arith Lia Bool Permutation.
Import ListNotations.
From Verif Require Import Capture SpecCapture InvCapture.

Lemma read_in : forall l c, In c (read l) <-> In (Lval c) l \/ In (Rval c) l.
Proof.
  intros l c. unfold read. rewrite in_flat_map. split.
  - intros (a & I & J). destruct a as [d|d|d]; cbn in J; [destruct J as [->|[]]|destruct J as [->|[]]|destruct J]; auto.
  - intros [I|I]; eexists; split; try exact I; now left.
Qed.
Lemma given_in : forall l c, In c (given_up l) <-> In (Rval c) l.
Proof.
  intros l c. unfold given_up. rewrite in_flat_map. split.
  - intros (a & I & J). destruct a as [d|d|d]; cbn in J; [destruct J|destruct J as [->|[]]|destruct J]; exact I.
  - intros I; eexists; split; [exact I|now left].
Qed.

Lemma sane_perm : forall l l', Permutation l l' -> sane l -> sane l'.
Proof.
  intros l l' P. induction P as [|a l l' P IH|a b l|l l1 l2 P1 IH1 P2 IH2]; intros H; auto.
  - destruct H as [A H]. split; [|auto].
    assert (Q : forall x, In x l' -> In x l) by (intros x; apply Permutation_in; now apply Permutation_sym).
    destruct a as [c|c|c]; trivial; intros I; apply A; revert I; [rewrite !given_in|rewrite !read_in]; intuition.
  - destruct H as (A & B & H). cbn [sane].
    destruct a as [c|c|c], b as [d|d|d]; cbn [read given_up flat_map app] in *; cbn [In] in *; intuition (subst; eauto).
Qed.

Theorem any_order : forall args o m m' t, sane args -> Permutation (combine (seq 0 (length args)) args) o ->
  capture m (map snd o) = (m', t) ->
  Permutation (combine (map fst o) t) (combine (seq 0 (length args)) (map (meant m) args)) /\
  (forall c, In c (given_up args) -> m' c = None) /\ (forall c, ~ In c (given_up args) -> m' c = m c).
Proof.
  intros args o m m' t Sn P C.
  assert (Sg : forall (n : nat) (l : list arg), map snd (combine (seq n (length l)) l) = l).
  { intros n l. revert n. induction l as [|a l IH]; intros n; [reflexivity|]. cbn. now rewrite IH. }
  assert (Q : Permutation args (map snd o)) by (rewrite <- (Sg 0 args) at 1; now apply Permutation_map).
  destruct (captured _ _ _ _ (sane_perm _ _ Q Sn) C) as (-> & G & K).
  assert (E : forall c, In c (given_up args) <-> In c (given_up (map snd o))).
  { intros c. rewrite !given_in. split; apply Permutation_in; [exact Q|now apply Permutation_sym]. }
  split; [|split; intros c I; [apply G|apply K]; now rewrite <- E].
  set (g := fun x : nat * arg => (fst x, meant m (snd x))).
  assert (F : forall l, combine (map fst l) (map (meant m) (map snd l)) = map g l).
  { induction l as [|[i a] l IH]; [reflexivity|]. cbn. now rewrite IH. }
  rewrite F.
  assert (F2 : forall n l, combine (seq n (length l)) (map (meant m) l) = map g (combine (seq n (length l)) l)).
  { intros n l. revert n. induction l as [|a l IH]; intros n; [reflexivity|]. cbn. now rewrite IH. }
  rewrite F2. apply Permutation_map. now apply Permutation_sym.
Qed.
