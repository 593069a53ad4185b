(** * InvCapture: the values captured for a task stay together in the latest copy. *)
From Coq Require Import List Arith Lia Bool.
Import ListNotations.
From Verif Require Import Capture SpecCapture.

Lemma pass_all : forall t, pass t = t.
Proof.
  intros t. unfold pass. induction t as [|x t IH]; [reflexivity|].
  cbn [length seq map nth]. f_equal. rewrite <- seq_shift, map_map. exact IH.
Qed.

Lemma put_other : forall m c v d, d <> c -> put m c v d = m d.
Proof. intros m c v d N. unfold put. apply Nat.eqb_neq in N. now rewrite N. Qed.
Lemma put_same : forall m c v, put m c v c = v.
Proof. intros m c v. unfold put. now rewrite Nat.eqb_refl. Qed.

Lemma meant_put : forall l m c v, ~ In c (read l) -> map (meant (put m c v)) l = map (meant m) l.
Proof.
  induction l as [|a l IH]; intros m c v N; [reflexivity|].
  cbn [map]. rewrite IH.
  2:{ intros I. apply N. cbn [read flat_map]. apply in_or_app. now right. }
  f_equal. destruct a as [d|d|d]; cbn [meant]; trivial; f_equal; apply put_other; intros ->; apply N; now left.
Qed.

Lemma given_read : forall l c, In c (given_up l) -> In c (read l).
Proof.
  intros l c I. unfold given_up in I. unfold read. apply in_flat_map in I as (a & I & J). apply in_flat_map.
  exists a. split; trivial. destruct a; trivial; destruct J.
Qed.

Theorem captured : forall l m m' t, sane l -> capture m l = (m', t) ->
  t = map (meant m) l /\ (forall c, In c (given_up l) -> m' c = None) /\ (forall c, ~ In c (given_up l) -> m' c = m c).
Proof.
  induction l as [|a l IH]; intros m m' t Sn C.
  - injection C as <- <-. cbn. split; [reflexivity|]. split; [intros c []|reflexivity].
  - destruct Sn as [A Sn]. cbn [capture] in C. destruct (take m a) as [m1 x] eqn:Tk. destruct (capture m1 l) as [m2 y] eqn:Cp. injection C as <- <-.
    destruct (IH _ _ _ Sn Cp) as (Y & G & K). destruct a as [c|c|c]; cbn [take] in Tk; injection Tk as <- <-; cbn [map meant given_up flat_map app].
    + subst y. split; [reflexivity|]. split; assumption.
    + split; [subst y; f_equal; now apply meant_put|]. split.
      * intros d [->|I]; [|now apply G].
        rewrite K; [apply put_same|]. intros I. apply A. now apply given_read.
      * intros d N. rewrite K by (intros I; apply N; now right). apply put_other. intros ->. apply N. now left.
    + subst y. split; [reflexivity|]. split; assumption.
Qed.

Lemma write_len : forall l i x, length (write l i x) = length l.
Proof. induction l as [|y l IH]; intros [|i] x; cbn; trivial. now rewrite IH. Qed.
Lemma write_same : forall l i x y, nth_error l i = Some y -> nth_error (write l i x) i = Some x.
Proof. induction l as [|z l IH]; intros [|i] x y E; cbn in *; try discriminate; eauto. Qed.
Lemma write_other : forall l i j x, j <> i -> nth_error (write l i x) j = nth_error l j.
Proof.
  induction l as [|z l IH]; intros [|i] [|j] x N; cbn; trivial; try congruence. apply IH. congruence.
Qed.
Lemma some_lt : forall (l : copies) i x, nth_error l i = Some x -> i < length l.
Proof. intros l i x E. apply nth_error_Some. congruence. Qed.

Theorem stays : forall acts l l' i t, nth_error l i = Some (Some t) -> history l acts = Some l' ->
  untouched i (length l) acts -> nth_error l' (latest i (length l) acts) = Some (Some t).
Proof.
  induction acts as [|a acts IH]; intros l l' i t E H U; [injection H as <-; exact E|].
  cbn [history] in H. destruct (perform l a) as [[l1 o]|] eqn:P; [|discriminate].
  destruct a as [j|j vs|j]; cbn [perform] in P; destruct (nth_error l j) as [[t1|]|] eqn:J; try discriminate; injection P as <- <-; cbn [latest untouched] in *.
  - assert (L : length (write l j (Some (map leave t1)) ++ [Some t1]) = S (length l)) by (rewrite app_length, write_len; cbn; lia).
    rewrite <- L in U |- *. eapply IH; eauto.
    destruct (Nat.eqb_spec j i) as [->|N].
    + rewrite E in J. injection J as <-. rewrite nth_error_app2, write_len, Nat.sub_diag by (rewrite write_len; lia). reflexivity.
    + rewrite nth_error_app1 by (rewrite write_len; eapply some_lt; eassumption). rewrite write_other by congruence. exact E.
  - destruct U as [N U]. rewrite <- (write_len l j (Some (refill t1 vs))) in U |- *. eapply IH; eauto. rewrite write_other by congruence. exact E.
  - destruct U as [N U]. rewrite <- (write_len l j None) in U |- *. eapply IH; eauto. rewrite write_other by congruence. exact E.
Qed.

Lemma emptied_leave : forall t, emptied t (map leave t).
Proof. induction t as [|x t IH]; constructor; trivial. now destruct x. Qed.
Lemma emptied_again : forall t t1, emptied t t1 -> map leave t1 = t1.
Proof. intros t t1 E. induction E as [|x y a b X E IH]; [reflexivity|]. cbn. rewrite IH. f_equal. now destruct x; subst y. Qed.

Theorem others_empty : forall acts l l' i t, nth_error l i = Some (Some t) ->
  (forall j t', j <> i -> nth_error l j = Some (Some t') -> emptied t t') ->
  history l acts = Some l' -> untouched i (length l) acts -> uncalled acts ->
  forall j t', j <> latest i (length l) acts -> nth_error l' j = Some (Some t') -> emptied t t'.
Proof.
  induction acts as [|a acts IH]; intros l l' i t E O H U NC; [injection H as <-; exact O|].
  cbn [history] in H. destruct (perform l a) as [[l1 o]|] eqn:P; [|discriminate].
  assert (NC' : uncalled acts) by (intros k vs I; apply (NC k vs); now right).
  destruct a as [j|j vs|j]; cbn [perform] in P; destruct (nth_error l j) as [[t1|]|] eqn:J; try discriminate; injection P as <- <-; cbn [latest untouched] in *.
  - assert (L : length (write l j (Some (map leave t1)) ++ [Some t1]) = S (length l)) by (rewrite app_length, write_len; cbn; lia).
    rewrite <- L in U |- *. eapply IH; eauto.
    + destruct (Nat.eqb_spec j i) as [->|N].
      * rewrite E in J. injection J as <-. rewrite nth_error_app2, write_len, Nat.sub_diag by (rewrite write_len; lia). reflexivity.
      * rewrite nth_error_app1 by (rewrite write_len; eapply some_lt; eassumption). rewrite write_other by congruence. exact E.
    + intros k t' N K. destruct (Nat.lt_ge_cases k (length l)) as [Lt|Ge].
      * rewrite nth_error_app1 in K by (rewrite write_len; exact Lt). destruct (Nat.eq_dec k j) as [->|Nk].
        -- erewrite write_same in K by eassumption. injection K as <-. destruct (Nat.eqb_spec j i) as [->|Nj].
           ++ rewrite E in J. injection J as <-. apply emptied_leave.
           ++ pose proof (O _ _ Nj J) as Em. now rewrite (emptied_again _ _ Em).
        -- rewrite write_other in K by exact Nk. revert N. destruct (Nat.eqb_spec j i) as [->|Nj]; intros N; eapply O; eauto.
      * rewrite nth_error_app2, write_len in K by (rewrite write_len; exact Ge). destruct (k - length l) as [|m] eqn:Km; [|destruct m; discriminate].
        injection K as <-. revert N. destruct (Nat.eqb_spec j i) as [->|Nj]; intros N; [exfalso; lia|]. exact (O _ _ Nj J).
  - exfalso. apply (NC j vs). now left.
  - destruct U as [N U]. rewrite <- (write_len l j None) in U |- *. eapply IH; eauto; [now rewrite write_other by congruence|].
    intros k t' Nk K. destruct (Nat.eq_dec k j) as [->|Nj]; [erewrite write_same in K by eassumption; discriminate|].
    rewrite write_other in K by exact Nj. eapply O; eauto.
Qed.

Theorem delivered : forall args m m' t acts l vs, sane args -> capture m args = (m', t) ->
  history [Some t] acts = Some l -> untouched 0 1 acts ->
  exists l', perform l (Run (latest 0 1 acts) vs) = Some (l', Some (map (meant m) args)).
Proof.
  intros args m m' t acts l vs Sn C H U. destruct (captured _ _ _ _ Sn C) as (-> & _).
  pose proof (stays acts [Some (map (meant m) args)] l 0 _ eq_refl H U) as N. cbn [length] in N.
  cbn [perform]. rewrite N, pass_all. eauto.
Qed.
Theorem only_once : forall t acts l j t' vs l' x, history [Some t] acts = Some l -> untouched 0 1 acts -> uncalled acts ->
  j <> latest 0 1 acts -> nth_error l j = Some (Some t') -> perform l (Run j vs) = Some (l', Some x) -> emptied t x.
Proof.
  intros t acts l j t' vs l' x H U NC N J P. cbn [perform] in P. rewrite J, pass_all in P. injection P as <- <-.
  refine (others_empty acts [Some t] l 0 t eq_refl _ H U NC j t' N J).
  intros [|[|k]] t2 K X; [congruence|discriminate X|discriminate X].
Qed.
