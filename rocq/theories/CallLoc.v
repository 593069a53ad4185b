(** * CallLoc: a thread that is not attached stays so until it does something. *)
From Verif Require Import Types Core State Ops Code Machine Base Spec Rules Events InvQueue InvStack InvAff InvSleep Calls Contract ContractLib.

Definition no_user (fs : list frame) : bool := forallb (fun f => match f with FUser _ _ => false | _ => true end) fs.
Lemma no_user_app : forall a b, no_user (a ++ b) = no_user a && no_user b.
Proof. intros. apply forallb_app. Qed.
Lemma lstep_user : forall h t pre h' n, lstep h t pre h' n -> no_user pre = true -> new_acts t h h' = [] -> no_user (next_frames n) = true.
Proof.
  intros h t pre h' n L N A0. lstep_cases L; try (cbn in N; discriminate N);
    rewrite ?(new_acts_op _ _ _ _ _ _ _ A) in A0; cbn [op_event] in A0;
    try (unfold by_thread in A0; cbn [actor] in A0; rewrite Nat.eqb_refl in A0; discriminate A0);
    cbn [next_frames]; try reflexivity;
    repeat match goal with |- context [match ?x with _ => _ end] =>
      lazymatch x with context [match _ with _ => _ end] => fail | _ => destruct x end end; try reflexivity;
    rewrite ?no_user_app; try (destruct k; reflexivity); try (destruct c; reflexivity); try (destruct a; reflexivity);
    unfold destroy; repeat match goal with |- context [match ?x with _ => _ end] =>
      lazymatch x with context [match _ with _ => _ end] => fail | _ => destruct x end end; reflexivity.
Qed.

Theorem same_loc_calls : forall s, reachable s -> forall t,
  lnk (fun cl seg => cl_acts cl = [] -> no_user seg = true /\ (h_loc (hp s) t = None \/ h_loc (hp s) t = attached t (cl_pre cl))) (stk s t) (open_calls t (trace s)).
Proof.
  apply (seg_rule reachable (fun h t cl seg => cl_acts cl = [] -> no_user seg = true /\ (h_loc h t = None \/ h_loc h t = attached t (cl_pre cl)))); auto.
  - intros s t c u fin r R E _. split; [destruct c; reflexivity|]. cbn [cl_pre]. rewrite <- (rd_loc s R). auto.
  - intros s t' pre rest h n t cl seg R U E L D H A. destruct (H A) as [N X]. split; auto.
    destruct D as [D|(u & fin & r & ->)]; [|discriminate N].
    destruct (h_loc h t) eqn:Lo; auto.
    assert (Y : h_loc h t = h_loc (hp s) t) by (eapply lstep_loc_other; eauto; rewrite Lo; discriminate). rewrite <- Lo, Y. exact X.
  - intros s t cl pre r rest h n R U E L N NC Op H A. cbn [add_acts cl_acts cl_pre] in *. apply app_eq_nil in A as [A1 A2].
    destruct (H A1) as [Nu X]. rewrite no_user_app in *. apply andb_true_iff in Nu as [N1 N2].
    split; [rewrite N2; erewrite lstep_user; eauto|].
    clear - L A2 X. apply lstep_hstep in L. destruct L as [e Ok|T o inp h1 x Ok A]; [exact X|].
    pose proof (atom_loc _ _ _ _ _ _ _ A) as Y. rewrite (new_acts_op _ _ _ _ _ _ _ A) in A2.
    assert (Z : h_loc h1 = h_loc (hp s) \/ exists u, h_loc h1 = upd (h_loc (hp s)) u None).
    { destruct o; auto. exfalso. cbn [op_event] in A2. unfold by_thread in A2. cbn [actor] in A2. rewrite Nat.eqb_refl in A2. discriminate A2. }
    destruct Z as [->|[u ->]]; auto. unfold upd. destruct (t =? u); auto.
Qed.
Lemma noacts_same : forall s t cl cs, reachable s -> open_calls t (trace s) = cl :: cs -> cl_acts cl = [] ->
  h_loc (hp s) t = None \/ h_loc (hp s) t = attached t (cl_pre cl).
Proof.
  intros s t cl cs R Op A. pose proof (same_loc_calls s R t) as L. rewrite Op in L. inversion L as [|seg cl' u fin below cs' N S L' E1 E2]; subst.
  now apply S.
Qed.
Lemma noacts_loc : forall s t cl cs, reachable s -> open_calls t (trace s) = cl :: cs -> cl_acts cl = [] -> attached t (cl_pre cl) = None ->
  h_loc (hp s) t = None.
Proof. intros s t cl cs R Op A P. destruct (noacts_same _ _ _ _ R Op A); congruence. Qed.
