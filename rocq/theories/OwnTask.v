(** * OwnTask: results of functions, jobs and combinators always have an owner. *)
From Verif Require Import Types Core State Ops Code Machine Base Spec SpecKind SpecOwn Rules Events InvCtx InvBound InvStack InvRefs Contract Count Replay ReplayObj InvCv InvKind Adj Own OwnRefs OwnProm OwnDead InvPack.

(** ** A state under a promise object was made by a promise object *)
Theorem promised_purpose : forall s, reachable s -> forall q, promised q (trace s) -> purpose_is (trace s) q PuPromise.
Proof.
  apply (reachable_ind'' (fun s => forall q, promised q (trace s) -> purpose_is (trace s) q PuPromise)).
  - intros q (t & pr & []).
  - intros s s' R R' IH U Tr q (t0 & pr & J).
    assert (Old : In (EvPrm t0 pr (Some q)) (trace s) -> purpose_is (trace s') q PuPromise).
    { intros J'. assert (P : promised q (trace s)) by (exists t0, pr; auto). apply IH in P. destruct Tr as [d|t pre rest ub E L|t pre rest h n E L]; auto.
      - apply (pur_app _ [EvTick (Zpos d)]). exact P.
      - exact (lstep_pur _ _ _ _ _ L _ _ P). }
    destruct Tr as [d|t pre rest ub E L|t pre rest h n E L]; auto.
    + change (In (EvPrm t0 pr (Some q)) (trace s ++ [EvTick (Zpos d)])) in J. apply in_app_or in J as [J|[J|[]]]; auto. discriminate J.
    + destruct (lstep_tr _ _ _ _ _ L) as [Q|[e Q]]; unfold trace, tr_of in J; cbn [hp] in J; rewrite Q in J; auto.
      cbn [rev] in J. apply in_app_or in J as [J|[J|[]]]; auto. subst e.
      set (s' := mkSt h (set_next (stk s) t n rest) None) in *.
      pose proof (replay_prms pr s' R') as P. destruct (k_inv_reachable s' R') as (K & _). apply (hk_prm) with (n := pr) in K.
      rewrite P in K. unfold prom_of, trace, tr_of in K. cbn [hp s'] in K. rewrite Q in K. cbn [rev] in K. rewrite latest_snoc, Nat.eqb_refl in K.
      unfold trace, tr_of. cbn [hp s']. rewrite Q. exact K.
Qed.

(** ** A thread that is to set a state does so next *)
Definition set_top (a : option frame) (f : frame) (r : list frame) : Prop := match f with FSet _ _ | FSet1 _ _ => a = None | _ => True end.
Theorem set_top_reachable : forall s, reachable s -> forall t, adj set_top None (stk s t).
Proof.
  apply (adj_rule (fun s t => set_top)); auto.
  - intros t. cbn. destruct t; cbn; auto.
  - intros s t pre rest h n R R' E L Fp. split; [|split].
    + lstep_cases L; cbn [next_frames] in *; sh_; try exact Logic.I; reflexivity.
    + destruct rest as [|g r]; auto. intros Hg. assert (N : lasto None pre <> None).
      { assert (pre <> []) by (intros ->; inversion L). destruct pre as [|f pre]; [congruence|]. cbn. clear. revert f. induction pre; cbn; [discriminate|auto]. }
      destruct g; auto; contradiction.
    + destruct (spawned n) as [[c cfs]|] eqn:Sp; auto. destruct (lstep_spawned _ _ _ _ _ _ _ L Sp) as (_ & _ & b & ->). destruct b; cbn; auto.
Qed.
Theorem being_set_top : forall q s, reachable s -> being_set q s -> setting q s.
Proof.
  intros q s R (t & f & J & H). apply in_split in J as (a & b & E). pose proof (set_top_reachable s R t) as T. 
  eapply adj_in in T; [|exact E]. exists t, f, b. split; [|exact H].
  destruct a as [|g a]; [exact E|]. exfalso. destruct f; try contradiction; cbn in T.
  all: clear - T; revert g T; induction a; cbn; [discriminate|intros _; apply IHa].
Qed.
Theorem result_owned : forall s q x, reachable s -> purpose_is (trace s) q x -> x <> PuPromise ->
  is_ready q (trace s) \/ setting q s \/ owned q s.
Proof.
  intros s q x R P N. destruct (owner_exists_task s q R) as [H|[H|H]]; auto using being_set_top.
  - destruct P as [(t & v & J)|(tw0 & aw & w & ins & J & _)]; [left|right]; eauto 8.
  - intros Q. apply N. apply (purpose_inj s q x PuPromise R P). now apply promised_purpose.
Qed.
Theorem promise_owned : forall s q, reachable s -> created q (trace s) -> is_ready q (trace s) \/ setting q s \/ overwritten q (trace s) \/ owned q s.
Proof. intros s q R C. destruct (owner_exists s q R C) as [H|[H|[H|H]]]; auto using being_set_top. Qed.
