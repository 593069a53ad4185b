(** * ThmFire: satisfying promises and launching continuations, ready to state. *)
From Verif Require Import Types Core State Ops Code Machine Base Spec SpecApi SpecFire Rules Replay ReplayObj ThmObj InvFire InvAttach ApiSet.

Theorem setters : forall s, reachable s ->
  each_return (fun t cl tr r => match cl_api cl with
    | APSet pr v => set_spec t pr (OVal v) cl tr r
    | APSetExn pr n => set_spec t pr (OExn (XUser n)) cl tr r
    | APAbandon pr => set_spec t pr (OExn XBroken) cl tr r
    | APDtor pr => pdtor_spec t pr cl tr r
    | _ => True end) (trace s).
Proof.
  intros s R tr1 e tr2 E. pose proof (set_calls s R tr1 e tr2 E) as H. cbv beta in *. destruct e; auto.
  destruct H as (cl & rest & O & A & H). exists cl, rest. split; auto. split; auto.
  unfold set_contract in H. destruct (cl_api cl); auto; apply H; reflexivity.
Qed.
Theorem outcome_kept : forall s p o tr1 tr2, reachable s -> trace s = tr1 ++ tr2 -> outcome_of p tr1 = Some o -> outcome_of p (trace s) = Some o.
Proof.
  intros s p o tr1 tr2 R E H. pose proof (ready_once' s R) as A. rewrite E in *. clear E R.
  induction tr2 as [|e tr2 IH] using rev_ind; [now rewrite app_nil_r|]. rewrite app_assoc in *.
  assert (A1 : at_each (fun tr e => match e with EvReady _ p _ => outcome_of p tr = None | _ => True end) (tr1 ++ tr2)).
  { intros x e' y X. apply (A x e' (y ++ [e])). now rewrite X, <- app_assoc. }
  specialize (IH A1). specialize (A (tr1 ++ tr2) e [] eq_refl). unfold outcome_of in *. rewrite latest_snoc. destruct e; auto.
  destruct (Nat.eqb_spec p0 p); auto. subst. cbn in A. congruence.
Qed.
