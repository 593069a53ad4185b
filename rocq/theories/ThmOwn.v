(** * ThmOwn: the theorems about owners of states in the form of the properties. *)
From Verif Require Import Types Core State Ops Code Machine Base Spec SpecKind SpecOwn SpecPack OwnProm OwnRun OwnDead InvKind InvPack OwnTask.

Theorem outcome : forall s t p o tr1 tr2 u, reachable s -> trace s = tr1 ++ EvReady t p o :: tr2 -> purpose_is (trace s) p (PuFun u) ->
  computed p u o tr1 \/ (o = OExn XBroken /\ ~ begun p (trace s)).
Proof. intros s t p o tr1 tr2 u R E P. destruct (out_reachable s R t p o tr1 tr2 E) as [_ H]. destruct (H u P) as [X|(X & _ & Y)]; auto. Qed.
