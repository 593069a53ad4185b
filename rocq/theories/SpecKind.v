(** * SpecKind: what a shared state was created for. *)
From Verif Require Import Types Spec.
(** [p] was created for [x]. *)
Definition purpose_is (tr : list event) (p : sid) (x : purpose) : Prop :=
  (exists t v, In (EvState t p v x) tr) \/ (exists t a w ins, In (EvWhen t a w p ins) tr /\ x = PuWhen w).
(** The purpose of the result state of a packaged task. *)
Definition bpur (b : body) : purpose :=
  match b with
  | BUser u _ | BThen _ _ u _ => PuFun u
  | BTask _ => PuJob
  | BAll w i p => PuHook true w i p
  | BAny w i p => PuHook false w i p
  end.
