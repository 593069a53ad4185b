(** * SpecPack: what the result of a packaged function may be. *)
From Verif Require Import Types Core State Ops Code Machine Spec SpecKind SpecOwn.
(** The call of the function [u] bound to the state [p] has ended with [o]. *)
Definition gives_out (r : res) (o : outcome) : Prop := match r with RVal v => o = OVal v | RExn e => o = OExn e | _ => False end.
Definition computed (p : sid) (u : nat) (o : outcome) (tr : list event) : Prop :=
  exists t r, In (EvUserEnd t u (Some p) r) tr /\ gives_out r o.
(** The function bound to [p] has been started. *)
Definition begun (p : sid) (tr : list event) : Prop := exists t u a, In (EvUser t u a (Some p)) tr.
