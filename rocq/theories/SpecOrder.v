(** * SpecOrder: the order in which jobs are taken. *)
From Verif Require Import Types Spec SpecPool.

(** The job was given group [g] when it was added or by change_priority. *)
Definition given (pl j : nat) (g : group) (tr : list event) : Prop :=
  (exists t p q, In (EvJobAdd t pl j g p q) tr) \/ exists t, In (EvJobRegroup t pl j g) tr.
(** [g] is at least as urgent as [g']. *)
Definition at_least (g g' : group) : Prop := g_level g' < g_level g \/ (g_level g' = g_level g /\ g_prio g' <= g_prio g).
(** The current group of the job is the most urgent it has ever had. *)
Definition never_lowered (pl j : nat) (tr : list event) : Prop :=
  forall g g1, group_of pl j tr = Some g -> given pl j g1 tr -> at_least g g1.
