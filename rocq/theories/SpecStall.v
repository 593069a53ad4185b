(** * SpecStall: threads that sleep in their context and cannot go on. *)
From Verif Require Import Types Core State Ops Code Machine Spec SpecState.

(** [t] is blocked in the wait of the context [i], and [i] is registered. *)
Definition stalled (s : st) (t : tid) (i : id) : Prop := asleep s t i /\ In i (reg_ids (trace s)) /\ step s (LStep t 0) = None.
