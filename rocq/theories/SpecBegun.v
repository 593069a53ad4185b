(** * SpecBegun: the continuations that the combinators attach to their inputs. *)
From Verif Require Import Types Core State Ops Code Machine Spec.

(** The closure that when_all ([all = true], when_all_any.hpp:243, 163) or when_any (336, 68) attaches to
    input [i] of the combinator [w]. *)
Definition hook_closure (all : bool) (w i : nat) (k : task) : Prop :=
  exists q par, k = TPack q (if all then BAll w i par else BAny w i par).
(** Thread [t] has started the continuation of input [i], or has been through it. *)
Definition begun (tr : list event) (all : bool) (t : tid) (w i : nat) : Prop :=
  (exists q, In (EvHook t w i q) tr) \/ exists c k, hook_closure all w i k /\ In (EvStart t c k) tr.
(** Input [i] has its continuation in the queue of [c], or already behind it on thread [t]. *)
Definition sent (tr : list event) (all : bool) (t : tid) (c : id) (w i : nat) : Prop :=
  (exists q, In (EvHook t w i q) tr) \/ exists v k, hook_closure all w i k /\ In (EvAccept v c k) tr.
