(** * SpecRestWhen: closures that keep a combinator alive. *)
From Verif Require Import Types Core State Ops Code Machine Spec.

(** The closure holds a reference to combinator [w]: it is the continuation of an input (or wraps one). *)
Fixpoint refers (w : nat) (k : task) : bool :=
  match k with
  | TPack _ (BAll v _ _) | TPack _ (BAny v _ _) => v =? w
  | TPack _ (BTask k') => refers w k'
  | _ => false
  end.
(** No closure waits in the queue of a context. *)
Definition queues_empty (s : st) : Prop := forall c, alive (hp s) c = true -> ctx_pending (h_ctxs (hp s) c) = [].
