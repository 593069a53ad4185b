(** * SpecRoot: what a future without result depends on when no thread is busy. *)
From Verif Require Import Types Core State Ops Code Machine Spec SpecKind SpecOwn SpecPool SpecWhen SpecRestWhen SpecBegun SpecState SpecStall.

(** [p] waits for [r]: [r] has no result, and the continuation with the result [p], or one of the combinator that
    makes [p], is attached to [r]. *)
Definition hangs_on (s : st) (p r : sid) : Prop :=
  ~ is_ready r (trace s) /\ exists cb, In cb (fs_cbs (h_fsts (hp s) r)) /\
  (has_cb p cb = true \/ exists all w ins i, combines (trace s) all w p ins /\ nth_error ins i = Some r /\ hook_closure all w i (cb_task cb)).
Inductive hangs (s : st) : sid -> sid -> Prop :=
| hangs_refl : forall p, hangs s p p
| hangs_step : forall p r q, hangs_on s p r -> hangs s r q -> hangs s p q.
(** A future with a cause of its own: it belongs to a promise of the user, or to a job that waits, or its closure
    is in the queue of a context that exists. *)
Definition of_promise (s : st) (p : sid) : Prop := purpose_is (trace s) p PuPromise.
Definition of_job (s : st) (p : sid) (pl j : nat) : Prop :=
  waiting_job pl j (trace s) /\ exists a g p' q', In (EvJobAdd a pl j g p' q') (trace s) /\ (p = p' \/ p = q').
Definition in_queue (s : st) (p : sid) (c : id) : Prop :=
  alive (hp s) c = true /\ exists k, In k (ctx_pending (h_ctxs (hp s) c)) /\
  (has p k = true \/ exists all w ins, combines (trace s) all w p ins /\ refers w k = true).
(** Every context that exists has a thread that sleeps in it and cannot go on. *)
Definition all_stalled (s : st) : Prop := forall c, alive (hp s) c = true -> exists t, stalled s t c.
