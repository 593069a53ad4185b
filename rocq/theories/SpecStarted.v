(** * SpecStarted: a packaged function on its way to its result. *)
From Verif Require Import Types Core State Ops Code Machine Spec SpecWhere.

(** The frame of a thread that is running the closure made for the state [q]: it is about to call it, is
    inside its try block, or is storing the outcome (future.hpp:630-648). *)
Definition busy_with (q : sid) (f : frame) : Prop :=
  match f with
  | FRun k => packs q k
  | FPackGuard p | FSet p _ | FSet1 p _ => p = q
  | _ => False
  end.
