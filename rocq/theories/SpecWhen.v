(** * SpecWhen: what the future of when_all and when_any holds. *)
From Verif Require Import Types Spec.

(** Combinator [w], a when_all if [all] and a when_any if not, combined the states
    [ins], in this order, into the state [p]. *)
Definition combines (tr : list event) (all : bool) (w : nat) (p : sid) (ins : list sid) : Prop :=
  exists t, In (EvWhen t all w p ins) tr.
(** The continuation that combinator [w] attached to its input number [i] has run. *)
Definition hooked (tr : list event) (w i : nat) : Prop := exists t q, In (EvHook t w i q) tr.
(** The outcome of a combinator over [ins]: for when_all the inputs, all ready; for
    when_any the inputs with the position of one that is ready; or the promise was
    abandoned, for when_all only while the continuation of some input has not run and
    for when_any only while none has. *)
Definition when_value (all : bool) (ins : list sid) (tr : list event) (o : outcome) : Prop :=
  if all then o = OVal (VFuts (map Some ins)) /\ forall q, In q ins -> is_ready q tr
  else exists i q, o = OVal (VAny (Some i) (map Some ins)) /\ nth_error ins i = Some q /\ is_ready q tr.
Definition when_outcome (all : bool) (w : nat) (ins : list sid) (tr : list event) (o : outcome) : Prop :=
  when_value all ins tr o \/
  o = OExn XBroken /\ (if all then exists i, i < length ins /\ ~ hooked tr w i else forall i, ~ hooked tr w i).
(** Some thread holds the lock of combinator [w]. *)
Definition when_locked (tr : list event) (w : nat) : Prop := exists t, lock_holder (LWhen w) tr = Some t.
(** The call that combines [ins] into [p] has not returned. *)
Definition combining (tr : list event) (all : bool) (w : nat) (p : sid) (ins : list sid) : Prop :=
  exists t cl, In cl (open_calls t tr) /\ In (EvWhen t all w p ins) (cl_acts cl).
