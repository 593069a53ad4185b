(** * SpecTaken: which calls of get move the value out of the state. *)
From Verif Require Import Types Spec.

(** The last thing [t] did: at a moment of history [a] it found that future object [n]
    refers to [p], and it has done nothing since. *)
Definition looked (t : tid) (n : nat) (sh : bool) (p : sid) (tr : list event) : Prop :=
  exists a b, tr = a ++ b /\ fut_of n a = (sh, Some p) /\ forall e, In e b -> by_thread t e = false.
(** [t] has emptied a unique future object that referred to [p] and done nothing since. *)
Definition took_out (t : tid) (p : sid) (tr : list event) : Prop :=
  exists n sh a b, tr = a ++ EvHnd t n sh None :: b /\ looked t n false p a /\ forall e, In e b -> by_thread t e = false.
