(** * SpecWhere: the closures of packaged functions. *)
From Coq Require Import List. Import ListNotations.
From Verif Require Import Types.

(** The closure that async (future.hpp:993-996) or then (future.hpp:726-743) makes of
    a function; its outcome goes to the state [q]. *)
Definition packs (q : sid) (k : task) : Prop :=
  (exists u caps, k = TPack q (BUser u caps)) \/ exists p sh u caps, k = TPack q (BThen p sh u caps).
