(** * SpecTerm: what a program must have done before std::terminate is called. *)
From Verif Require Import Types Core State Ops Code Machine Spec SpecApi SpecUb.

(** The last thing [t] did was to release the lock of a state that another thread had satisfied. *)
Definition late_set (t : tid) (tr : list event) : Prop :=
  exists p u o a b, tr = a ++ EvUnlock t (LState p) :: b /\ u <> t /\ In (EvReady u p o) a /\ (forall e, In e b -> by_thread t e = false).
(** The calls that join the thread of the object [o] without being join. *)
Definition ends_thread (o : nat) (c : api) : Prop := match c with AThDtor o' | AThAssign o' _ => o' = o | _ => False end.
(** [t] is ending the thread of an object that had one and has lost it during the call. *)
Definition lost_thread (t : tid) (tr : list event) : Prop :=
  exists cl o, inside t cl tr /\ ends_thread o (cl_api cl) /\
    sometime cl tr (fun m => fst (thobj_of o m) = None /\ sometime cl m (fun m' => fst (thobj_of o m') <> None)).
(** A function that is not run on behalf of a future has thrown, and [t] is not inside any call that could pass the exception on. *)
Definition task_threw (t : tid) (tr : list event) : Prop :=
  open_calls t tr = [] /\ exists u e, In (EvUserEnd t u None (RExn e)) tr.
Definition terminates (s : st) (t : tid) : Prop := goes_wrong s t UbTerminate.
