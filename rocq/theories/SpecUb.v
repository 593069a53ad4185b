(** * SpecUb: what a program must have done before its behaviour becomes undefined. *)
From Verif Require Import Types Core State Ops Code Machine Spec SpecApi.

(** The next operation of [t] is undefined. *)
Definition goes_wrong (s : st) (t : tid) (u : ub) : Prop :=
  exists inp s', step s (LStep t inp) = Some s' /\ ubs s' = Some u.
(** [t] is inside the call [cl]; the calls around it are of no interest. *)
Definition inside (t : tid) (cl : call) (tr : list event) : Prop := exists cs, open_calls t tr = cl :: cs.

(** Calls that release the user's mutex [m]. *)
Definition releases (m : nat) (c : api) : Prop :=
  match c with AUUnlock m' | ACvWait _ m' | ACvWaitFor _ m' _ => m' = m | _ => False end.
(** Calls on the pool object [o], or through a job handle that was made by it. *)
Definition on_pool (o : nat) (c : api) : Prop :=
  match c with
  | APSched o' _ _ _ _ | APChange o' _ _ | APStop o' _ | APStopAll o' | APWait o' _ | APWaitAll o' | APCount o'
  | AJStop _ o' _ | AJChange _ o' _ _ => o' = o
  | _ => False
  end.
(** The futures a combinator is called with. *)
Definition inputs (c : api) : option (list nat) := match c with AWhenAll hs | AWhenAny _ hs => Some hs | _ => None end.
Fixpoint ascending (l : list nat) : Prop :=
  match l with a :: (b :: _) as r => a < b /\ ascending r | _ => True end.
(** A call whose precondition is violated: an object that is still in use is
    constructed, a unique future is copied or a shared one shared, the object
    assigned to does not exist, a future without state is combined, the levels of a
    pool are not in order, or a task processed by the call has attached the thread
    to another id. *)
Definition misused (t : tid) (cl : call) (tr : list event) : Prop :=
  match cl_api cl with
  | AThread o _ | AThMove o _ => sometime cl tr (fun m => fst (thobj_of o m) <> None)
  | AFShare h => sometime cl tr (fun m => fst (fut_of h m) = true)
  | AFCopy h => sometime cl tr (fun m => fst (fut_of h m) = false)
  | APAssign d _ => ~ exists u p, In (EvPrm u d (Some p)) tr
  | AFFromVal p _ => (~ exists u v pu, In (EvState u p v pu) tr) /\ (~ exists u a w ins, In (EvWhen u a w p ins) tr)
  | AWhenAll hs | AWhenAny _ hs => exists h, In h hs /\ snd (fut_of h tr) = None
  | APool o lvs => ~ ascending (map fst lvs) \/ pool_of o tr <> None
  | AProcess | AProcessFor _ => exists i j, sometime cl tr (fun m => attached t m = Some i) /\ attached t tr = Some j /\ j <> i
  | _ => False
  end.
Definition misuse (t : tid) (u : ub) (tr : list event) : Prop :=
  match u with
  | UbUnlock l => exists m cl, l = LUser m /\ inside t cl tr /\ releases m (cl_api cl) /\ lock_holder l tr <> Some t
  | UbNullState => exists h cl, inside t cl tr /\ cl_api cl = AFGet h /\
      sometime cl tr (fun m => snd (fut_of h m) = None /\ sometime cl m (fun m' => snd (fut_of h m') <> None))
  | UbNullPool o => exists cl, inside t cl tr /\ on_pool o (cl_api cl) /\ sometime cl tr (fun m => pool_of o m = None)
  | UbPrecondition => exists cl, inside t cl tr /\ misused t cl tr
  | UbNullContext => exists cl, inside t cl tr /\ cl_api cl = ASetConfig invalid_id /\ attached t tr = None
  | _ => True
  end.
