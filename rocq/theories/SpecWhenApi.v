(** * SpecWhenApi: what make_ready_future, when_all and when_any do and return.
    Only histories occur here. *)
From Coq Require Import List. Import ListNotations.
From Verif Require Import Types Spec SpecApi SpecFire.

(** A state is created and satisfied at once; the future object returned refers to it. *)
Definition ready_future (t : tid) (o : outcome) (cl : call) (tr : list event) (r : res) : Prop :=
  exists p v n l, r = RHnd n /\ sets t p o [EvState t p v PuReady] cl tr /\ cl_acts cl = l ++ [EvHnd t n false (Some p)].
(** The continuation of input number [i], the state [q], is made and attached. *)
Definition serves (t : tid) (all : bool) (w i : nat) (q : sid) (cl : call) : Prop :=
  exists x j, In (EvState t x true (PuHook all w i q)) (cl_acts cl) /\
    In (EvAttach t q (mkCb j LOther (TPack x (if all then BAll w i q else BAny w i q)))) (cl_acts cl).
(** Every future given refers to a state; a combinator for these states is made, one
    continuation is attached to each of them, and the future object returned refers
    to the state of the combinator. *)
Definition combined (t : tid) (all : bool) (hs : list nat) (cl : call) (tr : list event) (r : res) : Prop :=
  exists w p ins, begins cl [EvWhen t all w p ins] /\
    does cl tr (EvWhen t all w p ins) (fun m => map (fun n => snd (fut_of n m)) hs = map Some ins) /\
    (forall i q, nth_error ins i = Some q -> serves t all w i q cl) /\
    exists n, r = RHnd n /\ In (EvHnd t n false (Some p)) (cl_acts cl).

Definition when_contract (t : tid) (cl : call) (tr : list event) (r : res) : Prop :=
  match cl_api cl with
  | AMakeReady v => ready_future t (OVal v) cl tr r
  | AMakeExn n => ready_future t (OExn (XUser n)) cl tr r
  | AWhenAll [] => ready_future t (OVal (VFuts [])) cl tr r
  | AWhenAny _ [] => ready_future t (OVal (VAny None [])) cl tr r
  | AWhenAll hs => combined t true hs cl tr r
  | AWhenAny _ hs => combined t false hs cl tr r
  | _ => True
  end.
