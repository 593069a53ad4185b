(** * SpecFire: launching the continuations of a shared state. *)
From Verif Require Import Types Spec SpecApi Code Machine.
(** The continuations of [p] launched so far, in order. *)
Definition fires (p : sid) (tr : list event) : list callback :=
  flat_map (fun e => match e with EvFire _ q cb => if q =? p then [cb] else [] | _ => [] end) tr.
(** [a] is [b] with some elements left out. *)
Inductive subseq {A} : list A -> list A -> Prop :=
| sub_nil : forall b, subseq [] b
| sub_take : forall x a b, subseq a b -> subseq (x :: a) (x :: b)
| sub_skip : forall x a b, subseq a b -> subseq a (x :: b).
(** Every continuation attached to [p] before it was ready has been launched, in
    the order of attachment. *)
Definition all_fired (p : sid) (tr : list event) : Prop := subseq (early_cbs p tr) (fires p tr).
(** Thread [t] is inside the function that launches continuations of [p]. *)
Definition lk_of (p : sid) (c : lk) : Prop := match c with LkFire q _ _ => q = p | _ => False end.
Definition fires_for (p : sid) (f : frame) : Prop :=
  match f with
  | FSet2 q _ | FFire q _ _ => q = p
  | FFire1 _ _ c | FLaunch _ _ _ c | FLaunch1 _ _ _ c | FInvoke _ _ c | FPush _ _ c | FDisp _ _ c => lk_of p c
  | _ => False
  end.
Definition firing (t : tid) (p : sid) (s : st) : Prop := exists f, In f (stk s t) /\ fires_for p f.

(** The call makes [p] ready with [o] after doing [before]; when it returns the
    continuations of [p] have been launched. *)
Definition sets (t : tid) (p : sid) (o : outcome) (before : list event) (cl : call) (tr : list event) : Prop :=
  begins cl (before ++ [EvLock t (LState p); EvReady t p o]) /\
  does cl tr (EvReady t p o) (fun m => ~ is_ready p m) /\ all_fired p tr.
(** set_value, set_exception and abandon of promise object [pr]. *)
Definition set_spec (t : tid) (pr : nat) (o : outcome) (cl : call) (tr : list event) (r : res) : Prop :=
  (r = RExn XNoState /\ cl_acts cl = [] /\ sometime cl tr (fun m => prom_of pr m = None)) \/
  (exists p, sometime cl tr (fun m => prom_of pr m = Some p) /\
     ((r = RExn XSatisfied /\ cl_acts cl = [EvLock t (LState p); EvUnlock t (LState p)] /\ sometime cl tr (is_ready p)) \/
      (r = RUnit /\ sets t p o [] cl tr))).
(** The destructor of promise object [pr]. *)
Definition pdtor_spec (t : tid) (pr : nat) (cl : call) (tr : list event) (r : res) : Prop :=
  r = RUnit /\ exists x, does cl tr (EvPrm t pr None) (fun m => prom_of pr m = x) /\
    match x with
    | None => cl_acts cl = [EvPrm t pr None]
    | Some p => (cl_acts cl = [EvPrm t pr None] /\ sometime cl tr (is_ready p)) \/ sets t p (OExn XBroken) [EvPrm t pr None] cl tr
    end.
Definition set_contract (t : tid) (cl : call) (tr : list event) (r : res) : Prop :=
  match cl_api cl with
  | APSet pr v => set_spec t pr (OVal v) cl tr r
  | APSetExn pr n => set_spec t pr (OExn (XUser n)) cl tr r
  | APAbandon pr => set_spec t pr (OExn XBroken) cl tr r
  | APDtor pr => pdtor_spec t pr cl tr r
  | _ => True
  end.
