(** * SpecObj: what the calls on promise, future, thread and pool objects that do
    not block (or only join) do and return.  Only histories occur here. *)
From Verif Require Import Types Spec SpecApi SpecFut.

(** The state [p] was allocated by when_all / when_any, which take its future. *)
Definition taken (p : sid) (tr : list event) : Prop := exists t a w ins, In (EvWhen t a w p ins) tr.
(** The latest thing heard of native thread [n] is that it ended. *)
Definition ended (n : tid) (tr : list event) : Prop :=
  latest (fun e => match e with
    | EvThreadEnd m => if m =? n then Some true else None
    | EvSpawn _ m => if m =? n then Some false else None
    | _ => None end) false tr = true.

(** promise *)
Definition getfut_spec (t : tid) (pr : nat) (cl : call) (tr : list event) (r : res) : Prop :=
  (r = RExn XNoState /\ cl_acts cl = [] /\ sometime cl tr (fun m => prom_of pr m = None)) \/
  exists p, sometime cl tr (fun m => prom_of pr m = Some p) /\
    ((r = RExn XRetrieved /\ cl_acts cl = [EvRetr t p true] /\
        does cl tr (EvRetr t p true) (fun m => retrieved p m \/ taken p m)) \/
     (exists n, r = RHnd n /\ cl_acts cl = [EvRetr t p false; EvHnd t n false (Some p)] /\
        does cl tr (EvRetr t p false) (fun m => ~ (retrieved p m \/ taken p m)))).
Definition passign_spec (t : tid) (d s : nat) (cl : call) (tr : list event) (r : res) : Prop :=
  r = RUnit /\ exists x, cl_acts cl = [EvPrm t s None; EvPrm t d x] /\ does cl tr (EvPrm t s None) (fun m => prom_of s m = x).

(** future: a query on a valid future object *)
Definition fquery_spec (h : nat) (P : sid -> list event -> Prop) (cl : call) (tr : list event) (r : res) : Prop :=
  invalid h cl tr r \/
  exists p b, refers h p cl tr /\ cl_acts cl = [] /\ r = RBool b /\ sometime cl tr (fun m => b = true <-> P p m).
Definition fails (p : sid) (tr : list event) : Prop := exists e, outcome_of p tr = Some (OExn e).
Definition share_spec (t : tid) (h : nat) (cl : call) (tr : list event) (r : res) : Prop :=
  exists n x, r = RHnd n /\ cl_acts cl = [EvHnd t h false None; EvHnd t n true x] /\
    does cl tr (EvHnd t h false None) (fun m => fut_of h m = (false, x)).

(** thread objects: the native thread the object owns has ended *)
Definition joined (t : tid) (o : nat) (cl : call) (tr : list event) : Prop :=
  exists n i, sometime cl tr (fun m => ended n m /\ sometime cl m (fun m' => thobj_of o m' = (Some n, i))) /\
    In (EvThObj t o None i) (cl_acts cl).
(** exit is requested for the id the object holds *)
Definition warned (t : tid) (o : nat) (cl : call) (tr : list event) : Prop :=
  exists i, sometime cl tr (fun m => snd (thobj_of o m) = i) /\ told t cl tr i.
Definition swapped (t : tid) (a b : nat) (l : list event) (cl : call) (tr : list event) : Prop :=
  exists x y, does cl tr (EvThObj t b (fst x) (snd x)) (fun m => sometime cl m (fun m' => thobj_of a m' = x) /\ sometime cl m (fun m' => thobj_of b m' = y)) /\
    cl_acts cl = l ++ [EvThObj t b (fst x) (snd x); EvThObj t a (fst y) (snd y)].
Definition join_spec (t : tid) (o : nat) (cl : call) (tr : list event) (r : res) : Prop :=
  warned t o cl tr /\
  ((r = RUnit /\ joined t o cl tr) \/ (r = RExn XNotJoinable /\ sometime cl tr (fun m => fst (thobj_of o m) = None))).
Definition detach_spec (t : tid) (o : nat) (cl : call) (tr : list event) (r : res) : Prop :=
  (r = RExn XNotJoinable /\ cl_acts cl = [] /\ sometime cl tr (fun m => fst (thobj_of o m) = None)) \/
  (r = RUnit /\ exists n i, cl_acts cl = [EvThObj t o None i] /\ sometime cl tr (fun m => thobj_of o m = (Some n, i))).
Definition thmove_spec (t : tid) (d s : nat) (cl : call) (tr : list event) (r : res) : Prop :=
  r = RUnit /\ exists x, sometime cl tr (fun m => fst (thobj_of d m) = None) /\
    does cl tr (EvThObj t s None (snd x)) (fun m => sometime cl m (fun m' => thobj_of s m' = x)) /\
    cl_acts cl = [EvThObj t s None (snd x); EvThObj t d (fst x) (snd x)].
Definition thassign_spec (t : tid) (d s : nat) (cl : call) (tr : list event) (r : res) : Prop :=
  r = RUnit /\
  ((sometime cl tr (fun m => fst (thobj_of d m) = None) /\ swapped t d s [] cl tr) \/
   (warned t d cl tr /\ joined t d cl tr /\ exists l, swapped t d s l cl tr)).
Definition thdtor_spec (t : tid) (o : nat) (cl : call) (tr : list event) (r : res) : Prop :=
  r = RUnit /\
  ((sometime cl tr (fun m => fst (thobj_of o m) = None) /\ cl_acts cl = [EvThObj t o None invalid_id]) \/
   (warned t o cl tr /\ joined t o cl tr /\ exists l, cl_acts cl = l ++ [EvThObj t o None invalid_id])).
Definition thnew_spec (t : tid) (o : nat) (cl : call) (tr : list event) (r : res) : Prop :=
  sometime cl tr (fun m => fst (thobj_of o m) = None) /\
  exists n i f, r = RThread n i /\ begins cl [EvSpawn t n; EvReg t n i f; EvThObj t o (Some n) i].

Definition obj_contract (t : tid) (cl : call) (tr : list event) (r : res) : Prop :=
  match cl_api cl with
  | APromise v => exists n p, r = RProm n /\ cl_acts cl = [EvState t p v PuPromise; EvPrm t n (Some p)]
  | APGetFuture pr => getfut_spec t pr cl tr r
  | APAssign d s => passign_spec t d s cl tr r
  | AFValid h => cl_acts cl = [] /\ at_end t cl tr (fun m => r = RBool (match snd (fut_of h m) with Some _ => true | None => false end))
  | AFReady h => fquery_spec h is_ready cl tr r
  | AFHasError h => fquery_spec h fails cl tr r
  | AFShare h => share_spec t h cl tr r
  | AFCopy h => exists n x, r = RHnd n /\ cl_acts cl = [EvHnd t n true x] /\ sometime cl tr (fun m => fut_of h m = (true, x))
  | AFMove h => r = RUnit /\ exists sh, cl_acts cl = [EvHnd t h sh None] /\ does cl tr (EvHnd t h sh None) (fun m => fst (fut_of h m) = sh)
  | AFFromVal p sh => exists n, r = RHnd n /\ cl_acts cl = [EvHnd t n sh (Some p)]
  | APCount o => cl_acts cl = [] /\ exists pl, sometime cl tr (fun m => pool_of o m = Some pl) /\
      at_end t cl tr (fun m => r = RInt (Z.of_nat (length (jobs_of pl m))))
  | AStdThread u => exists n, r = RThread n invalid_id /\ cl_acts cl = [EvSpawn t n]
  | AThread o b => thnew_spec t o cl tr r
  | AThId o => cl_acts cl = [] /\ at_end t cl tr (fun m => r = RId (snd (thobj_of o m)))
  | AThMove d s => thmove_spec t d s cl tr r
  | AThSwap a b => r = RUnit /\ swapped t a b [] cl tr
  | AThDetach o => detach_spec t o cl tr r
  | AThJoin o => join_spec t o cl tr r
  | AThAssign d s => thassign_spec t d s cl tr r
  | AThDtor o => thdtor_spec t o cl tr r
  | _ => True
  end.

(** During the call the objects selected by [g] are changed by nobody but the call itself. *)
Definition alone (g : event -> bool) (cl : call) (tr : list event) : Prop :=
  exists w, tr = cl_pre cl ++ w /\ filter g w = filter g (cl_acts cl).
Definition on_thobj (a b : nat) (e : event) : bool := match e with EvThObj _ o _ _ => (o =? a) || (o =? b) | _ => false end.
Definition on_fut (h : nat) (e : event) : bool := match e with EvHnd _ n _ _ => n =? h | _ => false end.
(** The future object [h] was made. *)
Definition fut_made (h : nat) (tr : list event) : Prop := exists t sh p, In (EvHnd t h sh (Some p)) tr.
