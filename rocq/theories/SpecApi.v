(** * SpecApi: what the calls of thread.h do and return.
    Only histories occur here.  [cl] is a call made by thread [t], [tr] the
    history when it returns, [r] its result; [cl_acts cl] is what the thread did
    in the call (not counting API calls nested in it). *)
From Verif Require Import Types Spec.

(** At some moment of the call. *)
Definition sometime (cl : call) (tr : list event) (P : list event -> Prop) : Prop :=
  exists m, moment cl tr m /\ P m.
(** At some moment of the call after which the thread does nothing more in it. *)
Definition at_end (t : tid) (cl : call) (tr : list event) (P : list event -> Prop) : Prop :=
  exists m cs, moment cl tr m /\ open_calls t m = cl :: cs /\ P m.
(** The call does [e] when the history satisfies [P]. *)
Definition does (cl : call) (tr : list event) (e : event) (P : list event -> Prop) : Prop :=
  In e (cl_acts cl) /\ exists m, happens cl tr m e /\ P m.
(** The first things the thread does in the call. *)
Definition begins (cl : call) (l : list event) : Prop := exists r, cl_acts cl = l ++ r.

(** Closures that own nothing: destroying them has no effect. *)
Definition no_caps (k : task) : bool :=
  match k with TUser _ caps => match caps with [] => true | _ => false end | TNop | TConfig => true | _ => false end.
(** The call begins with [l]; for a closure that owns nothing this is all. *)
Definition drops (k : task) (cl : call) (l : list event) : Prop :=
  begins cl l /\ (no_caps k = true -> cl_acts cl = l).

(** [i] is the id of no registered thread. *)
Definition unknown (i : id) (tr : list event) : Prop := ~ In i (reg_ids tr).
Definition known (i : id) (tr : list event) : Prop := In i (reg_ids tr).

(** Tasks of [i] ended by an exception. *)
Definition aborted (i : id) (tr : list event) : nat :=
  length (filter (fun e => match e with EvAbort _ j => j =? i | _ => false end) tr).
Definition pending_of (i : id) (tr : list event) : Z :=
  (Z.of_nat (length (accepted i tr)) - Z.of_nat (completed i tr))%Z.
Definition depth_of (i : id) (tr : list event) : Z :=
  (Z.of_nat (length (started i tr)) - Z.of_nat (completed i tr))%Z.

(** init_thread *)
Definition init_spec (t : tid) (cl : call) (tr : list event) (r : res) : Prop :=
  r = RUnit /\ exists z, does cl tr (EvInit t z) (fun m =>
    z = (init_level m + 1)%Z /\
    (init_level m <> 0%Z -> cl_acts cl = [EvInit t z]) /\
    (init_level m = 0%Z -> exists i f j,
        begins cl [EvInit t z; EvReg t t i f; EvLoc t (Some i)] /\
        does cl tr (EvMain t j) (fun _ => sometime cl tr (fun m' => j = my_id t m')))).

(** unregister_this_thread *)
Definition unreg_spec (t : tid) (cl : call) (tr : list event) (before : list event) : Prop :=
  exists i, sometime cl tr (fun m => i = my_id t m) /\
    ((begins cl (before ++ [EvUnreg t i]) /\ In (EvLoc t None) (cl_acts cl)) \/
     (begins cl (before ++ [EvLoc t None]) /\ sometime cl tr (unknown i))).

(** shutdown: nothing to do, nested, or the last one. *)
Definition told (t : tid) (cl : call) (tr : list event) (i : id) : Prop :=
  In (EvExitSet t i) (cl_acts cl) \/ sometime cl tr (unknown i).
Definition shutdown_spec (t : tid) (d : Z) (cl : call) (tr : list event) (r : res) : Prop :=
  (r = RInt (-1) /\ cl_acts cl = [] /\ sometime cl tr (fun m => init_level m = 0%Z)) \/
  (r = RInt (-1) /\ exists z, z <> 0%Z /\ cl_acts cl = [EvInit t z] /\ does cl tr (EvInit t z) (fun m => z = (init_level m - 1)%Z)) \/
  (does cl tr (EvInit t 0) (fun m => init_level m = 1%Z) /\
   unreg_spec t cl tr [EvInit t 0] /\
   (exists l, sometime cl tr (fun m => l = reg_ids m) /\ forall i, In i l -> told t cl tr i) /\
   ((r = RInt 0 /\ sometime cl tr (fun m => reg_ids m = [])) \/
    (exists n m0, r = RInt (Z.of_nat n) /\ 0 < n /\ moment cl tr m0 /\
       sometime cl tr (fun m => n = length (reg_ids m) /\ (clock m0 + d <= clock m)%Z)))).

(** notify_for_exit *)
Definition nexit_spec (t : tid) (i : id) (cl : call) (tr : list event) (r : res) : Prop :=
  r = RUnit /\ ((begins cl [EvExitSet t i] /\ sometime cl tr (known i)) \/ (cl_acts cl = [] /\ sometime cl tr (unknown i))).

(** invoke of closure [k] *)
Definition invoke_spec (t : tid) (i : id) (k : task) (cl : call) (tr : list event) (r : res) : Prop :=
  (r = RBool true /\ i <> invalid_id /\ sometime cl tr (known i) /\ begins cl [EvAccept t i k]) \/
  (r = RBool false /\ (i = invalid_id \/ sometime cl tr (unknown i)) /\ drops k cl [EvDrop t k]).

(** dispatch: to the own id it runs the closure in place, otherwise it is invoke. *)
Definition dispatch_spec (t : tid) (i : id) (u : nat) (caps : list nat) (cl : call) (tr : list event) (r : res) : Prop :=
  (sometime cl tr (fun m => my_id t m = i) /\ exists x,
     drops (TUser u caps) cl [EvUser t u None None; EvUserEnd t u None x; EvDrop t (TUser u caps)] /\
     ((exists v, x = RVal v /\ r = RBool true) \/ (exists e, x = RExn e /\ r = RExn e))) \/
  (sometime cl tr (fun m => my_id t m <> i) /\ invoke_spec t i (TUser u caps) cl tr r).

(** The queries. *)
Definition query_spec (t : tid) (c : api) (m : list event) (r : res) : Prop :=
  match c with
  | AGetAll => r = RIds (reg_ids m)
  | AMainId => r = RId (main_of m)
  | AMyId => r = RId (my_id t m)
  | ADepth => r = RInt (match attached t m with Some i => depth_of i m | None => 0 end)
  | AIsReg => r = RBool (match attached t m with Some _ => true | None => false end)
  | AExitQ => exists b, r = RBool b /\ (b = true <-> exit_seen t m)
  | _ => True
  end.

Definition reg_contract (t : tid) (cl : call) (tr : list event) (r : res) : Prop :=
  match cl_api cl with
  | AInit => init_spec t cl tr r
  | AShutdown d => shutdown_spec t d cl tr r
  | ARegThis => r = RUnit /\ exists i f, begins cl [EvReg t t i f; EvLoc t (Some i)]
  | ARegThread n => exists i f, r = RId i /\ begins cl [EvReg t n i f]
  | AUnregThis => r = RUnit /\ unreg_spec t cl tr []
  | ANotifyExit i => nexit_spec t i cl tr r
  | AInvoke i u caps => invoke_spec t i (TUser u caps) cl tr r
  | ADispatch i u caps => dispatch_spec t i u caps cl tr r
  | ANotify i =>
      r = RUnit /\
      ((sometime cl tr (fun m => my_id t m = i) /\ cl_acts cl = [EvDrop t TNop]) \/
       (sometime cl tr (fun m => my_id t m <> i) /\ exists b, invoke_spec t i TNop cl tr (RBool b)))
  | ASetConfig i =>
      (r = RBool true /\ cl_acts cl = [EvDrop t TConfig] /\ sometime cl tr (fun m => my_id t m = i)) \/
      (sometime cl tr (fun m => my_id t m <> i) /\ invoke_spec t i TConfig cl tr r)
  | ACount i =>
      exists z, r = RInt z /\
      ((z = 0%Z /\ cl_acts cl = [] /\ (i = invalid_id \/ sometime cl tr (unknown i))) \/
       (sometime cl tr (known i) /\ sometime cl tr (fun m => z = pending_of i m)))
  | AGetAll | AMainId | AMyId | ADepth | AIsReg | AExitQ =>
      cl_acts cl = [] /\ at_end t cl tr (fun m => query_spec t (cl_api cl) m r)
  | _ => True
  end.
