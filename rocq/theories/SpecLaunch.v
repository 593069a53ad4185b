(** * SpecLaunch: what async and then do and return.  Only histories occur here. *)
From Verif Require Import Types Spec SpecApi SpecFut.

(** The thread meant by the id given to async or then. *)
Definition target (t : tid) (i j : id) (cl : call) (tr : list event) : Prop :=
  (i = caller_id /\ sometime cl tr (fun m => my_id t m = j)) \/ (i <> caller_id /\ j = i).
(** After [before] the closure [k] is queued for [j]; or dropped because no such thread is registered. *)
Definition queued (t : tid) (j : id) (k : task) (before : list event) (cl : call) (tr : list event) : Prop :=
  j <> invalid_id /\ sometime cl tr (known j) /\ begins cl (before ++ [EvAccept t j k]).
Definition refused (t : tid) (j : id) (k : task) (before : list event) (cl : call) (tr : list event) : Prop :=
  (j = invalid_id \/ sometime cl tr (unknown j)) /\ begins cl (before ++ [EvDrop t k]).
(** The first events of running a packaged user function in place: for a
    continuation, the future object it is given is made first. *)
Definition inline (t : tid) (k : task) (l : list event) : Prop :=
  match k with
  | TPack q (BUser u caps) => l = [EvUser t u None (Some q)]
  | TPack q (BThen p sh u caps) => exists n, l = [EvHnd t n sh (Some p); EvUser t u (Some n) (Some q)]
  | _ => False
  end.
(** Launching [k] for thread [i] with policy [pol]. *)
Definition launched (t : tid) (i : id) (pol : policy) (k : task) (before : list event) (cl : call) (tr : list event) : Prop :=
  exists j, target t i j cl tr /\
    ((pol = LOther /\ sometime cl tr (fun m => my_id t m = j) /\ exists l, inline t k l /\ begins cl (before ++ l)) \/
     ((pol = LAsync \/ (pol = LOther /\ sometime cl tr (fun m => my_id t m <> j))) /\
      (queued t j k before cl tr \/ refused t j k before cl tr))).

(** The last thing done is making the future object returned, for state [q]. *)
Definition gives (t : tid) (q : sid) (before : list event) (cl : call) (r : res) : Prop :=
  exists n l, r = RHnd n /\ cl_acts cl = before ++ l ++ [EvHnd t n false (Some q)].

(** async and then, after the actions [pre] that start the worker thread (if any). *)
Definition async_spec (t : tid) (i : id) (pol : policy) (v : bool) (u : nat) (caps : list nat) (pre : list event) (cl : call) (tr : list event) (r : res) : Prop :=
  exists q, gives t q (pre ++ [EvState t q v (PuFun u)]) cl r /\ launched t i pol (TPack q (BUser u caps)) (pre ++ [EvState t q v (PuFun u)]) cl tr.
Definition then_spec (t : tid) (h : nat) (i : id) (pol : policy) (v : bool) (u : nat) (caps : list nat) (pre : list event) (cl : call) (tr : list event) (r : res) : Prop :=
  (r = RExn XNoState /\ sometime cl tr (fun m => snd (fut_of h m) = None) /\ drops (TUser u caps) cl (pre ++ [EvDrop t (TUser u caps)])) \/
  exists p sh q, sometime cl tr (fun m => fut_of h m = (sh, Some p)) /\
    let cb := mkCb i pol (TPack q (BThen p sh u caps)) in
    let before := pre ++ (if sh then [] else [EvHnd t h false None]) ++ [EvState t q v (PuFun u); EvAttach t p cb] in
    gives t q before cl r /\
    ((does cl tr (EvAttach t p cb) (fun m => ~ is_ready p m) /\ exists n, cl_acts cl = before ++ [EvHnd t n false (Some q)]) \/
     (does cl tr (EvAttach t p cb) (is_ready p) /\ begins cl (before ++ [EvFire t p cb]) /\
      launched t i pol (cb_task cb) (before ++ [EvFire t p cb]) cl tr)).
(** A worker thread is created and registered. *)
Definition worker (t : tid) (i : id) (pre : list event) : Prop := exists c f l, pre = EvSpawn t c :: EvReg t c i f :: l.

Definition launch_contract (t : tid) (cl : call) (tr : list event) (r : res) : Prop :=
  match cl_api cl with
  | AAsync i pol v u caps => async_spec t i pol v u caps [] cl tr r
  | AAsyncNew pol v u caps => exists i pre, worker t i pre /\ async_spec t i pol v u caps pre cl tr r
  | AFThen h i pol v u caps => then_spec t h i pol v u caps [] cl tr r
  | AFThenNew h pol v u caps => exists i pre, worker t i pre /\ then_spec t h i pol v u caps pre cl tr r
  | _ => True
  end.
