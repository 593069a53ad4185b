(** * Properties of the class thread (C55). *)
From Verif Require Import Types Core State Ops Code Machine Scenario Spec SpecApi SpecFut SpecObj.
From Verif Require ThmCalls.

(** What the calls do.  [joined]: the native thread the object owned has ended. *)
Theorem C55_thread_calls : forall s, reachable s ->
  each_return (fun t cl tr r => match cl_api cl with
    | AStdThread u => exists n, r = RThread n invalid_id /\ cl_acts cl = [EvSpawn t n]
    | AThread o b => thnew_spec t o cl tr r
    | AThId o => cl_acts cl = [] /\ at_end t cl tr (fun m => r = RId (snd (thobj_of o m)))
    | AThMove d s => thmove_spec t d s cl tr r
    | AThSwap a b => r = RUnit /\ swapped t a b [] cl tr
    | AThDetach o => detach_spec t o cl tr r
    | AThJoin o => join_spec t o cl tr r
    | AThAssign d s => thassign_spec t d s cl tr r
    | AThDtor o => thdtor_spec t o cl tr r
    | _ => True end) (trace s).
Proof. exact ThmCalls.thread_calls. Qed.
Print Assumptions C55_thread_calls.
(** If nothing else touches the two objects during the call, move construction
    and swap hand the thread over. *)
Theorem C55_moves : forall s, reachable s ->
  each_return (fun t cl tr r => forall a b, a <> b -> alone (on_thobj a b) cl tr ->
    let x := thobj_of a (cl_pre cl) in let y := thobj_of b (cl_pre cl) in
    (cl_api cl = AThMove a b -> thobj_of a tr = y /\ thobj_of b tr = (None, snd y)) /\
    (cl_api cl = AThSwap a b -> thobj_of a tr = y /\ thobj_of b tr = x)) (trace s).
Proof. exact ThmCalls.thread_moves. Qed.
Print Assumptions C55_moves.
(** Two worker threads, 5 and 6.  The object 0 is moved to 2; assigning 1 to 2
    ends thread 5, destroying 2 ends thread 6. *)
Definition sc55 : list cmd :=
  [Call 0 AInit; Lb (LCall 0 (AThread 0 BLoop)); Rn 0 5 20; Rn 5 0 20; Lb (LCall 0 (AThread 1 BLoop)); Rn 0 6 20; Rn 6 0 20;
   Call 0 (AThMove 2 0); Call 0 (AThAssign 2 1); Rn 5 0 40; Rn 0 0 40; Call 0 (AThDtor 2); Rn 6 0 40; Rn 0 0 40].
Example C55_example : exists s, play st0 sc55 = Some s /\
  filter (fun e => match e with EvThObj _ _ _ _ | EvThreadEnd _ | EvExitSet _ _ | EvRet _ _ _ => true | _ => false end) (trace s) =
  [EvRet 0 AInit RUnit;
   EvThObj 0 0 (Some 5) 2; EvRet 0 (AThread 0 BLoop) (RThread 5 2); EvThObj 0 1 (Some 6) 3; EvRet 0 (AThread 1 BLoop) (RThread 6 3);
   EvThObj 0 0 None 2; EvThObj 0 2 (Some 5) 2; EvRet 0 (AThMove 2 0) RUnit;
   EvExitSet 0 2; EvThreadEnd 5; EvThObj 0 2 None 2; EvThObj 0 1 None 2; EvThObj 0 2 (Some 6) 3; EvRet 0 (AThAssign 2 1) RUnit;
   EvExitSet 0 3; EvThreadEnd 6; EvThObj 0 2 None 3; EvThObj 0 2 None 0; EvRet 0 (AThDtor 2) RUnit].
Proof. eexists. split; vm_compute; reflexivity. Qed.
