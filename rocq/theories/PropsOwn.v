(** * Properties about the owners of shared states (C34, C35). *)
From Verif Require Import Types Core State Ops Code Machine Scenario Spec SpecKind SpecOwn SpecPack SpecWhere.
From Verif Require ThmOwn ThmJob OwnRun OwnTask OwnWhere.

(** C34: the state bound to a function becomes ready with what the function
    returned or threw, or with broken_promise if it never runs, *)
Theorem C34_outcome : forall s t p o tr1 tr2 u, reachable s -> trace s = tr1 ++ EvReady t p o :: tr2 ->
  purpose_is (trace s) p (PuFun u) -> computed p u o tr1 \/ (o = OExn XBroken /\ ~ begun p (trace s)).
Proof. exact ThmOwn.outcome. Qed.
Print Assumptions C34_outcome.
(** and the function bound to a state begins at most once. *)
Theorem C34_runs_once : forall s, reachable s -> forall tr1 t u a q tr2 t' u' a' tr3,
  trace s = tr1 ++ EvUser t u a (Some q) :: tr2 ++ EvUser t' u' a' (Some q) :: tr3 -> False.
Proof. exact OwnRun.run_once. Qed.
Print Assumptions C34_runs_once.
(** A packaged function that ends was begun by the same thread. *)
Theorem C34_ends_begun : forall s, reachable s -> at_each (fun tr e => match e with
  | EvUserEnd t u (Some p) r => exists a, In (EvUser t u a (Some p)) tr | _ => True end) (trace s).
Proof. exact ThmJob.end_begun. Qed.
Print Assumptions C34_ends_begun.
(** A function that was queued for the id [i] is begun only by a thread that took it
    out of the queue of [i], and this is a thread for which [i] was created. *)
Theorem C34_where : forall s v i k q, reachable s -> packs q k -> In (EvAccept v i k) (trace s) ->
  forall tr1 t u a tr2, trace s = tr1 ++ EvUser t u a (Some q) :: tr2 ->
  In (EvStart t i k) tr1 /\ exists r, In (EvReg r t i true) tr1.
Proof. exact OwnWhere.task_where. Qed.
Print Assumptions C34_where.
(** Main sends one function to the worker, one to itself and one to a thread that
    does not exist; the first returns, the second throws, the third is dropped. *)
Definition sc_two : list cmd := [Call 0 AInit; Lb (LCall 0 (AThread 0 BLoop)); Rn 0 5 20; Rn 5 0 20].
Definition sc34 : list cmd := sc_two ++
  [Call 0 (AAsync 2 LOther false 10 []); Call 0 (AAsync 1 LOther false 11 []); Lb (LThrow 0 (XUser 7)); Rn 0 0 40;
   Call 0 (AAsync 9 LOther false 12 []); Rn 5 0 40; Lb (LRet 5 (VNat 4)); Rn 5 0 40].
Example C34_example : exists s, play st0 sc34 = Some s /\
  filter (fun e => match e with EvUser _ _ _ (Some _) | EvUserEnd _ _ _ _ | EvReady _ _ _ => true | _ => false end) (trace s) =
  [EvUser 0 11 None (Some 1); EvUserEnd 0 11 (Some 1) (RExn (XUser 7)); EvReady 0 1 (OExn (XUser 7)); EvReady 0 2 (OExn XBroken);
   EvUser 5 10 None (Some 0); EvUserEnd 5 10 (Some 0) (RVal (VNat 4)); EvReady 5 0 (OVal (VNat 4))] /\
  In (EvState 0 0 false (PuFun 10)) (trace s) /\ In (EvState 0 1 false (PuFun 11)) (trace s) /\ In (EvState 0 2 false (PuFun 12)) (trace s).
Proof. eexists. split; [vm_compute; reflexivity|]. vm_compute. intuition. Qed.

(** The first function was queued for the worker, which took it and began it. *)
Example C34_where_example : exists s, play st0 sc34 = Some s /\ packs 0 (TPack 0 (BUser 10 [])) /\
  filter (fun e => match e with EvAccept _ _ (TPack 0 _) | EvUser _ _ _ (Some 0) | EvStart _ _ _ | EvReg _ _ 2 _ => true | _ => false end) (trace s) =
  [EvReg 0 5 2 true; EvReg 5 5 2 false; EvAccept 0 2 (TPack 0 (BUser 10 [])); EvStart 5 2 (TPack 0 (BUser 10 [])); EvUser 5 10 None (Some 0)].
Proof. eexists. split; [vm_compute; reflexivity|]. split; [left; eauto|]. vm_compute. reflexivity. Qed.

(** C35: a state made by async, then, schedule, when_all or when_any that is not
    ready has an owner, or a thread makes it ready with its next step. *)
Theorem C35_no_orphans : forall s q x, reachable s -> purpose_is (trace s) q x -> x <> PuPromise ->
  is_ready q (trace s) \/ setting q s \/ owned q s.
Proof. exact OwnTask.result_owned. Qed.
Print Assumptions C35_no_orphans.
(** The same for every state, but for one case: a promise object that referred to
    it was assigned another promise (C36). *)
Theorem C35_promises : forall s q, reachable s -> created q (trace s) ->
  is_ready q (trace s) \/ setting q s \/ overwritten q (trace s) \/ owned q s.
Proof. exact OwnTask.promise_owned. Qed.
Print Assumptions C35_promises.
(** State 0 is queued for the worker; state 1 belongs to a continuation attached to
    state 0; promise object 0 owned state 2 until it was assigned the promise of
    state 3; state 4 belongs to a closure that is refused and is being set. *)
Definition sc35 : list cmd := sc_two ++
  [Call 0 (AAsync 2 LOther false 10 []); Call 0 (AFThen 0 1 LOther false 11 []); Call 0 (APromise false); Call 0 (APromise false); Call 0 (APAssign 0 1);
   Lb (LCall 0 (AAsync 9 LOther false 12 [])); Rn 0 0 8].
Example C35_example : exists s, play st0 sc35 = Some s /\
  map (fun q => outcome_of q (trace s)) [0; 1; 2; 3; 4] = [None; None; None; None; None] /\
  map (has 0) (ctx_pending (h_ctxs (hp s) 2)) = [true] /\ map (has_cb 1) (fs_cbs (h_fsts (hp s) 0)) = [true] /\
  overwritten 2 (trace s) /\ h_prms (hp s) 0 = Some 3 /\ setting 4 s.
Proof.
  eexists. split; [vm_compute; reflexivity|]. repeat (split; [vm_compute; reflexivity|]). split; [|split; [vm_compute; reflexivity|]].
  - set (s := mkSt _ _ _). exists (firstn 35 (trace s)), 0, 0, 1, (Some 3), (skipn 36 (trace s)). vm_compute. intuition.
  - exists 0. do 2 eexists. vm_compute. split; reflexivity.
Qed.
