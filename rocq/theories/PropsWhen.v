(** * Properties of when_all_any.hpp (C40-C43, C60). *)
From Verif Require Import Types Core State Ops Code Machine Scenario Spec SpecApi SpecState SpecWhen SpecFire SpecWhenApi.
From Verif Require ThmObj ThmWhen InvArmed ApiWhen.

Ltac refutes := vm_compute; repeat (split || eexists); repeat first [left; reflexivity | right].
Definition sc_two : list cmd := [Call 0 AInit; Lb (LCall 0 (AThread 0 BLoop)); Rn 0 5 20; Rn 5 0 20].

(** C40 *)
Theorem C40_when_all : forall s, reachable s -> at_each (fun tr e => match e with
  | EvReady _ p o => forall w ins, combines tr true w p ins ->
      ~ is_ready p tr /\
      (o = OVal (VFuts (map Some ins)) /\ (forall q, In q ins -> is_ready q tr) \/
       o = OExn XBroken /\ exists i, i < length ins /\ ~ hooked tr w i)
  | _ => True end) (trace s).
Proof. exact ThmWhen.when_all_holds. Qed.
Print Assumptions C40_when_all.
(** Main combines two futures; the second input becomes ready on another thread before
    the first one, and the result holds both in the order given. *)
Definition sc40 : list cmd := sc_two ++
  [Call 0 (APromise false); Call 0 (APGetFuture 0); Call 0 (APromise false); Call 0 (APGetFuture 1);
   Call 0 (AWhenAll [0;1]); Call 0 (AInvoke 2 10 []); Rn 5 0 20;
   Call 5 (APSet 1 (VNat 8)); Call 0 AProcess; Call 0 (APSet 0 (VNat 7))].
Example C40_example : exists s, play st0 sc40 = Some s /\
  In (EvWhen 0 true 0 2 [0; 1]) (trace s) /\ In (EvReady 0 2 (OVal (VFuts [Some 0; Some 1]))) (trace s).
Proof. eexists. split; [vm_compute; reflexivity|]. split; refutes. Qed.

(** Once the continuations of all inputs have run, the result is there or its last
    continuation is about to set it. *)
Theorem C40_completes : forall s w p ins, reachable s -> combines (trace s) true w p ins ->
  (forall i, i < length ins -> hooked (trace s) w i) -> is_ready p (trace s) \/ when_locked (trace s) w.
Proof. exact InvArmed.all_completes. Qed.
Print Assumptions C40_completes.
Example C40_completes_example : exists s, play st0 sc40 = Some s /\
  combines (trace s) true 0 2 [0; 1] /\ (forall i, i < 2 -> hooked (trace s) 0 i) /\ is_ready 2 (trace s).
Proof.
  eexists. split; [vm_compute; reflexivity|]. split; [refutes|]. split; [|vm_compute; discriminate]. intros [|[|i]] H; [refutes|refutes|lia].
Qed.

(** C41 *)
Theorem C41_when_any : forall s, reachable s -> at_each (fun tr e => match e with
  | EvReady _ p o => forall w ins, combines tr false w p ins ->
      ~ is_ready p tr /\
      ((exists i q, o = OVal (VAny (Some i) (map Some ins)) /\ nth_error ins i = Some q /\ is_ready q tr) \/
       o = OExn XBroken /\ forall i, ~ hooked tr w i)
  | _ => True end) (trace s).
Proof. exact ThmWhen.when_any_holds. Qed.
Print Assumptions C41_when_any.
(** The second of two inputs of when_any becomes ready. *)
Definition sc41 : list cmd := sc_two ++
  [Call 0 (APromise false); Call 0 (APGetFuture 0); Call 0 (APromise false); Call 0 (APGetFuture 1);
   Call 0 (AWhenAny true [0;1]); Call 0 (APSet 1 (VNat 8))].
Example C41_example : exists s, play st0 sc41 = Some s /\
  In (EvWhen 0 false 0 2 [0; 1]) (trace s) /\ In (EvReady 0 2 (OVal (VAny (Some 1) [Some 0; Some 1]))) (trace s).
Proof. eexists. split; [vm_compute; reflexivity|]. split; refutes. Qed.

(** Once the continuation of one input has run, the result is there, or a
    continuation is about to set it, or when_any has not returned. *)
Theorem C41_completes : forall s w p ins i, reachable s -> combines (trace s) false w p ins -> hooked (trace s) w i ->
  is_ready p (trace s) \/ when_locked (trace s) w \/ combining (trace s) false w p ins.
Proof. exact InvArmed.any_completes. Qed.
Print Assumptions C41_completes.
Example C41_completes_example : exists s, play st0 sc41 = Some s /\
  combines (trace s) false 0 2 [0; 1] /\ hooked (trace s) 0 1 /\ open_calls 0 (trace s) = [] /\ is_ready 2 (trace s).
Proof. eexists. split; [vm_compute; reflexivity|]. split; [refutes|]. split; [refutes|]. split; [reflexivity|vm_compute; discriminate]. Qed.

(** C42 does not hold.  Main combines two futures and attaches a continuation;
    both inputs become ready, the second on another thread; the continuation of
    the result waits and so runs the lambda of the second input. *)
Definition sc42 : list cmd := sc_two ++
  [Call 0 (APromise false); Call 0 (APGetFuture 0); Call 0 (APromise false); Call 0 (APGetFuture 1);
   Call 0 (AWhenAny true [0;1]); Call 0 (AFThen 2 1 LOther true 20 []); Call 0 (AInvoke 2 10 []); Rn 5 0 20;
   Call 0 (APSet 0 (VNat 7)); Call 5 (APSet 1 (VNat 8)); Call 0 AWait].
Theorem C42_blocking_continuation_refuted :
  exists s, reachable s /\ ubs s = Some (UbRelock (LWhen 0)) /\
    map cl_api (open_calls 0 (trace s)) = [AWait; APSet 0 (VNat 7)] /\
    In (EvUser 0 20 (Some 4) (Some 5)) (trace s).
Proof. apply (witness sc42). refutes. Qed.
Print Assumptions C42_blocking_continuation_refuted.

(** C43 *)
Theorem C43_visit_at : forall (A : Type) (tup : list A) (i : nat) (d : A),
  visit_at tup i d = match nth_error tup i with Some x => inl x | None => inr XBadIndex end.
Proof. exact ThmObj.visit_at_spec. Qed.
Print Assumptions C43_visit_at.
Example C43_example : visit_at [7; 8; 9] 1 0 = inl 8 /\ visit_at [7; 8; 9] 3 0 = inr XBadIndex.
Proof. split; reflexivity. Qed.

(** C60 *)
Theorem C60_when_calls : forall s, reachable s -> each_return when_contract (trace s).
Proof. exact ApiWhen.when_returns. Qed.
Print Assumptions C60_when_calls.
(** A ready future, a ready exceptional future, the combination of nothing, when_all of
    two futures one of which is already ready, and when_any of two futures. *)
Definition sc60 : list cmd := sc_two ++
  [Call 0 (AMakeReady (VNat 7)); Call 0 (AMakeExn 3); Call 0 (AWhenAll []); Call 0 (AWhenAny true []);
   Call 0 (APromise false); Call 0 (APGetFuture 0); Call 0 (AWhenAll [0;4]);
   Call 0 (APromise false); Call 0 (APGetFuture 1); Call 0 (AWhenAny false [1;6])].
Example C60_example : exists s, play st0 sc60 = Some s /\
  skipn 2 (filter (fun e => match e with EvRet _ _ _ | EvWhen _ _ _ _ _ => true | _ => false end) (trace s)) =
  [EvRet 0 (AMakeReady (VNat 7)) (RHnd 0); EvRet 0 (AMakeExn 3) (RHnd 1);
   EvRet 0 (AWhenAll []) (RHnd 2); EvRet 0 (AWhenAny true []) (RHnd 3);
   EvRet 0 (APromise false) (RProm 0); EvRet 0 (APGetFuture 0) (RHnd 4);
   EvWhen 0 true 0 5 [0; 4]; EvRet 0 (AWhenAll [0; 4]) (RHnd 5);
   EvRet 0 (APromise false) (RProm 1); EvRet 0 (APGetFuture 1) (RHnd 6);
   EvWhen 0 false 1 9 [1; 8]; EvRet 0 (AWhenAny false [1; 6]) (RHnd 7)].
Proof. eexists. split; vm_compute; reflexivity. Qed.
