(** * Which calls of get move the value out of the state (C69). *)
From Verif Require Import Types Core State Ops Code Machine Scenario Spec SpecTaken.
From Verif Require InvTaken.

(** C69: every get reads through a shared future, or empties a unique one just before. *)
Theorem C69_get : forall s, reachable s -> at_each (fun tr e => match e with
  | EvGot t p r => took_out t p tr \/ exists n, looked t n true p tr | _ => True end) (trace s).
Proof. exact InvTaken.got_how. Qed.
Print Assumptions C69_get.
(** The value of a state was moved out only by a get that emptied a unique future. *)
Theorem C69_moved : forall s, reachable s -> forall p, fs_taken (h_fsts (hp s) p) = true ->
  exists tr1 t r tr2, trace s = tr1 ++ EvGot t p r :: tr2 /\ took_out t p tr1.
Proof. exact InvTaken.taken_out. Qed.
Print Assumptions C69_moved.
(** State 0 is read through two shared futures and stays whole; state 1 is read
    through its unique future and its value is moved out. *)
Definition sc69 : list cmd := [Call 0 AInit; Call 0 (APromise false); Call 0 (APGetFuture 0); Call 0 (AFShare 0); Call 0 (AFCopy 1);
  Call 0 (APromise false); Call 0 (APGetFuture 1); Call 0 (APSet 0 (VNat 7)); Call 0 (APSet 1 (VNat 8)); Call 0 (AFGet 1); Call 0 (AFGet 2); Call 0 (AFGet 3)].
Example C69_example : exists s, play st0 sc69 = Some s /\ fs_taken (h_fsts (hp s) 0) = false /\ fs_taken (h_fsts (hp s) 1) = true /\
  filter (fun e => match e with EvGot _ _ _ => true | EvHnd _ _ _ None => true | _ => false end) (trace s) =
  [EvHnd 0 0 false None; EvGot 0 0 (RVal (VNat 7)); EvGot 0 0 (RVal (VNat 7)); EvHnd 0 3 false None; EvGot 0 1 (RVal (VNat 8))].
Proof. eexists. split; [vm_compute; reflexivity|]. repeat split; vm_compute; reflexivity. Qed.
