(** * Data races (C79). *)
From Verif Require Import Types Core State Ops Code Machine Scenario Spec SpecApi SpecRace PropsOwn.
From Verif Require InvRace InvRaceGet.

(** C79: two threads can be about to access one plain member at the same time, one of them to write it,
    in two cases only: main_thread::get_id against init, and get of a void future whose state is not
    ready against set_exception.  All other accesses are ordered by the mutex of the member. *)
Theorem C79_races : forall s t u c, reachable s -> race s t u c -> known_race s t u c \/ known_race s u t c.
Proof. exact InvRace.only_known. Qed.
Print Assumptions C79_races.

(** The second case needs a get whose thread was asked to exit, or is not registered, at some moment of
    the call: otherwise the wait at the start of get has ended because the state was ready. *)
Theorem C79_get : forall s t u p, reachable s -> race s t u (CExn p) ->
  exists v cl cs n, (v = t \/ v = u) /\ open_calls v (trace s) = cl :: cs /\ cl_api cl = AFGet n /\ sometime cl (trace s) (exit_seen v).
Proof. exact InvRaceGet.race_after_exit. Qed.
Print Assumptions C79_get.

(** Main holds the guard of a state of a value and is about to store; the worker is about to attach a
    continuation, and has to wait. *)
Definition sc79 : list cmd := sc_two ++
  [Call 0 (APromise false); Call 0 (APGetFuture 0); Call 0 (AInvoke 2 10 []); Rn 5 0 30;
   Lb (LCall 5 (AFThen 0 2 LOther false 11 [])); Rn 5 0 3; Lb (LCall 0 (APSet 0 (VNat 3))); Rn 0 0 2].
Definition top (s : st) (t : tid) : option frame := match stk s t with f :: _ => Some f | [] => None end.
Definition can (s : st) (t : tid) : bool := match step s (LStep t 0) with Some _ => true | None => false end.
Definition check79 (s : st) : bool :=
  match top s 0, top s 5 with
  | Some (FSet1 0 (OVal (VNat 3))), Some (FThen2 0 _ _) => can s 0 && negb (can s 5) && negb (fs_ready (h_fsts (hp s) 0))
  | _, _ => false
  end.
Example C79_example : exists s, reachable s /\ check79 s = true.
Proof. apply (witness sc79). vm_compute. reflexivity. Qed.

(** Two threads that are not registered: one is inside when_all and about to call then on the second element
    of the result, without the lock; the other has set the first input and is about to run its
    continuation, which writes the first element, with the lock.  Neither has to wait. *)
Definition sc79e : list cmd :=
  [Call 0 AInit; Call 0 (APromise false); Call 0 (APGetFuture 0); Call 0 (APromise false); Call 0 (APGetFuture 1);
   Lb (LCall 0 (AStdThread 0)); Rn 0 9 20; Rn 9 0 9; Lb (LCall 0 (AStdThread 1)); Rn 0 10 20; Rn 10 0 9;
   Lb (LCall 9 (AWhenAll [0; 1])); Rn 9 0 8; Lb (LCall 10 (APSet 0 (VNat 3))); Rn 10 0 11].
Definition check79e (s : st) : bool :=
  match top s 9, top s 10 with
  | Some (FWThen 0 KAll _ 1 true 1 _), Some (FWIn true 0 0 0 3) => can s 9 && can s 10
  | _, _ => false
  end.
Example C79_example_elem : exists s, reachable s /\ check79e s = true.
Proof. apply (witness sc79e). vm_compute. reflexivity. Qed.

Lemma about : forall s t f a, can s t = true -> top s t = Some f -> In a (accesses (hp s) f) -> about_to s t a.
Proof.
  intros s t f a C T J. unfold can in C. unfold top in T. split.
  - destruct (step s (LStep t 0)) eqn:E; [eauto|discriminate C].
  - destruct (stk s t) as [|g r]; [discriminate T|]. injection T as ->. eauto.
Qed.

(** Both cases do occur.  A thread that was asked to exit leaves the wait in get, and main stores an exception. *)
Definition sc79g : list cmd := sc_two ++
  [Call 0 (APromise true); Call 0 (APGetFuture 0); Call 0 (AInvoke 2 10 []); Rn 5 0 30; Call 0 (ANotifyExit 2);
   Lb (LCall 5 (AFGet 0)); Rn 5 0 7; Lb (LCall 0 (APSetExn 0 7)); Rn 0 0 2].
Definition check79g (s : st) : bool :=
  match top s 5, top s 0 with
  | Some (FGet3 0 true), Some (FSet1 0 (OExn (XUser 7))) => can s 5 && can s 0 && fs_void (h_fsts (hp s) 0) && negb (fs_ready (h_fsts (hp s) 0))
  | _, _ => false
  end.
Theorem C79_get_refuted : exists s t u p, reachable s /\ race s t u (CExn p).
Proof.
  destruct (witness sc79g (fun s => check79g s = true)) as (s & R & X); [vm_compute; reflexivity|]. exists s, 5, 0, 0. split; [exact R|].
  unfold check79g in X. destruct (top s 5) as [f|] eqn:T5; [|discriminate X]. destruct f; try discriminate X. destruct p; try discriminate X. destruct take; try discriminate X.
  destruct (top s 0) as [f|] eqn:T0; [|discriminate X]. destruct f; try discriminate X. destruct p; try discriminate X. destruct o as [v|e]; try discriminate X.
  assert (Y : can s 5 && can s 0 && fs_void (h_fsts (hp s) 0) && negb (fs_ready (h_fsts (hp s) 0)) = true)
    by (destruct e; try discriminate X; do 8 (destruct n as [|n]; try discriminate X; try exact X)).
  apply andb_prop in Y as [Y Y4]. apply andb_prop in Y as [Y Y3]. apply andb_prop in Y as [Y1 Y2]. apply Bool.negb_true_iff in Y4.
  split; [discriminate|]. exists (mkAc (CExn 0) false false), (mkAc (CExn 0) true false). (split; [|split; [|auto]]).
  - apply (about s 5 (FGet3 0 true)); auto. cbn [accesses]. rewrite Y3. now left.
  - apply (about s 0 (FSet1 0 (OExn e))); auto. cbn [accesses]. rewrite Y4. right. now left.
Qed.
Print Assumptions C79_get_refuted.
(** Main is inside init; a thread of its own reads the id of the main thread. *)
Definition sc79m : list cmd :=
  [Lb (LCall 0 (AStdThread 0)); Rn 0 9 20; Rn 9 0 9; Lb (LCall 0 AInit); Rn 0 0 5; Lb (LCall 9 AMainId)].
Definition check79m (s : st) : bool :=
  match top s 9, top s 0 with
  | Some FMainId, Some (FInit3 _) => can s 9 && can s 0
  | _, _ => false
  end.
Theorem C79_main_refuted : exists s t u, reachable s /\ race s t u CMain.
Proof.
  destruct (witness sc79m (fun s => check79m s = true)) as (s & R & X); [vm_compute; reflexivity|]. exists s, 9, 0. split; [exact R|].
  unfold check79m in X. destruct (top s 9) as [f|] eqn:T9; [|discriminate X]. destruct f; try discriminate X.
  destruct (top s 0) as [f|] eqn:T0; [|discriminate X]. destruct f; try discriminate X.
  apply andb_prop in X as [X1 X2].
  split; [discriminate|]. exists (mkAc CMain false false), (mkAc CMain true true). (split; [|split; [|auto]]).
  - apply (about s 9 FMainId); auto. now left.
  - apply (about s 0 (FInit3 i)); auto. now left.
Qed.
Print Assumptions C79_main_refuted.
