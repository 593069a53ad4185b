(** * The futures made by when_all and when_any get their results (C80). *)
From Verif Require Import Types Core State Ops Code Machine Scenario Spec SpecWhen SpecWork SpecServe SpecBegun PropsOwn PropsServe.
From Verif Require InvBegun InvWork.

(** C80: when the continuations that when_all attached to its inputs have all been started by one thread,
    and this thread is back in its loop, the future made by when_all is ready. *)
Theorem C80_all_back : forall s t w p ins, reachable s -> combines (trace s) true w p ins -> (forall i, i < length ins -> begun (trace s) true t w i) ->
  at_home s t = true -> is_ready p (trace s).
Proof. exact InvBegun.all_home. Qed.
Print Assumptions C80_all_back.
(** For when_any one of them is enough, if no other thread ran one and the thread that called when_any is meant. *)
Theorem C80_any_back : forall s t w p ins i, reachable s -> In (EvWhen t false w p ins) (trace s) -> begun (trace s) false t w i ->
  (forall u j q, In (EvHook u w j q) (trace s) -> u = t) -> at_home s t = true -> is_ready p (trace s).
Proof. exact InvBegun.any_home. Qed.
Print Assumptions C80_any_back.
(** Together with C72: the continuations were accepted for a worker that stays attached and is not asked to
    exit.  Whenever the worker is back in its loop, the future is ready, or the worker has taken only a
    limited number of steps between tasks and can go on. *)
Theorem C80_all_served : forall s t c ls s' w p ins, reachable s -> looping (stk s t) = true -> all_along (serving t c) s ls -> run s ls = Some s' -> ubs s' = None ->
  combines (trace s) true w p ins -> (forall i, i < length ins -> sent (trace s) true t c w i) -> at_home s' t = true ->
  is_ready p (trace s') \/ home_steps t s ls <= 3 * waiting c (trace s) /\ exists s2, step s' (LStep t 0) = Some s2.
Proof. exact InvBegun.all_served. Qed.
Print Assumptions C80_all_served.
Theorem C80_any_served : forall s t c ls s' w p ins i, reachable s -> looping (stk s t) = true -> all_along (serving t c) s ls -> run s ls = Some s' -> ubs s' = None ->
  In (EvWhen t false w p ins) (trace s) -> sent (trace s) false t c w i -> (forall u j q, In (EvHook u w j q) (trace s') -> u = t) -> at_home s' t = true ->
  is_ready p (trace s') \/ home_steps t s ls <= 3 * waiting c (trace s) /\ exists s2, step s' (LStep t 0) = Some s2.
Proof. exact InvBegun.any_served. Qed.
Print Assumptions C80_any_served.

(** A task of the worker combines two futures and ends; main sets both promises while the worker sleeps.
    The worker takes 49 steps and is back in its loop. *)
Definition sc80 (all : bool) (last : list cmd) : list cmd := sc_two ++
  [Call 0 (APromise false); Call 0 (APGetFuture 0); Call 0 (APromise false); Call 0 (APGetFuture 1);
   Call 0 (AInvoke 2 10 []); Rn 5 0 20; Call 5 (if all then AWhenAll [0; 1] else AWhenAny true [0; 1]);
   Lb (LRet 5 VUnit); Rn 5 0 30] ++ last ++ [Call 0 (APSet 1 (VNat 4))].
Definition calm80 (s s' : st) : bool :=
  match attached 5 (trace s') with Some 2 => true | _ => false end &&
  forallb (fun e => match e with EvExitSet _ _ => false | _ => true end) (trace s') &&
  forallb (fun e => match e with EvLoc 5 _ => false | _ => true end) (skipn (length (trace s)) (trace s')).
Lemma calm80_ok : forall s s' ls, run s ls = Some s' -> calm80 s s' = true -> all_along (serving 5 2) s ls.
Proof.
  intros s s' ls Rn C. destruct (InvWork.run_grows _ _ _ Rn) as (m & Em).
  apply andb_prop in C as [C C3]. apply andb_prop in C as [C1 C2]. rewrite forallb_forall in C2, C3.
  rewrite Em, skipn_app, skipn_all, Nat.sub_diag in C3. cbn [skipn app] in C3.
  apply (C72_throughout ls s 5 2 s'); auto.
  - split; [destruct (attached 5 (trace s')) as [[|[|[|]]]|]; congruence|]. intros (u & X). apply C2 in X. discriminate X.
  - intros j (a & b & X). rewrite Em in X. apply app_inv_head in X.
    assert (Y : In (EvLoc 5 (Some j)) m) by (rewrite X; apply in_or_app; right; now left). apply C3 in Y. discriminate Y.
Qed.
Definition is_acc (all : bool) (i : nat) (e : event) : bool :=
  match e with
  | EvAccept _ 2 (TPack _ (BAll 0 j _)) => all && (j =? i)
  | EvAccept _ 2 (TPack _ (BAny 0 j _)) => negb all && (j =? i)
  | _ => false
  end.
Definition is_comb (all : bool) (e : event) : bool :=
  match e with EvWhen 5 a 0 2 [0; 1] => Bool.eqb a all | _ => false end.
Definition check80 (all : bool) (k : nat) (s : st) : bool :=
  looping (stk s 5) && (negb all || existsb (is_acc all 0) (trace s)) && existsb (is_acc all 1) (trace s) && existsb (is_comb all) (trace s) &&
  match outcome_of 2 (trace s) with None => true | _ => false end &&
  match run s (repeat (LStep 5 0) k) with
  | Some s' => calm80 s s' && at_home s' 5 && match ubs s' with None => true | _ => false end && match outcome_of 2 (trace s') with None => false | _ => true end &&
      forallb (fun e => match e with EvHook u _ _ _ => u =? 5 | _ => true end) (trace s')
  | None => false
  end.
Lemma acc_sent : forall all i tr, existsb (is_acc all i) tr = true -> sent tr all 5 2 0 i.
Proof.
  intros al i tr H. apply existsb_exists in H as (e & I & Z). right. destruct al; unfold is_acc in Z; destruct e; try discriminate Z;
  repeat (match type of Z with context [match ?x with _ => _ end] => is_var x; destruct x; try discriminate Z end);
apply andb_prop in Z as [Z1 Z2]; apply Nat.eqb_eq in Z2; subst; try discriminate Z1; do 2 eexists; (split; [unfold hook_closure; eauto|exact I]).
Qed.
Lemma comb_ev : forall all tr, existsb (is_comb all) tr = true -> In (EvWhen 5 all 0 2 [0; 1]) tr.
Proof.
  intros all tr H. apply existsb_exists in H as (e & I & Z). unfold is_comb in Z. destruct e; try discriminate Z.
  repeat match type of Z with context [match ?x with _ => _ end] => is_var x; destruct x; try discriminate Z end.
  all: apply Bool.eqb_prop in Z; subst; exact I.
Qed.
Example C80_all_example : exists s s', reachable s /\ looping (stk s 5) = true /\ run s (repeat (LStep 5 0) 49) = Some s' /\ ubs s' = None /\
  all_along (serving 5 2) s (repeat (LStep 5 0) 49) /\ combines (trace s) true 0 2 [0; 1] /\ (forall i, i < 2 -> sent (trace s) true 5 2 0 i) /\
  at_home s' 5 = true /\ ~ is_ready 2 (trace s) /\ is_ready 2 (trace s').
Proof.
  destruct (witness (sc80 true [Call 0 (APSet 0 (VNat 3))]) (fun s => check80 true 49 s = true)) as (s & R & X); [vm_compute; reflexivity|]. unfold check80 in X.
  apply andb_prop in X as [X Y]. destruct (run s _) as [s'|] eqn:Rn; [|discriminate Y]. exists s, s'.
  apply andb_prop in X as [X X5]. apply andb_prop in X as [X X4]. apply andb_prop in X as [X X3]. apply andb_prop in X as [X1 X2].
  apply andb_prop in Y as [Y Y5]. apply andb_prop in Y as [Y Y4]. apply andb_prop in Y as [Y Y3]. apply andb_prop in Y as [Y1 Y2].
  cbn [negb orb] in X2. unfold is_ready.
  repeat (split; [first [assumption|destruct (ubs s'); [discriminate Y3|reflexivity]|exact (calm80_ok _ _ _ Rn Y1)|exists 5; exact (comb_ev _ _ X4)|idtac]|]).
  - intros [|[|i]] Li; [exact (acc_sent _ _ _ X2)|exact (acc_sent _ _ _ X3)|lia].
  - destruct (outcome_of 2 (trace s)); [discriminate X5|tauto].
  - destruct (outcome_of 2 (trace s')); [discriminate|discriminate Y4].
Qed.
Example C80_any_example : exists s s', reachable s /\ looping (stk s 5) = true /\ run s (repeat (LStep 5 0) 27) = Some s' /\ ubs s' = None /\
  all_along (serving 5 2) s (repeat (LStep 5 0) 27) /\ In (EvWhen 5 false 0 2 [0; 1]) (trace s) /\ sent (trace s) false 5 2 0 1 /\
  (forall u j q, In (EvHook u 0 j q) (trace s') -> u = 5) /\ at_home s' 5 = true /\ ~ is_ready 2 (trace s) /\ is_ready 2 (trace s').
Proof.
  destruct (witness (sc80 false []) (fun s => check80 false 27 s = true)) as (s & R & X); [vm_compute; reflexivity|]. unfold check80 in X.
  apply andb_prop in X as [X Y]. destruct (run s _) as [s'|] eqn:Rn; [|discriminate Y]. exists s, s'.
  apply andb_prop in X as [X X5]. apply andb_prop in X as [X X4]. apply andb_prop in X as [X X3]. apply andb_prop in X as [X1 X2].
  apply andb_prop in Y as [Y Y5]. apply andb_prop in Y as [Y Y4]. apply andb_prop in Y as [Y Y3]. apply andb_prop in Y as [Y1 Y2].
  unfold is_ready.
  repeat (split; [first [assumption|destruct (ubs s'); [discriminate Y3|reflexivity]|exact (calm80_ok _ _ _ Rn Y1)|exact (comb_ev _ _ X4)|exact (acc_sent _ _ _ X3)|idtac]|]).
  - intros u j q I. rewrite forallb_forall in Y5. apply Y5 in I. now apply Nat.eqb_eq in I.
  - destruct (outcome_of 2 (trace s)); [discriminate X5|tauto].
  - destruct (outcome_of 2 (trace s')); [discriminate|discriminate Y4].
Qed.
