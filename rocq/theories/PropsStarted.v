(** * A packaged function sent to a worker gets its result (C77). *)
From Verif Require Import Types Core State Ops Code Machine Scenario Spec SpecKind SpecWhere SpecWork SpecServe SpecStarted PropsOwn PropsServe.
From Verif Require InvStarted InvWork.

(** C77: from the moment a thread starts the closure of a packaged function, until the state of the
    function is ready, this very thread is running it or is storing its outcome. *)
Theorem C77_started : forall s, reachable s -> forall t i k q, packs q k -> In (EvStart t i k) (trace s) ->
  forall u, purpose_is (trace s) q (PuFun u) -> is_ready q (trace s) \/ exists f, In f (stk s t) /\ busy_with q f.
Proof. intros s R t i k q K H. exact (proj2 (InvStarted.started_result s R t i k q K H)). Qed.
Print Assumptions C77_started.
(** So when the thread is back in its loop the state is ready. *)
Theorem C77_back : forall s t i k q u, reachable s -> packs q k -> In (EvStart t i k) (trace s) -> purpose_is (trace s) q (PuFun u) ->
  at_home s t = true -> is_ready q (trace s).
Proof. exact InvStarted.started_home. Qed.
Print Assumptions C77_back.
(** Together with C72: a function accepted for a worker that stays attached and is not asked
    to exit.  Whenever the worker is back in its loop, the state is ready, or the worker has
    taken only a limited number of steps between tasks and can go on. *)
Theorem C77_served : forall s t i ls s' v k q u, reachable s -> looping (stk s t) = true -> all_along (serving t i) s ls -> run s ls = Some s' -> ubs s' = None ->
  packs q k -> In (EvAccept v i k) (trace s) -> purpose_is (trace s') q (PuFun u) -> at_home s' t = true ->
  is_ready q (trace s') \/ home_steps t s ls <= 3 * waiting i (trace s) /\ exists s2, step s' (LStep t 0) = Some s2.
Proof. exact InvStarted.served_result. Qed.
Print Assumptions C77_served.

(** Function 10 is sent to the worker, which sleeps; when it is back in its loop state 0 is ready. *)
Definition sc77 : list cmd := sc_two ++ [Call 0 (AAsync 2 LOther false 10 [])].
Definition ls77 : list label := repeat (LStep 5 0) 3 ++ LRet 5 (VNat 3) :: repeat (LStep 5 0) 14.
Definition k77 : task := TPack 0 (BUser 10 []).
Definition calm77 (s s' : st) : bool :=
  match attached 5 (trace s') with Some 2 => true | _ => false end &&
  forallb (fun e => match e with EvExitSet _ _ => false | _ => true end) (trace s') &&
  forallb (fun e => match e with EvLoc 5 _ => false | _ => true end) (skipn (length (trace s)) (trace s')).
Lemma calm77_ok : forall s s', run s ls77 = Some s' -> calm77 s s' = true -> all_along (serving 5 2) s ls77.
Proof.
  intros s s' Rn C. destruct (InvWork.run_grows _ _ _ Rn) as (m & Em).
  apply andb_prop in C as [C C3]. apply andb_prop in C as [C1 C2]. rewrite forallb_forall in C2, C3.
  rewrite Em, skipn_app, skipn_all, Nat.sub_diag in C3. cbn [skipn app] in C3.
  apply (C72_throughout ls77 s 5 2 s'); auto.
  - split; [destruct (attached 5 (trace s')) as [[|[|[|]]]|]; congruence|]. intros (u & X). apply C2 in X. discriminate X.
  - intros j (a & b & X). rewrite Em in X. apply app_inv_head in X.
    assert (Y : In (EvLoc 5 (Some j)) m) by (rewrite X; apply in_or_app; right; now left). apply C3 in Y. discriminate Y.
Qed.
Definition check77 (s : st) : bool :=
  looping (stk s 5) &&
  existsb (fun e => match e with EvAccept 0 2 (TPack 0 (BUser 10 [])) => true | _ => false end) (trace s) &&
  match outcome_of 0 (trace s) with None => true | _ => false end &&
  match run s ls77 with
  | Some s' => calm77 s s' && at_home s' 5 && match ubs s' with None => true | _ => false end &&
      existsb (fun e => match e with EvStart 5 2 (TPack 0 (BUser 10 [])) => true | _ => false end) (trace s') &&
      existsb (fun e => match e with EvState _ 0 _ (PuFun 10) => true | _ => false end) (trace s')
  | None => false
  end.
Example C77_example : exists s s', reachable s /\ looping (stk s 5) = true /\ run s ls77 = Some s' /\ ubs s' = None /\
  all_along (serving 5 2) s ls77 /\ packs 0 k77 /\ In (EvAccept 0 2 k77) (trace s) /\ In (EvStart 5 2 k77) (trace s') /\
  purpose_is (trace s') 0 (PuFun 10) /\ at_home s' 5 = true /\ ~ is_ready 0 (trace s).
Proof.
  destruct (witness sc77 (fun s => check77 s = true)) as (s & R & X); [vm_compute; reflexivity|]. unfold check77 in X.
  apply andb_prop in X as [X Y]. destruct (run s ls77) as [s'|] eqn:Rn; [|discriminate Y].
  apply andb_prop in X as [X X3]. apply andb_prop in X as [X1 X2].
  apply andb_prop in Y as [Y Y5]. apply andb_prop in Y as [Y Y4]. apply andb_prop in Y as [Y Y3]. apply andb_prop in Y as [Y1 Y2].
  destruct (ubs s') eqn:U; [discriminate Y3|]. pose proof (calm77_ok s s' Rn Y1) as Al.
  assert (A : In (EvAccept 0 2 k77) (trace s)).
  { apply existsb_exists in X2 as (e & I & Z). destruct e; try discriminate Z.
    repeat match type of Z with context [match ?x with _ => _ end] => is_var x; destruct x; try discriminate Z end. exact I. }
  assert (B : In (EvStart 5 2 k77) (trace s')).
  { apply existsb_exists in Y4 as (e & I & Z). destruct e; try discriminate Z.
    repeat match type of Z with context [match ?x with _ => _ end] => is_var x; destruct x; try discriminate Z end. exact I. }
  assert (P : purpose_is (trace s') 0 (PuFun 10)).
  { left. apply existsb_exists in Y5 as (e & I & Z). destruct e; try discriminate Z.
    repeat match type of Z with context [match ?x with _ => _ end] => is_var x; destruct x; try discriminate Z end. eauto. }
  assert (N : ~ is_ready 0 (trace s)).
  { unfold is_ready. destruct (outcome_of 0 (trace s)); [discriminate X3|tauto]. }
  assert (K : packs 0 k77) by (left; exists 10, []; reflexivity).
  exists s, s'. tauto.
Qed.
