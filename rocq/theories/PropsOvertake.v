(** * Jobs are not passed over for ever (C76). *)
From Verif Require Import Types Core State Ops Code Machine Scenario Spec SpecPool SpecCheck SpecWork SpecServe SpecOvertake PropsPool PropsServe.
From Verif Require ThmOvertake InvLook InvWork.

(** C76: while a job waits in group [g0] or a more urgent one, every look into the queue by a
    worker that may take it uses up an entry at least as urgent as [g0].  So there are fewer such looks
    than entries of this kind, those at the beginning and those added meanwhile. *)
Theorem C76_overtaken : forall s pl j g0 tr m, reachable s -> trace s = tr ++ m -> waiting_job pl j (trace s) -> keeps pl j g0 tr m ->
  count (looks pl g0) m < ahead pl g0 tr + count (joins pl g0) m.
Proof. exact ThmOvertake.overtaken. Qed.
Print Assumptions C76_overtaken.
(** A worker of the job's category or a lower one, attached and not asked to exit, looks
    into the queue, or is about to, when it has started the tasks accepted so far.  By
    C72 it starts them. *)
Theorem C76_round : forall s n i pl lv j g ls s' r, reachable s -> waiting_job pl j (trace s) -> group_of pl j (trace s) = Some g -> lv <= g_level g ->
  In (lv, (n, i)) (workers_of pl (trace s)) -> In i (reg_ids (trace s)) -> lock_holder (LPool pl) (trace s) = None ->
  all_along (serving n i) s ls -> run s ls = Some s' -> ubs s' = None -> started i (trace s') = accepted i (trace s) ++ r ->
  (exists e, since s s' e /\ looks_by n pl lv e = true) \/ exists f r, stk s' n = f :: r /\ checking pl lv f = true.
Proof. exact InvLook.round. Qed.
Print Assumptions C76_round.

(** Three jobs wait.  The worker starts the three checks it was sent; the first two take the jobs 3
    and 2.  Job 1 was passed over twice, and the worker is about to look again. *)
Definition sc76 : list cmd := sc_pool ++
  [Call 0 (APSched 0 (mkGroup 0 2) true 10 []); Call 0 (APSched 0 (mkGroup 0 5) true 11 []); Call 0 (APSched 0 (mkGroup 0 9) true 12 [])].
Definition ls76 : list label := repeat (LStep 5 0) 9 ++ LRet 5 VUnit :: repeat (LStep 5 0) 45 ++ LRet 5 VUnit :: repeat (LStep 5 0) 37.
Definition waits76 (tr : list event) : bool :=
  existsb (Nat.eqb 1) (jobs_of 0 tr) && forallb (fun e => match e with EvJobTake _ 0 1 _ _ => false | _ => true end) tr.
Lemma waits76_ok : forall tr, waits76 tr = true -> waiting_job 0 1 tr.
Proof.
  intros tr H. apply andb_prop in H as [A B]. apply existsb_exists in A as (x & I & X). apply Nat.eqb_eq in X. subst x. split; auto.
  intros (t & lv & g & Y). rewrite forallb_forall in B. apply B in Y. discriminate Y.
Qed.
Definition calm76 (s s' : st) : bool :=
  match attached 5 (trace s') with Some 2 => true | _ => false end &&
  forallb (fun e => match e with EvExitSet _ _ => false | _ => true end) (trace s') &&
  forallb (fun e => match e with EvLoc 5 _ | EvJobRegroup _ _ _ _ => false | _ => true end) (skipn (length (trace s)) (trace s')).
Lemma calm76_ok : forall s s' m, run s ls76 = Some s' -> trace s' = trace s ++ m -> calm76 s s' = true ->
  all_along (serving 5 2) s ls76 /\ forall t pl j g, ~ In (EvJobRegroup t pl j g) m.
Proof.
  intros s s' m Rn Em C. apply andb_prop in C as [C C3]. apply andb_prop in C as [C1 C2]. rewrite forallb_forall in C2, C3.
  rewrite Em, skipn_app, skipn_all, Nat.sub_diag in C3. cbn [skipn app] in C3. split.
  - apply (C72_throughout ls76 s 5 2 s'); auto.
    + split; [destruct (attached 5 (trace s')) as [[|[|[|]]]|]; congruence|]. intros (u & X). apply C2 in X. discriminate X.
    + intros j (a & b & X). rewrite Em in X. apply app_inv_head in X.
      assert (Y : In (EvLoc 5 (Some j)) m) by (rewrite X; apply in_or_app; right; now left). apply C3 in Y. discriminate Y.
  - intros t pl j g X. apply C3 in X. discriminate X.
Qed.
Definition check76 (s : st) : bool :=
  (ahead 0 (mkGroup 0 2) (trace s) =? 3) && match group_of 0 1 (trace s) with Some g => group_eqb g (mkGroup 0 2) | None => false end &&
  match workers_of 0 (trace s) with [(0, (5, 2))] => true | _ => false end && existsb (Nat.eqb 2) (reg_ids (trace s)) &&
  match lock_holder (LPool 0) (trace s) with None => true | _ => false end && waits76 (trace s) && (length (accepted 2 (trace s)) =? 4) &&
  match run s ls76 with
  | Some s' => calm76 s s' && waits76 (trace s') && match ubs s' with None => true | _ => false end &&
      (length (started 2 (trace s')) =? 4) && (count (looks 0 (mkGroup 0 2)) (skipn (length (trace s)) (trace s')) =? 2) &&
      match stk s' 5 with f :: _ => checking 0 0 f | _ => false end
  | None => false
  end.
Example C76_example : exists s s' m f r, reachable s /\ run s ls76 = Some s' /\ ubs s' = None /\ trace s' = trace s ++ m /\
  waiting_job 0 1 (trace s) /\ waiting_job 0 1 (trace s') /\ keeps 0 1 (mkGroup 0 2) (trace s) m /\
  count (looks 0 (mkGroup 0 2)) m = 2 /\ ahead 0 (mkGroup 0 2) (trace s) = 3 /\ group_of 0 1 (trace s) = Some (mkGroup 0 2) /\
  In (0, (5, 2)) (workers_of 0 (trace s)) /\ In 2 (reg_ids (trace s)) /\ lock_holder (LPool 0) (trace s) = None /\
  all_along (serving 5 2) s ls76 /\ length (accepted 2 (trace s)) = 4 /\ length (started 2 (trace s')) = 4 /\
  stk s' 5 = f :: r /\ checking 0 0 f = true.
Proof.
  destruct (witness sc76 (fun s => check76 s = true)) as (s & R & X); [vm_compute; reflexivity|]. unfold check76 in X.
  apply andb_prop in X as [X Y]. destruct (run s ls76) as [s'|] eqn:Rn; [|discriminate Y].
  apply andb_prop in X as [X X7]. apply andb_prop in X as [X X6]. apply andb_prop in X as [X X5]. apply andb_prop in X as [X X4].
  apply andb_prop in X as [X X3]. apply andb_prop in X as [X1 X2].
  apply andb_prop in Y as [Y Y6]. apply andb_prop in Y as [Y Y5]. apply andb_prop in Y as [Y Y4]. apply andb_prop in Y as [Y Y3]. apply andb_prop in Y as [Y1 Y2].
  destruct (InvWork.run_grows _ _ _ Rn) as (m & Em). destruct (stk s' 5) as [|f r] eqn:Es; [discriminate Y6|]. destruct (ubs s') eqn:U; [discriminate Y3|].
  destruct (calm76_ok s s' m Rn Em Y1) as [Al Nr]. rewrite Em, skipn_app, skipn_all, Nat.sub_diag in Y5. cbn [skipn app] in Y5.
  apply Nat.eqb_eq in X1, X7, Y4, Y5. apply waits76_ok in X6, Y2.
  assert (G : group_of 0 1 (trace s) = Some (mkGroup 0 2)).
  { destruct (group_of 0 1 (trace s)) as [g|]; [|discriminate X2]. apply ThmOvertake.group_eqb_eq in X2. now subst. }
  assert (K : keeps 0 1 (mkGroup 0 2) (trace s) m).
  { split; [exists (mkGroup 0 2); auto|]. intros t g I. exfalso. exact (Nr _ _ _ _ I). }
  assert (W : In (0, (5, 2)) (workers_of 0 (trace s))).
  { destruct (workers_of 0 (trace s)) as [|[[|] [[|[|[|[|[|[|]]]]]] [|[|[|]]]]] [|]]; try discriminate X3. now left. }
  assert (Rg : In 2 (reg_ids (trace s))) by (apply existsb_exists in X4 as (y & I & Z); apply Nat.eqb_eq in Z; now subst).
  assert (Lk : lock_holder (LPool 0) (trace s) = None) by (destruct (lock_holder (LPool 0) (trace s)); [discriminate X5|reflexivity]).
  exists s, s', m, f, r. tauto.
Qed.
