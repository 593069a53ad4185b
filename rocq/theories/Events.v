(** * Events: which event each operation records. *)
From Verif Require Import Types Core State Ops Code Machine Base.

Definition op_event (h : heap) (t : tid) {T} (o : op T) : T -> option event :=
  match o in op T return T -> option event with
  | OLog e => fun _ => Some (e t)
  | OReg on => fun i => Some (EvReg t (match on with Some n => n | None => t end) i (negb (mem i (h_regd h))))
  | OSetLoc l => fun _ => Some (EvLoc t l)
  | OUnreg i => fun b => if b then Some (EvUnreg t i) else None
  | ORelease i => fun _ =>
      if alive (upd_ctx h i (set_refs (h_ctxs h i) (rem1 t (cx_refs (h_ctxs h i))))) i then None
      else Some (EvCtxGone i (ctx_pending (h_ctxs h i)))
  | OInitInc => fun _ => Some (EvInit t (h_initc h + 1))
  | OInitDec => fun _ => Some (EvInit t (h_initc h - 1))
  | OSetMain i => fun _ => Some (EvMain t i)
  | OPush i k => fun _ => Some (EvAccept t i k)
  | OExitSet i => fun _ => Some (EvExitSet t i)
  | OProc i => fun r => match r with WTask k => Some (EvStart t i k) | _ => None end
  | OTakeSleep i => fun r =>
      match r with WTask k => Some (EvStart t i k) | WSlept _ => Some (EvSleep t i) | WExit => None end
  | OWake i _ => fun r => match snd r with Some k => Some (EvStart t i k) | None => None end
  | OEnd i => fun _ => Some (EvDone t i)
  | OSpawn => fun n => Some (EvSpawn t n)
  | OThEnd => fun _ => Some (EvThreadEnd t)
  | OThPut o x => fun _ => Some (EvThObj t o (fst x) (snd x))
  | OAddW s i => fun tk =>
      Some (EvWaiter t s i tk (match find_waiter (h_sems h s) i with Some _ => false | None => true end))
  | ORemW s i => fun _ => Some (EvUnwaiter t s i)
  | OTokSet tk => fun _ => Some (EvInterrupt t tk)
  | ONotif s all => fun ws => Some (EvNotify t s all ws)
  | OLock l => fun _ => Some (EvLock t l)
  | OUnlock l => fun _ => Some (EvUnlock t l)
  | OTas m => fun b => if b then None else Some (EvMxAcq t m)
  | OClear m => fun _ => Some (EvMxRel t m)
  | ONewState v u => fun p => Some (EvState t p v u)
  | OTrySet p o => fun x => match x with Some _ => Some (EvReady t p o) | None => None end
  | OAttach p cb => fun _ => Some (EvAttach t p cb)
  | OGetVal p _ => fun r => Some (EvGot t p r)
  | ORetr p => fun b => Some (EvRetr t p b)
  | OPrmNew p => fun n => Some (EvPrm t n (Some p))
  | OPrmPut pr x => fun _ => Some (EvPrm t pr x)
  | OPrmTake pr => fun _ => Some (EvPrm t pr None)
  | OHndNew sh p => fun n => Some (EvHnd t n sh p)
  | OHndFrom sh p => fun n => Some (EvHnd t n sh (Some p))
  | OHndTake n => fun x => Some (EvHnd t n (fst x) None)
  | OWNew a hs => fun w =>
      match all_some (map (fun n => snd (h_hnds h n)) hs) with
      | Some ins => Some (EvWhen t a w (h_nfs h) ins)
      | None => None
      end
  | OWFill _ n => fun x => Some (EvHnd t n (negb (fst x)) (if fst x then None else Some (snd x)))
  | OWAll w i _ q | OWAny w i _ q => fun _ => Some (EvHook t w i q)
  | OWHandle w => fun n => Some (EvHnd t n false (Some (w_prom (h_wcs h w))))
  | OPoolBind o pl => fun _ => Some (EvPoolNew t o pl)
  | OPWorker pl lv n i => fun _ => Some (EvWorker t pl lv n i)
  | OPMoveW pl => fun _ => Some (EvWorkersOut t pl)
  | OPoolMove d s => fun _ => Some (EvPoolMove t d s)
  | OPoolSent d s => fun _ => Some (EvPoolSent t d s)
  | OPoolKill o => fun _ => Some (EvPoolKill t o)
  | OPAdd pl g k p q => fun j => Some (EvJobAdd t pl j g p q)
  | OPChange pl j g => fun b => if b then Some (EvJobRegroup t pl j g) else None
  | OPClear pl j _ => fun x => match x with Some _ => Some (EvJobErase t pl [j]) | None => None end
  | OPClearAll pl => fun _ => Some (EvJobClear t pl (map fst (pl_jobs (h_pools h pl))))
  | OPTake pl lv => fun x => match x with
                             | (Some d, Some (j, _)) => Some (EvJobTake t pl j lv (hd_group d))
                             | (d, _) => Some (EvJobSkip t pl lv (option_map (fun d => (hd_id d, hd_group d)) d))
                             end
  | _ => fun _ => None
  end.

Lemma atom_event : forall h t T (o : op T) inp h' x, atom h t o inp = AOk h' x ->
  h_tr h' = match op_event h t o x with Some e => e :: h_tr h | None => h_tr h end.
Proof.
  intros h t T o inp h' x H.
  destruct o; cbn [atom] in H; try discriminate H;
    try solve [op_unfold H; brki H; try discriminate H; inversion H; subst; hs; cbn [op_event fst snd negb];
               try match goal with E : ?a = ?b |- context [match ?a with _ => _ end] => rewrite E end; reflexivity].
  op_unfold H. set (n := match o with Some n => n | None => t end) in *.
  destruct (h_idmap h n) as [i|]; [destruct (i =? invalid_id)|];
    match type of H with context [mem ?i ?l] => destruct (mem i l) eqn:M end;
    inversion H; subst; hs; cbn [op_event]; rewrite M; reflexivity.
Qed.

(** The same for moves: [ev] is the event of the operation. *)
Lemma cons_neq : forall A (e : A) l, l <> e :: l.
Proof. intros A e l H. apply (f_equal (@length A)) in H. cbn in H. lia. Qed.

Lemma atom_event_is : forall h t T (o : op T) inp h' x e, atom h t o inp = AOk h' x ->
  h_tr h' = e :: h_tr h -> op_event h t o x = Some e.
Proof.
  intros h t T o inp h' x e A E. apply atom_event in A. rewrite E in A.
  destruct (op_event h t o x); [now injection A as <-|]. symmetry in A. now apply cons_neq in A.
Qed.

Lemma emit_event : forall h e e', h_tr (emit h e') = e :: h_tr h -> e' = e.
Proof. intros h e e' H. now injection H. Qed.

(** Which moves record the event of [X : h_tr h' = e :: h_tr h]? *)
Ltac ev_cases L X :=
  lstep_cases L;
  first [ apply emit_event in X; try discriminate X
        | match goal with A : atom _ _ _ _ = AOk _ _ |- _ => apply (atom_event_is _ _ _ _ _ _ _ _ A) in X end;
          cbn [op_event] in X; try discriminate X;
          try solve [repeat match type of X with context [match ?x with _ => _ end] => destruct x end; discriminate X] ].

Lemma gone_frame : forall h t pre h' n i ts, lstep h t pre h' n -> h_tr h' = EvCtxGone i ts :: h_tr h ->
  pre = [FRel i] /\ ts = ctx_pending (h_ctxs h i).
Proof.
  intros h t pre h' n i ts L X. ev_cases L X.
  destruct (alive _ _) in X; [discriminate X|]. injection X as <- <-. auto.
Qed.
