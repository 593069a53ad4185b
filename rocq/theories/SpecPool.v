(** * SpecPool: the jobs of thread pools.  Only histories occur here. *)
From Verif Require Import Types Spec.

Definition added (pl j : nat) (tr : list event) : Prop := exists t g p q, In (EvJobAdd t pl j g p q) tr.
Definition taken (pl j : nat) (tr : list event) : Prop := exists t lv g, In (EvJobTake t pl j lv g) tr.
(** Scheduled, not stopped or cleared, and not started. *)
Definition waiting_job (pl j : nat) (tr : list event) : Prop := In j (jobs_of pl tr) /\ ~ taken pl j tr.
(** The group the job was last given. *)
Definition group_of (pl j : nat) (tr : list event) : option group :=
  latest (fun e => match e with
                   | EvJobAdd _ pl' j' g _ _ | EvJobRegroup _ pl' j' g => if (pl' =? pl) && (j' =? j) then Some (Some g) else None
                   | _ => None
                   end) None tr.
(** The queue entries: one is added with each job and each change of priority;
    a check removes at most one, stop_all and the destructor remove all. *)
Definition entry_eqb (a b : nat * group) : bool := (fst a =? fst b) && group_eqb (snd a) (snd b).
Fixpoint drop_one (x : nat * group) (l : list (nat * group)) : list (nat * group) :=
  match l with
  | [] => []
  | y :: r => if entry_eqb x y then r else y :: drop_one x r
  end.
Definition entries_step (pl : nat) (l : list (nat * group)) (e : event) : list (nat * group) :=
  match e with
  | EvJobAdd _ pl' j g _ _ | EvJobRegroup _ pl' j g => if pl' =? pl then l ++ [(j, g)] else l
  | EvJobTake _ pl' j _ g | EvJobSkip _ pl' _ (Some (j, g)) => if pl' =? pl then drop_one (j, g) l else l
  | EvJobClear _ pl' _ => if pl' =? pl then [] else l
  | _ => l
  end.
Definition entries_of (pl : nat) (tr : list event) : list (nat * group) := fold_left (entries_step pl) tr [].

(** The workers: level, thread, library id. *)
Definition workers_step (pl : nat) (l : list (nat * (tid * id))) (e : event) : list (nat * (tid * id)) :=
  match e with
  | EvWorker _ pl' lv n i => if pl' =? pl then l ++ [(lv, (n, i))] else l
  | EvWorkersOut _ pl' => if pl' =? pl then [] else l
  | _ => l
  end.
Definition workers_of (pl : nat) (tr : list event) : list (nat * (tid * id)) := fold_left (workers_step pl) tr [].

(** Among the entries of a category >= [lv], [(j, g)] is one of the highest
    category and in it of the highest priority. *)
Definition most_urgent (lv j : nat) (g : group) (l : list (nat * group)) : Prop :=
  In (j, g) l /\ lv <= g_level g /\
  forall j' g', In (j', g') l -> lv <= g_level g' ->
    g_level g' < g_level g \/ (g_level g' = g_level g /\ g_prio g' <= g_prio g).

(** What may happen to the jobs of a pool, after the history [tr]. *)
Definition job_rules (tr : list event) (e : event) : Prop :=
  match e with
  | EvJobAdd _ pl j _ _ _ => j <> 0 /\ ~ added pl j tr
  | EvJobRegroup _ pl j g => waiting_job pl j tr /\ group_of pl j tr <> Some g
  | EvJobTake _ pl j lv g =>
      waiting_job pl j tr /\ most_urgent lv j g (entries_of pl tr) /\
      exists g', group_of pl j tr = Some g' /\ lv <= g_level g'
  | EvJobSkip _ pl lv (Some (j, g)) =>
      most_urgent lv j g (entries_of pl tr) /\
      (~ waiting_job pl j tr \/ exists g', group_of pl j tr = Some g' /\ g_level g' < lv)
  | EvJobSkip _ pl lv None => forall j g, In (j, g) (entries_of pl tr) -> g_level g < lv
  | EvJobErase _ pl js => exists j, js = [j] /\ In j (jobs_of pl tr)
  | EvJobClear _ pl js => js = jobs_of pl tr
  | _ => True
  end.
