(** * SpecOvertake: how often a waiting job is passed over. *)
From Verif Require Import Types Spec SpecPool SpecOrder.

(** [g] is at least as urgent as [g0]. *)
Definition urgent (g0 g : group) : bool :=
  (g_level g0 <? g_level g) || ((g_level g0 =? g_level g) && (g_prio g0 <=? g_prio g)).
(** The queue entries that are at least as urgent as [g0]. *)
Definition ahead (pl : nat) (g0 : group) (tr : list event) : nat :=
  length (filter (fun x => urgent g0 (snd x)) (entries_of pl tr)).
(** A job was added to this group or put into it by change_priority. *)
Definition joins (pl : nat) (g0 : group) (e : event) : bool :=
  match e with
  | EvJobAdd _ pl' _ g _ _ | EvJobRegroup _ pl' _ g => (pl' =? pl) && urgent g0 g
  | _ => false
  end.
(** A worker that may take jobs of group [g0] has looked into the queue. *)
Definition looks (pl : nat) (g0 : group) (e : event) : bool :=
  match e with
  | EvJobTake _ pl' _ lv _ | EvJobSkip _ pl' lv _ => (pl' =? pl) && (lv <=? g_level g0)
  | _ => false
  end.
Definition count (f : event -> bool) (l : list event) : nat := length (filter f l).
(** The job has group [g0] or a more urgent one after [tr], and was not given another during [m]. *)
Definition keeps (pl j : nat) (g0 : group) (tr m : list event) : Prop :=
  (exists g, group_of pl j tr = Some g /\ urgent g0 g = true) /\
  forall t g, In (EvJobRegroup t pl j g) m -> urgent g0 g = true.
(** Thread [n], a worker of category [lv], has looked into the queue. *)
Definition looks_by (n : tid) (pl lv : nat) (e : event) : bool :=
  match e with
  | EvJobTake t pl' _ lv' _ | EvJobSkip t pl' lv' _ => (t =? n) && (pl' =? pl) && (lv' =? lv)
  | _ => false
  end.
