(** * SpecHandle: job handles and the pool objects that made them. *)
From Verif Require Import Types Core State Ops Code Machine Spec SpecApi.

(** The sentinel of each pool object, and the number of sentinels made so far. *)
Definition sent_step (x : (nat -> option nat) * nat) (e : event) : (nat -> option nat) * nat :=
  let '(m, n) := x in
  match e with
  | EvPoolNew _ o _ => (fun y => if y =? o then Some n else m y, S n)
  | EvPoolSent _ d s => (fun y => if y =? d then m s else if y =? s then None else m y, n)
  | EvPoolKill _ o => (fun y => if y =? o then None else m y, n)
  | _ => (m, n)
  end.
Definition sents (tr : list event) : (nat -> option nat) * nat := fold_left sent_step tr (fun _ => None, 0).
Definition sent_of (o : nat) (tr : list event) : option nat := fst (sents tr) o.
(** A handle with sentinel [x] for job [j] has been returned by schedule of object [o]. *)
Definition issued (o x j : nat) (tr : list event) : Prop :=
  exists t g v u caps h, In (EvRet t (APSched o g v u caps) (RJob h j (Some x))) tr.
(** Object [o] takes no part in moves. *)
Definition stays_put (o : nat) (tr : list event) : Prop :=
  forall t d s, In (EvPoolMove t d s) tr \/ In (EvPoolSent t d s) tr -> d <> o /\ s <> o.
(** The calls that stop a job or change its priority through a handle. *)
Definition by_handle (c : api) : option (option nat * nat * nat) :=
  match c with AJStop x o j | AJChange x o j _ => Some (x, o, j) | _ => None end.
(** The pool was destroyed after the handle was made. *)
Definition outlived (o x j : nat) (tr : list event) : Prop :=
  exists a u b, tr = a ++ EvPoolKill u o :: b /\ issued o x j a.
