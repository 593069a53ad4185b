(** * SpecCapture: where the captured values are. *)
From Coq Require Import List Arith.
Import ListNotations.
From Verif Require Import Capture.

(** The variables an argument list gives up. *)
Definition given_up (l : list arg) : list nat := flat_map (fun a => match a with Rval c => [c] | _ => [] end) l.
(** The variables an argument list reads. *)
Definition read (l : list arg) : list nat := flat_map (fun a => match a with Lval c | Rval c => [c] | Wrap _ => [] end) l.
(** No variable is given up and used a second time as a value. *)
Fixpoint sane (l : list arg) : Prop :=
  match l with
  | [] => True
  | a :: r => (match a with Rval c => ~ In c (read r) | Lval c => ~ In c (given_up r) | Wrap _ => True end) /\ sane r
  end.
(** What the task is to be called with. *)
Definition meant (m : cells) (a : arg) : slot :=
  match a with Lval c | Rval c => Own (m c) | Wrap c => Bound c end.

(** The copy that a chain of copies leads to, when copy [i] is the first one and [n] is the number
    of copies. *)
Fixpoint latest (i n : nat) (acts : list act) : nat :=
  match acts with
  | [] => i
  | Copy j :: r => latest (if Nat.eqb j i then n else i) (S n) r
  | _ :: r => latest i n r
  end.
(** The latest copy was neither called nor destroyed. *)
Fixpoint untouched (i n : nat) (acts : list act) : Prop :=
  match acts with
  | [] => True
  | Copy j :: r => untouched (if Nat.eqb j i then n else i) (S n) r
  | Run j _ :: r | Drop j :: r => j <> i /\ untouched i n r
  end.
(** No copy was called. *)
Definition uncalled (acts : list act) : Prop := forall i vs, ~ In (Run i vs) acts.
(** What remains of a task when its values are gone: the references. *)
Definition emptied (t t' : list slot) : Prop :=
  Forall2 (fun x y => match x with Own _ => y = Own None | Bound c => y = Bound c end) t t'.
