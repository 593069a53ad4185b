(** * The callable and the arguments of a task reach the callee (C75). *)
From Coq Require Import List Permutation.
Import ListNotations.
From Verif Require Import Capture SpecCapture.
From Verif Require InvCapture InvCapOrder.

(** C75: capturing takes the values the variables have, empties the variables given up by
    std::move and leaves all others alone. *)
Theorem C75_captured : forall l m m' t, sane l -> capture m l = (m', t) ->
  t = map (meant m) l /\ (forall c, In c (given_up l) -> m' c = None) /\ (forall c, ~ In c (given_up l) -> m' c = m c).
Proof. exact InvCapture.captured. Qed.
Print Assumptions C75_captured.
(** C++ leaves the order in which the elements of the tuple are built open.  Building them in any
    order [o] of places and arguments puts at every place what was meant for it. *)
Theorem C75_any_order : forall args o m m' t, sane args -> Permutation (combine (seq 0 (length args)) args) o ->
  capture m (map snd o) = (m', t) ->
  Permutation (combine (map fst o) t) (combine (seq 0 (length args)) (map (meant m) args)) /\
  (forall c, In c (given_up args) -> m' c = None) /\ (forall c, ~ In c (given_up args) -> m' c = m c).
Proof. exact InvCapOrder.any_order. Qed.
Print Assumptions C75_any_order.
(** However often the task is copied or moved, calling the copy the chain leads to passes the
    captured values in the order given, and references for reference wrappers. *)
Theorem C75_delivered : forall args m m' t acts l vs, sane args -> capture m args = (m', t) ->
  history [Some t] acts = Some l -> untouched 0 1 acts ->
  exists l', perform l (Run (latest 0 1 acts) vs) = Some (l', Some (map (meant m) args)).
Proof. exact InvCapture.delivered. Qed.
Print Assumptions C75_delivered.
(** Calling any other copy passes no value: the values are in one copy only. *)
Theorem C75_only_once : forall t acts l j t' vs l' x, history [Some t] acts = Some l -> untouched 0 1 acts -> uncalled acts ->
  j <> latest 0 1 acts -> nth_error l j = Some (Some t') -> perform l (Run j vs) = Some (l', Some x) -> emptied t x.
Proof. exact InvCapture.only_once. Qed.
Print Assumptions C75_only_once.

(** A callable by reference, a moved argument and a copied one; the task is copied twice,
    and the first copy is copied once more and destroyed. *)
Definition m75 : cells := fun c => Some (10 + c).
Definition args75 : list arg := [Wrap 1; Rval 2; Lval 3].
Definition acts75 : list act := [Copy 0; Copy 1; Copy 0; Drop 0].
Example C75_example : sane args75 /\ snd (capture m75 args75) = [Bound 1; Own (Some 12); Own (Some 13)] /\
  fst (capture m75 args75) 2 = None /\ untouched 0 1 acts75 /\ uncalled acts75 /\ latest 0 1 acts75 = 2 /\
  history [Some (snd (capture m75 args75))] acts75 =
    Some [None; Some [Bound 1; Own None; Own None]; Some [Bound 1; Own (Some 12); Own (Some 13)]; Some [Bound 1; Own None; Own None]].
Proof.
  split; [cbn; intuition discriminate|]. split; [reflexivity|]. split; [reflexivity|]. split; [cbn; intuition discriminate|].
  split; [intros i vs I; cbn in I; intuition discriminate|]. split; reflexivity.
Qed.
(** The same arguments, taken from right to left. *)
Definition o75 : list (nat * arg) := [(2, Lval 3); (1, Rval 2); (0, Wrap 1)].
Example C75_order_example : sane args75 /\ Permutation (combine (seq 0 (length args75)) args75) o75 /\
  combine (map fst o75) (snd (capture m75 (map snd o75))) = [(2, Own (Some 13)); (1, Own (Some 12)); (0, Bound 1)].
Proof.
  split; [cbn; intuition discriminate|]. split; [|reflexivity].
  exact (Permutation_rev [(0, Wrap 1); (1, Rval 2); (2, Lval 3)]).
Qed.
