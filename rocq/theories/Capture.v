(** * Capture: how a callable and its arguments travel inside a task
    (detail/utility/capture.hpp, detail/utility/apply.hpp, thread.h:273-286, future.hpp:615-651).

    This is a sequential model of its own: a task is owned by one thread at a time.  A value is
    a number; [None] stands for what a move leaves behind, about which nothing is known.
    Not modelled: the types of the arguments, constructors that throw (capture is noexcept,
    so such a constructor ends the process). *)
From Coq Require Import List Arith Lia Bool.
Import ListNotations.

(** The variables of the caller. *)
Definition cells := nat -> option nat.
Definition put (m : cells) (c : nat) (v : option nat) : cells := fun d => if Nat.eqb d c then v else m d.

(** An argument of capture: a variable, a variable given up by std::move (or a temporary),
    or a std::reference_wrapper. *)
Inductive arg := Lval (c : nat) | Rval (c : nat) | Wrap (c : nat).
(** An element of the tuple value_: special_decay_t is a value, or T& for a reference_wrapper
    (capture.hpp:10-23). *)
Inductive slot := Own (v : option nat) | Bound (c : nat).

(** std::make_tuple(std::forward<U>(args)...), capture.hpp:34.  C++ leaves the order of the
    element constructors to the implementation; here it is from left to right. *)
Definition take (m : cells) (a : arg) : cells * slot :=
  match a with
  | Lval c => (m, Own (m c))
  | Rval c => (put m c None, Own (m c))
  | Wrap c => (m, Bound c)
  end.
Fixpoint capture (m : cells) (l : list arg) : cells * list slot :=
  match l with
  | [] => (m, [])
  | a :: r => let (m1, x) := take m a in let (m2, y) := capture m1 r in (m2, x :: y)
  end.

(** The copy constructor of move_on_copy_t moves the tuple out of its source,
    capture.hpp:38-40.  There is no move constructor; moving a task uses this one too. *)
Definition leave (x : slot) : slot := match x with Own _ => Own None | Bound c => Bound c end.
(** apply.hpp:14-19 passes std::get<0>(t), std::get<1>(t), and so on. *)
Definition pass (t : list slot) : list slot := map (fun i => nth i t (Own None)) (seq 0 (length t)).
(** What the callee leaves in its parameters, which are references into the tuple. *)
Fixpoint refill (t : list slot) (vs : list (option nat)) : list slot :=
  match t, vs with
  | Own _ :: r, v :: ws => Own v :: refill r ws
  | Bound c :: r, _ :: ws => Bound c :: refill r ws
  | _, _ => t
  end.

(** All copies of one task made so far, in the order they were made; [None] was destroyed. *)
Definition copies := list (option (list slot)).
Fixpoint write (l : copies) (i : nat) (x : option (list slot)) : copies :=
  match l, i with
  | [], _ => []
  | _ :: r, 0 => x :: r
  | y :: r, S j => y :: write r j x
  end.
Inductive act :=
  | Copy (i : nat)                              (* copy or move construction from copy i *)
  | Run (i : nat) (vs : list (option nat))      (* call copy i; the callee leaves vs *)
  | Drop (i : nat).                             (* destroy copy i *)
(** The result also tells what a call passed to the callee. *)
Definition perform (l : copies) (a : act) : option (copies * option (list slot)) :=
  match a with
  | Copy i => match nth_error l i with
              | Some (Some t) => Some (write l i (Some (map leave t)) ++ [Some t], None)
              | _ => None
              end
  | Run i vs => match nth_error l i with
                | Some (Some t) => Some (write l i (Some (refill t vs)), Some (pass t))
                | _ => None
                end
  | Drop i => match nth_error l i with
              | Some (Some t) => Some (write l i None, None)
              | _ => None
              end
  end.
Fixpoint history (l : copies) (acts : list act) : option copies :=
  match acts with
  | [] => Some l
  | a :: r => match perform l a with Some (l1, _) => history l1 r | None => None end
  end.
