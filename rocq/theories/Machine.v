(** * Machine: the interleaving of all threads.
    A state is the memory and one stack of frames per native thread.  A label
    picks the thread that moves and what user code does; user code is arbitrary:
    whenever the top frame of a thread is user code it may call any API
    function, return any value or throw any exception. *)
From Verif Require Import Types Core State Ops Code.

Record st := mkSt {
  hp : heap;
  stk : tid -> list frame;
  ubs : option ub }.         (* undefined behaviour was reached: the program stops *)

Inductive label :=
| LStep (t : tid) (inp : nat)          (* thread t performs its next atomic operation *)
| LCall (t : tid) (c : api)            (* user code on t calls c *)
| LRet (t : tid) (v : val)             (* the user closure on t returns *)
| LThrow (t : tid) (e : exn)           (* the user closure on t throws *)
| LTick (d : positive).                (* time passes *)

(** The active part of a stack: the action of the top frame, which for an
    exception in flight or a returned result involves the frame below. *)
Definition focus (fs : list frame) : option (act * list frame) :=
  match fs with
  | [] => None
  | FThrow e :: r => match r with [] => None | g :: r' => Some (catch g e, r') end
  | FRes x :: r =>
      match r with
      | FApi c :: r' => Some (Do (OLog (fun t => EvRet t c x)) (fun _ => Go []), r')
      | _ => None
      end
  | f :: r => Some (code f, r)
  end.

Definition set_next (k : tid -> list frame) (t : tid) (n : next) (rest : list frame) : tid -> list frame :=
  match n with
  | Go fs => upd k t (fs ++ rest)
  | GoSpawn c cfs fs => upd (upd k c cfs) t (fs ++ rest)
  end.

Definition exec (s : st) (t : tid) (a : act) (rest : list frame) (inp : nat) : option st :=
  match a with
  | Halt => None
  | Do o k =>
      match atom (hp s) t o inp with
      | ABlock => None
      | AUb u => Some (mkSt (hp s) (stk s) (Some u))
      | AOk h x => Some (mkSt h (set_next (stk s) t (k x) rest) None)
      end
  end.

Definition ufin_ret (fin : ufin) (v : val) : list frame :=
  match fin with UPlain => [] | UPack p => [FSet p (OVal v)] end.

Definition step (s : st) (l : label) : option st :=
  match ubs s with
  | Some _ => None
  | None =>
      match l with
      | LTick d => Some (mkSt (emit (put_now (hp s) (h_now (hp s) + Zpos d)) (EvTick (Zpos d))) (stk s) None)
      | LCall t c =>
          match stk s t with
          | FUser u fin :: r =>
              Some (mkSt (emit (hp s) (EvCall t c))
                         (upd (stk s) t (api_frames c ++ FApi c :: FUser u fin :: r)) None)
          | _ => None
          end
      | LRet t v =>
          match stk s t with
          | FUser u fin :: r =>
              Some (mkSt (emit (hp s) (EvUserEnd t u (fin_sid fin) (RVal v))) (upd (stk s) t (ufin_ret fin v ++ r)) None)
          | _ => None
          end
      | LThrow t e =>
          match stk s t with
          | FUser u fin :: r =>
              Some (mkSt (emit (hp s) (EvUserEnd t u (fin_sid fin) (RExn e))) (upd (stk s) t (FThrow e :: r)) None)
          | _ => None
          end
      | LStep t inp =>
          match focus (stk s t) with
          | None => None
          | Some (a, rest) => exec s t a rest inp
          end
      end
  end.

(** main() runs on native thread 0. *)
Definition st0 : st := mkSt heap0 (fun t => if t =? 0 then [FUser 0 UPlain; FEnd] else []) None.

Fixpoint run (s : st) (ls : list label) : option st :=
  match ls with
  | [] => Some s
  | l :: r => match step s l with Some s' => run s' r | None => None end
  end.

Definition reachable (s : st) : Prop := exists ls, run st0 ls = Some s.
(** The observable history, oldest event first. *)
Definition trace (s : st) : list event := rev (h_tr (hp s)).
