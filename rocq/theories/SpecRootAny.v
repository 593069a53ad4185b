(** * SpecRootAny: what a future without result depends on, at any moment. *)
From Verif Require Import Types Core State Ops Code Machine Spec SpecKind SpecOwn SpecPool SpecWhen SpecRestWhen SpecBegun SpecRoot.

(** A local variable of a call in progress refers to combinator [w]. *)
Definition refers_cb (w : nat) (cb : callback) : bool := refers w (cb_task cb).
Definition refers_item (w : nat) (d : ditem) : bool :=
  match d with
  | DTask k | DBody (BTask k) => refers w k
  | DBody (BAll v _ _) | DBody (BAny v _ _) | DW v => v =? w
  | _ => false
  end.
Definition refers_lk (w : nat) (c : lk) : bool :=
  match c with
  | LkFire _ rest lft => existsb (refers_cb w) rest || existsb (refers w) lft
  | LkWhen v _ _ _ _ => v =? w
  | _ => false
  end.
Definition frame_refers (w : nat) (f : frame) : bool :=
  match f with
  | FDrop k | FCheckEnd _ _ k => refers w k
  | FDestroy l => existsb (refers_item w) l
  | FInvoke _ k c | FPush _ k c | FDisp _ k c | FLaunch _ _ k c | FLaunch1 _ _ k c => refers w k || refers_lk w c
  | FSet2 _ cbs => existsb (refers_cb w) cbs
  | FFire _ cbs lft => existsb (refers_cb w) cbs || existsb (refers w) lft
  | FFire1 _ cb c => refers_cb w cb || refers_lk w c
  | FThen2 _ cb _ => refers_cb w cb
  | FWId v _ _ | FWFillAll v _ _ _ _ | FWEach v _ _ _ _ | FWThen v _ _ _ _ _ _ | FWProc v _ _ _ _
  | FWFin v | FWFin1 v | FWRet v | FWRel v | FWMark v _ | FWUnl v _ | FWPack v _ _ _ _ _ | FWAtt v _ _ _ _ _ _ => v =? w
  | _ => false
  end.
(** Thread [t] is busy with [p]: it is about to set it, or a call in progress on [t] holds the closure with the result [p],
    for instance while it runs its function, or works on the combinator that makes [p]. *)
Definition carried (s : st) (p : sid) (t : tid) : Prop :=
  exists f, In f (stk s t) /\
  (frame_has p f = true \/ match f with FSet q _ | FSet1 q _ => q = p | _ => False end \/
   exists all w ins, combines (trace s) all w p ins /\ frame_refers w f = true).
(** The closure with the result [p] is in the table of pool [pl] as job [j]. *)
Definition in_table (s : st) (p : sid) (pl j : nat) : Prop :=
  exists b, In (j, b) (pl_jobs (h_pools (hp s) pl)) /\ has p (jb_callable b) = true.
