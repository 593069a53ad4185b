(** * Adj: invariants about a frame, the frame above it and the frames below it. *)
From Verif Require Import Types Core State Ops Code Machine Base Spec Rules InvStack InvRefs.

Fixpoint adj (P : option frame -> frame -> list frame -> Prop) (a : option frame) (l : list frame) : Prop :=
  match l with [] => True | f :: r => P a f r /\ adj P (Some f) r end.
Fixpoint lasto (a : option frame) (l : list frame) : option frame := match l with [] => a | f :: r => lasto (Some f) r end.
Lemma adj_app : forall P l1 l2 a, adj P a (l1 ++ l2) <-> adj (fun a f r => P a f (r ++ l2)) a l1 /\ adj P (lasto a l1) l2.
Proof. intros P l1 l2. induction l1 as [|f l1 IH]; intros a; cbn; [tauto|]. rewrite IH. tauto. Qed.
Lemma adj_impl : forall (P Q : option frame -> frame -> list frame -> Prop) l a,
  (forall b f r, In f l -> P b f r -> Q b f r) -> adj P a l -> adj Q a l.
Proof. intros P Q. induction l as [|f l IH]; intros a H; cbn; auto. intros [H1 H2]. split; [apply H; cbn; auto|]. apply IH; auto. intros; apply H; cbn; auto. Qed.
Lemma adj_in : forall P l a f b x, adj P x l -> l = a ++ f :: b -> P (lasto x a) f b.
Proof. intros P l a f b x H ->. apply adj_app in H as [_ H]. apply H. Qed.

Theorem adj_rule : forall (P : st -> tid -> option frame -> frame -> list frame -> Prop),
  (forall s d t a f r, reachable s -> In f (stk s t) -> P s t a f r -> P (mkSt (emit (put_now (hp s) (h_now (hp s) + Zpos d)) (EvTick (Zpos d))) (stk s) None) t a f r) ->
  (forall s u t a f r, reachable s -> P s t a f r -> P (mkSt (hp s) (stk s) (Some u)) t a f r) ->
  (forall t, adj (P st0 t) None (stk st0 t)) ->
  (* frames whose neighbours stay *)
  (forall s t pre rest h n u a f r, reachable s -> reachable (mkSt h (set_next (stk s) t n rest) None) -> stk s t = pre ++ rest -> lstep (hp s) t pre h n ->
     In f (stk s u) -> P s u a f r -> P (mkSt h (set_next (stk s) t n rest) None) u a f r) ->
  (* new frames and the frame just below them *)
  (forall s t pre rest h n, reachable s -> reachable (mkSt h (set_next (stk s) t n rest) None) -> stk s t = pre ++ rest -> lstep (hp s) t pre h n ->
     adj (fun a f r => P s t a f (r ++ rest)) None pre ->
     adj (fun a f r => P (mkSt h (set_next (stk s) t n rest) None) t a f (r ++ rest)) None (next_frames n) /\
     match rest with [] => True | g :: r => P s t (lasto None pre) g r -> P (mkSt h (set_next (stk s) t n rest) None) t (lasto None (next_frames n)) g r end /\
     match spawned n with Some (c, cfs) => adj (P (mkSt h (set_next (stk s) t n rest) None) c) None cfs | None => True end) ->
  forall s, reachable s -> forall t, adj (P s t) None (stk s t).
Proof.
  intros P Ht Hu H0 Hst Hnew. apply (reachable_ind'' (fun s => forall t, adj (P s t) None (stk s t))); auto.
  intros s s' R R' IH U Tr. destruct Tr as [d|t pre rest u E L|t pre rest h n E L].
  - intros t. eapply adj_impl; [|apply IH]. intros b f r J. apply Ht; auto.
  - intros v. eapply adj_impl; [|apply IH]. intros b f r J. apply Hu; auto.
  - pose proof (IH t) as I. rewrite E in I. apply adj_app in I as [I1 I2].
    destruct (Hnew _ _ _ _ _ _ R R' E L I1) as (N1 & N2 & N3).
    assert (Ot : forall v, v <> t -> set_next (stk s) t n rest v = stk s v -> adj (P (mkSt h (set_next (stk s) t n rest) None) v) None (stk s v)).
    { intros v _ _. eapply adj_impl; [|apply IH]. intros b f r J. eapply Hst; eauto. }
    assert (Own : adj (P (mkSt h (set_next (stk s) t n rest) None) t) None (next_frames n ++ rest)).
    { apply adj_app. split; auto. destruct rest as [|g r]; cbn; auto. destruct I2 as [J1 J2]. split; auto.
      eapply adj_impl; [|exact J2]. intros b f r0 Jn. eapply Hst; eauto. rewrite E. apply in_or_app. right. now right. }
    intros v. cbn [stk]. destruct n as [fs|c cfs fs]; unfold set_next at 2.
    + destruct (Nat.eq_dec v t) as [->|Nv]; [rewrite upd_same; exact Own|rewrite upd_other by auto].
      apply Ot; auto. cbn. now rewrite upd_other.
    + destruct (Nat.eq_dec v t) as [->|Nv]; [rewrite upd_same; exact Own|rewrite upd_other by auto].
      destruct (Nat.eq_dec v c) as [->|Nc]; [rewrite upd_same; exact N3|rewrite upd_other by auto].
      apply Ot; auto. cbn. now rewrite !upd_other.
Qed.
