(** * Rules: proof rules for histories and for stacks. *)
From Verif Require Import Types Core State Ops Code Machine Base Spec.

Lemma at_each_snoc : forall P tr e, at_each P tr -> P tr e -> at_each P (tr ++ [e]).
Proof.
  intros P tr e H He tr1 x tr2 E.
  destruct tr2 as [|y tr2 _] using rev_ind.
  - apply app_inj_tail in E as [<- <-]. exact He.
  - rewrite app_comm_cons, app_assoc in E. apply app_inj_tail in E as [E <-]. eauto.
Qed.
Lemma at_each_nil : forall P, at_each P [].
Proof. intros P tr1 e tr2 E. destruct tr1; discriminate. Qed.


Definition next_frames (n : next) : list frame := match n with Go fs => fs | GoSpawn _ _ fs => fs end.
Definition spawned (n : next) : option (tid * list frame) :=
  match n with Go _ => None | GoSpawn c cfs _ => Some (c, cfs) end.

(** To show that every event is in relation [P] with its past it is enough to
    look at the step that records it. *)
Theorem event_rule : forall (I : st -> Prop) (P : list event -> event -> Prop),
  (forall s, reachable s -> I s) ->
  (forall s d, I s -> P (trace s) (EvTick (Zpos d))) ->
  (forall s t pre rest h n e, I s -> ubs s = None -> stk s t = pre ++ rest -> lstep (hp s) t pre h n ->
     h_tr h = e :: h_tr (hp s) -> P (trace s) e) ->
  forall s, reachable s -> at_each P (trace s).
Proof.
  intros I P HI Ht HS. apply (reachable_rel I (fun s => at_each P (trace s))); auto.
  - apply at_each_nil.
  - intros s s' Is Is' IH U Tr. destruct Tr as [d|t pre rest u E L|t pre rest h n E L].
    + unfold trace in *. cbn [hp]. hs. cbn [rev]. apply at_each_snoc; auto.
    + exact IH.
    + unfold trace in *. cbn [hp]. destruct (lstep_tr _ _ _ _ _ L) as [X|[e X]].
      * now rewrite X.
      * rewrite X. cbn [rev]. apply at_each_snoc; auto.
        apply (HS s t pre rest h n e); auto.
Qed.

(** The same when the memory alone decides. *)
Theorem event_rule_h : forall (I : heap -> Prop) (P : list event -> event -> Prop),
  (forall s, reachable s -> I (hp s)) ->
  (forall h d, I h -> P (tr_of h) (EvTick (Zpos d))) ->
  (forall h e, I h -> log_ok e -> P (tr_of h) e) ->
  (forall h t T (o : op T) inp h' x e, I h -> atom h t o inp = AOk h' x ->
     match o with OLog _ => False | _ => True end ->
     h_tr h' = e :: h_tr h -> P (tr_of h) e) ->
  forall s, reachable s -> at_each P (trace s).
Proof.
  intros I P HI Ht Hl HS. apply (event_rule (fun s => I (hp s)) P); auto.
  - intros. now apply Ht.
  - intros s t pre rest h n e Is U E L X. apply lstep_hstep in L. destruct L as [e' Ok|T o inp h1 x Ok A].
    + change (e' :: h_tr (hp s) = e :: h_tr (hp s)) in X. injection X as <-. now apply Hl.
    + destruct o; try solve [eapply HS; eauto; exact Logic.I].
      cbn in A. inversion A; subst. match type of X with h_tr (emit _ ?y) = _ => change (y :: h_tr (hp s) = e :: h_tr (hp s)) in X end.
      injection X as <-. apply Hl; auto.
Qed.

(** A property of every frame on every stack. *)
Theorem frame_rule : forall (I : st -> Prop) (fok : heap -> tid -> frame -> Prop),
  (forall s, reachable s -> I s) ->
  fok heap0 0 (FUser 0 UPlain) -> fok heap0 0 FEnd ->
  (forall s d u f, I s -> In f (stk s u) -> fok (hp s) u f ->
     fok (emit (put_now (hp s) (h_now (hp s) + Zpos d)) (EvTick (Zpos d))) u f) ->
  (* frames that stay *)
  (forall s t pre rest h n u f, I s -> (forall t, Forall (fok (hp s) t) (stk s t)) ->
     stk s t = pre ++ rest -> lstep (hp s) t pre h n ->
     (u = t -> In f rest) -> In f (stk s u) -> fok (hp s) u f -> fok h u f) ->
  (* new frames *)
  (forall s t pre rest h n, I s -> stk s t = pre ++ rest -> lstep (hp s) t pre h n ->
     Forall (fok (hp s) t) pre -> Forall (fok (hp s) t) rest ->
     Forall (fok h t) (next_frames n) /\
     match spawned n with Some (c, cfs) => Forall (fok h c) cfs | None => True end) ->
  forall s, reachable s -> forall t, Forall (fok (hp s) t) (stk s t).
Proof.
  intros I fok HI F1 F2 Ht Hst Hnew.
  apply (reachable_rel I (fun s => forall t, Forall (fok (hp s) t) (stk s t))); auto.
  - intros t. cbn. destruct t; cbn; auto.
  - intros s s' Is Is' IH U Tr. destruct Tr as [d|t pre rest u E L|t pre rest h n E L].
    + intros t. cbn [hp stk]. specialize (IH t). rewrite Forall_forall in *. intros f Hf. auto.
    + exact IH.
    + pose proof (IH t) as IHt. rewrite E in IHt. apply Forall_app in IHt as [Fp Fr].
      destruct (Hnew _ _ _ _ _ _ Is E L Fp Fr) as [N1 N2].
      assert (R : Forall (fok h t) rest).
      { rewrite Forall_forall in Fr |- *. intros f Hf.
        apply (Hst s t pre rest h n t f); auto. rewrite E. apply in_or_app. auto. }
      assert (O : forall u, u <> t -> Forall (fok h u) (stk s u)).
      { intros u Nu. pose proof (IH u) as IHu. rewrite Forall_forall in IHu |- *. intros f Hf.
        apply (Hst s t pre rest h n u f); try (intros Eu; congruence); auto. }
      intros u. cbn [hp stk]. unfold set_next. destruct n as [fs|c cfs fs]; cbn in N1, N2.
      * destruct (Nat.eq_dec u t) as [->|Nu]; [rewrite upd_same; apply Forall_app; auto|].
        rewrite upd_other; auto.
      * destruct (Nat.eq_dec u t) as [->|Nu]; [rewrite upd_same; apply Forall_app; auto|].
        rewrite upd_other; auto.
        destruct (Nat.eq_dec u c) as [->|Nc]; [rewrite upd_same; auto|rewrite upd_other; auto].
Qed.
