(** * Replay: the memory agrees with what the history says. *)
From Verif Require Import Types Core State Ops Code Machine Base Spec Rules Events InvCtx InvQueue InvStack InvRefs InvEvents InvBound.

Lemma latest_snoc : forall A (f : event -> option A) d tr e,
  latest f d (tr ++ [e]) = match f e with Some y => y | None => latest f d tr end.
Proof. intros. unfold latest. rewrite fold_left_app. reflexivity. Qed.

(** A component that only the events recorded change; [opb] says that the
    operation's arguments exist (InvBound.v). *)
Definition hgood (h : heap) : Prop := hb (bof h) h /\ virgin h /\ reg_inv h.
Theorem replay_rule : forall (Q : heap -> list event -> Prop),
  Q heap0 [] ->
  (forall h l d, Q h l -> Q (emit (put_now h (h_now h + Zpos d)) (EvTick (Zpos d))) (l ++ [EvTick (Zpos d)])) ->
  (forall h l e, Q h l -> log_ok e -> Q (emit h e) (l ++ [e])) ->
  (forall h t T (o : op T) inp h' x, hgood h -> opb (bof h) o -> Q h (tr_of h) -> atom h t o inp = AOk h' x ->
     match o with OLog _ => False | _ => True end ->
     Q h' (match op_event h t o x with Some e => tr_of h ++ [e] | None => tr_of h end)) ->
  forall s, reachable s -> Q (hp s) (trace s).
Proof.
  intros Q H0 Ht Hl HS. apply reachable_ind'; auto.
  intros s s' R IH U Tr. change (trace s) with (tr_of (hp s)) in IH. destruct Tr as [d|t pre rest u E L|t pre rest h n E L].
  - apply (Ht (hp s) (tr_of (hp s)) d IH).
  - exact IH.
  - change (trace _) with (tr_of h). cbn [hp].
    destruct (b_inv_reachable s R) as (B1 & B2 & B3). specialize (B3 t). rewrite E in B3. apply Forall_app in B3 as [B3 _].
    destruct (lstep_bstep _ _ _ _ _ L B3) as [e Ok|T o inp h' x O A N].
    + apply (Hl (hp s) (tr_of (hp s)) e IH Ok).
    + replace (tr_of h') with (match op_event (hp s) t o x with Some e => tr_of (hp s) ++ [e] | None => tr_of (hp s) end).
      * eapply HS; eauto. split; [|split]; auto. now apply reg_inv_reachable.
      * pose proof (atom_event _ _ _ _ _ _ _ A) as X. unfold tr_of. rewrite X.
        destruct (op_event (hp s) t o x); reflexivity.
Qed.

Theorem latest_rule : forall A (f : event -> option A) d (g : heap -> A),
  g heap0 = d ->
  (forall h x, f (EvTick x) = None /\ g (emit (put_now h (h_now h + x)) (EvTick x)) = g h) ->
  (forall h e, log_ok e -> f e = None /\ g (emit h e) = g h) ->
  (forall h t T (o : op T) inp h' x, hgood h -> opb (bof h) o -> atom h t o inp = AOk h' x ->
     match o with OLog _ => False | _ => True end ->
     g h' = match op_event h t o x with
            | Some e => match f e with Some y => y | None => g h end
            | None => g h
            end) ->
  forall s, reachable s -> g (hp s) = latest f d (trace s).
Proof.
  intros A f d g H0 Ht Hl HS. apply (replay_rule (fun h tr => g h = latest f d tr)); auto.
  - intros h l x IH. rewrite latest_snoc. destruct (Ht h (Zpos x)) as [-> ->]. exact IH.
  - intros h l e IH Ok. rewrite latest_snoc. destruct (Hl h e Ok) as [-> ->]. exact IH.
  - intros h t T o inp h' x G O IH At N. rewrite (HS _ _ _ _ _ _ _ G O At N).
    destruct (op_event h t o x); auto. rewrite latest_snoc. destruct (f e); auto.
Qed.

Ltac atom_split At :=
  cbn [atom] in At; try discriminate At; op_unfold At; brki At;
  try discriminate At; inversion At; subst; hs; cbn [op_event fst snd negb];
  repeat match goal with E : ?a = _ |- context [match ?a with _ => _ end] => rewrite E end; cbn [fst snd negb].
Ltac latest_tac := apply latest_rule;
  [ reflexivity
  | intros; split; reflexivity
  | let Ok := fresh in intros ? [] Ok; cbn in Ok; try contradiction; split; reflexivity
  | let h := fresh "h" in let G := fresh "G" in let O := fresh "O" in let At := fresh "At" in let N := fresh "N" in
    intros h ? ? [] ? ? ? G O At N; try contradiction; atom_split At; try reflexivity ].
Ltac updg := unfold upd, updl, upds; 
  repeat match goal with |- context [?a =? ?b] => destruct (Nat.eqb_spec a b); subst; try congruence; try lia end; try reflexivity.

Theorem replay_initc : forall s, reachable s -> h_initc (hp s) = init_level (trace s).
Proof. latest_tac. Qed.
Theorem replay_mainid : forall s, reachable s -> h_mainid (hp s) = main_of (trace s).
Proof. latest_tac. Qed.
Theorem replay_prms : forall pr s, reachable s -> h_prms (hp s) pr = prom_of pr (trace s).
Proof. intros pr. apply (latest_rule _ _ _ (fun h => h_prms h pr)); [reflexivity|intros; split; reflexivity| |].
  { intros ? [] Ok; cbn in Ok; try contradiction; split; reflexivity. }
  intros h ? ? [] ? ? ? G O At N; try contradiction; atom_split At; try reflexivity; updg.
Qed.
Theorem replay_hnds : forall n s, reachable s -> h_hnds (hp s) n = fut_of n (trace s).
Proof. intros pr. apply (latest_rule _ _ _ (fun h => h_hnds h pr)); [reflexivity|intros; split; reflexivity| |].
  { intros ? [] Ok; cbn in Ok; try contradiction; split; reflexivity. }
  intros h ? ? [] ? ? ? G O At NN; try contradiction; atom_split At; try reflexivity; updg.
Qed.
Theorem replay_tobj : forall n s, reachable s -> h_tobj (hp s) n = thobj_of n (trace s).
Proof. intros pr. apply (latest_rule _ _ _ (fun h => h_tobj h pr)); [reflexivity|intros; split; reflexivity| |].
  { intros ? [] Ok; cbn in Ok; try contradiction; split; reflexivity. }
  intros h ? ? [] ? ? ? G O At NN; try contradiction; atom_split At; try reflexivity; updg. now destruct p.
Qed.
Lemma lock_eqb_sym : forall a b, lock_eqb a b = lock_eqb b a.
Proof. intros [] []; cbn; auto using Nat.eqb_sym. Qed.
Lemma sem_eqb_sym : forall a b, sem_eqb a b = sem_eqb b a.
Proof. intros [] []; cbn; auto using Nat.eqb_sym. Qed.
Theorem replay_locks : forall l s, reachable s -> h_locks (hp s) l = lock_holder l (trace s).
Proof. intros l. apply (latest_rule _ _ _ (fun h => h_locks h l)); [reflexivity|intros; split; reflexivity| |].
  { intros ? [] Ok; cbn in Ok; try contradiction; split; reflexivity. }
  intros h ? ? [] ? ? ? G O At NN; try contradiction; atom_split At; try reflexivity;
  unfold updl; rewrite (lock_eqb_sym l); destruct (lock_eqb _ _); auto.
Qed.
Theorem replay_mxs : forall m s, reachable s -> fst (h_mxs (hp s) m) = match mx_holder m (trace s) with Some _ => true | None => false end.
Proof.
  intros m. apply (replay_rule (fun h tr => fst (h_mxs h m) = match mx_holder m tr with Some _ => true | None => false end)).
  - reflexivity.
  - intros h l d IH. unfold mx_holder. rewrite latest_snoc. exact IH.
  - intros h l e IH Ok. unfold mx_holder. rewrite latest_snoc. destruct e; cbn in Ok; try contradiction; exact IH.
  - intros h ? ? [] ? ? ? G O IH At NN; try contradiction; atom_split At; unfold mx_holder in *; rewrite ?latest_snoc; try exact IH;
    unfold upd; rewrite (Nat.eqb_sym m); try match goal with |- context [?a =? m] => destruct (Nat.eqb_spec a m); subst end; auto.
Qed.
