(** * ContractLib: facts about calls stay true while the call goes on. *)
From Verif Require Import Types Core State Ops Code Machine Base Spec SpecApi Rules Events InvCtx InvQueue InvStack Calls Contract Replay ReplayObj.

Lemma st_mono : forall cl tr l a P, sometime cl tr P -> sometime (add_acts a cl) (tr ++ l) P.
Proof. intros cl tr l a P (m & M & H). exists m. split; auto. now apply moment_app, moment_acts. Qed.
Lemma st_tr : forall cl tr l P, sometime cl tr P -> sometime cl (tr ++ l) P.
Proof. intros cl tr l P (m & M & H). exists m. split; auto. now apply moment_app. Qed.
Lemma st_now : forall t cl tr l a (P : list event -> Prop), incall t cl tr -> P tr -> sometime (add_acts a cl) (tr ++ l) P.
Proof. intros t cl tr l a P C H. apply st_mono. exists tr. split; auto. eapply moment_now; eauto. Qed.
Lemma st_imp : forall cl tr (P Q : list event -> Prop), (forall m, P m -> Q m) -> sometime cl tr P -> sometime cl tr Q.
Proof. intros cl tr P Q I (m & M & H). exists m. auto. Qed.
Lemma do_mono : forall cl tr l a e P, does cl tr e P -> does (add_acts a cl) (tr ++ l) e P.
Proof.
  intros cl tr l a e P (I & m & M & H). split.
  - apply in_or_app. now left.
  - exists m. split; auto. now apply happens_app, happens_acts.
Qed.
Lemma do_tr : forall cl tr l e P, does cl tr e P -> does cl (tr ++ l) e P.
Proof. intros cl tr l e P (I & m & M & H). split; auto. exists m. split; auto. now apply happens_app. Qed.
Lemma do_now : forall t cl tr e (P : list event -> Prop), incall t cl tr -> P tr -> does (add_acts [e] cl) (tr ++ [e]) e P.
Proof.
  intros t cl tr e P C H. split; [apply in_or_app; right; now left|]. exists tr. split; auto.
  apply happens_acts. eapply happens_now; eauto.
Qed.
Lemma do_imp : forall cl tr e (P Q : list event -> Prop), (forall m, P m -> Q m) -> does cl tr e P -> does cl tr e Q.
Proof. intros cl tr e P Q I (A & m & M & H). split; auto. exists m. auto. Qed.
Lemma bg_mono : forall cl a l, begins cl l -> begins (add_acts a cl) l.
Proof. intros cl a l [r E]. exists (r ++ a). cbn. now rewrite E, <- app_assoc. Qed.
Lemma bg_all : forall cl l, cl_acts cl = l -> begins cl l.
Proof. intros cl l E. exists []. now rewrite app_nil_r. Qed.
Lemma bg_add : forall cl l a, cl_acts cl = l -> begins (add_acts a cl) (l ++ a).
Proof. intros cl l a E. apply bg_all. cbn. now rewrite E. Qed.
Lemma in_mono : forall e cl a, In e (cl_acts cl) -> In e (cl_acts (add_acts a cl)).
Proof. intros. cbn. apply in_or_app. now left. Qed.
Lemma in_new : forall e cl a, In e a -> In e (cl_acts (add_acts a cl)).
Proof. intros. cbn. apply in_or_app. now right. Qed.
Lemma mo_mono : forall cl tr m a l, moment cl tr m -> moment (add_acts a cl) (tr ++ l) m.
Proof. intros. now apply moment_app, moment_acts. Qed.

#[global] Hint Resolve st_mono st_tr do_mono do_tr bg_mono in_mono moment_app mo_mono : mono.

Lemma ae_tr : forall t cl tr l P, at_end t cl tr P -> at_end t cl (tr ++ l) P.
Proof. intros t cl tr l P (m & cs & M & O & H). exists m, cs. split; auto. now apply moment_app. Qed.
Lemma ae_now : forall t cl tr l (P : list event -> Prop), incall t cl tr -> (exists cs, open_calls t tr = cl :: cs) -> P tr -> at_end t cl (tr ++ l) P.
Proof. intros t cl tr l P C [cs O] H. apply ae_tr. exists tr, cs. split; auto. eapply moment_now; eauto. Qed.
Lemma ae_imp : forall t cl tr (P Q : list event -> Prop), (forall m, P m -> Q m) -> at_end t cl tr P -> at_end t cl tr Q.
Proof. intros t cl tr P Q I (m & cs & M & O & H). exists m, cs. auto. Qed.
#[global] Hint Resolve ae_tr : mono.

Lemma top_split : forall h t h' n x g r, x <> [] -> shielded x -> top_step h t h' n (x ++ [g]) r ->
  exists r', r = r' ++ [g] /\ top_step h t h' n x r'.
Proof.
  intros h t h' n x g r N S T. destruct x as [|a x]; [contradiction|]. cbn [app] in T.
  inversion T as [v u fin r1 Eh En X|e u fin r1 Eh En X|inp f r1 Ru X|inp e f r1 Ru X]; subst.
  - exists x. split; auto. now eapply ts_ret.
  - exists x. split; auto. now eapply ts_throw.
  - exists x. split; auto. now eapply ts_code; eauto.
  - destruct x as [|b x]; [cbn in S; discriminate S|]. cbn [app] in *.
    match goal with H : _ :: _ = _ :: _ |- _ => injection H as -> -> end. exists x. split; auto. now eapply ts_catch; eauto.
Qed.

(** Reading the memory as history. *)
Section Reads.
Variable s : st.
Hypothesis R : reachable s.
Lemma rd_regd : h_regd (hp s) = reg_ids (trace s).
Proof. destruct (r_inv_reachable s R). symmetry. exact rv_regd. Qed.
Lemma rd_loc : forall t, h_loc (hp s) t = attached t (trace s).
Proof. destruct (r_inv_reachable s R). intros t. symmetry. apply rv_loc. Qed.
Lemma rd_myid : forall t, match h_loc (hp s) t with Some i => i | None => invalid_id end = my_id t (trace s).
Proof. intros t. unfold my_id. now rewrite rd_loc. Qed.
Lemma rd_exit : forall i, cx_exit (h_ctxs (hp s) i) = true <-> exit_requested i (trace s).
Proof. intros i. apply (q_inv_reachable s R i). Qed.
Lemma rd_depth : forall i, cx_depth (h_ctxs (hp s) i) = depth_of i (trace s).
Proof. intros i. apply (q_inv_reachable s R i). Qed.
Lemma rd_unknown : forall i, mem i (h_regd (hp s)) = false -> unknown i (trace s).
Proof. intros i M. unfold unknown. rewrite <- rd_regd. rewrite <- mem_In. congruence. Qed.
Lemma rd_known : forall i, mem i (h_regd (hp s)) = true -> known i (trace s).
Proof. intros i H. unfold known. rewrite <- rd_regd. now apply mem_In. Qed.
Lemma rd_count : forall i, pending_count (h_ctxs (hp s) i) = pending_of i (trace s).
Proof.
  intros i. destruct (q_inv_reachable s R i) as (A & B & _ & D). change (tr_of (hp s)) with (trace s) in *.
  unfold pending_count, pending_of. rewrite A, B. unfold ctx_pending. rewrite !app_length, skipn_length. lia.
Qed.
End Reads.

(** The event and the result of the operation [A]. *)
Ltac stepinfo A :=
  let Et := fresh "Et" in let Ea := fresh "Ea" in
  pose proof (step_trace _ _ _ _ _ _ _ A) as Et; pose proof (new_acts_op _ _ _ _ _ _ _ A) as Ea;
  cbn [op_event] in Et, Ea;
  cbn [atom] in A; op_unfold A; brki A; try discriminate A;
  (injection A as _ <-); cbn [fst snd negb] in Et, Ea;
  unfold by_thread in Ea; cbn [actor] in Ea; try rewrite Nat.eqb_refl in Ea;
  match type of Et with tr_of ?h = tr_of (hp ?s) ++ ?l => change (tr_of h = trace s ++ l) in Et end;
  try rewrite Ea; try rewrite Et.
Ltac act := cbn [add_acts cl_acts]; match goal with H : cl_acts _ = _ |- _ => rewrite H end; reflexivity.
Ltac fact := first [eassumption | act | solve [eauto 4 with mono] | (eapply st_now; [eassumption|]; solve [eauto]) | solve [apply bg_all; act] ].
