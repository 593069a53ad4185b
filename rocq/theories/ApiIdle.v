(** * ApiIdle: this_thread functions on a thread that is not attached. *)
From Verif Require Import Types Core State Ops Code Machine Base Spec SpecApi SpecWait Rules Events InvQueue InvStack InvEvents
  Calls Contract ContractLib Replay CallLoc ApiReg ApiWait ThmRegistry.

Definition wfor (c : api) : bool := match c with AWaitFor _ | AWaitUntil _ => true | _ => false end.
Definition wk_of (c : api) : wk := if wfor c then WApiFor else WApi.
Inductive start (c : api) : frame -> Prop :=
| s_wuntil : forall z, wfor c = true -> start c (FWaitUntil z)
| s_wfor : forall d, wfor c = true -> start c (FWaitFor d WApiFor)
| s_wait : forall us, start c (FWait us (wk_of c))
| s_process : wfor c = false -> start c FProcess
| s_pfor : forall d, wfor c = false -> start c (FProcessFor d)
| s_suntil : forall z, wfor c = false -> start c (FSleepUntil z)
| s_sfor : forall d, wfor c = false -> start c (FSleepFor d)
| s_sl : forall n e, wfor c = false -> start c (FSl n e).
Definition att (t : tid) (cl : call) : Prop := attached t (cl_pre cl) <> None.
Definition imid (t : tid) (cl : call) (tr : list event) (f : frame) (above : list frame) : Prop :=
  (att t cl /\ wmid t cl tr f above) \/ (attached t (cl_pre cl) = None /\ cl_acts cl = [] /\ above = [] /\ start (cl_api cl) f).

Lemma idle_ok : forall t cl tr, wait_sel (cl_api cl) = true -> cl_acts cl = [] ->
  idle_contract t cl tr (if wfor (cl_api cl) then RCv false else RUnit).
Proof. intros t cl tr S A _. destruct (cl_api cl); try discriminate S; cbn; auto. Qed.
Lemma idle_tr : forall t cl tr l r, idle_contract t cl tr r -> idle_contract t cl (tr ++ l) r.
Proof. intros t cl tr l r H. exact H. Qed.
Lemma idle_att : forall t cl tr r, att t cl -> idle_contract t cl tr r.
Proof. intros t cl tr r A U. contradiction. Qed.

Lemma lift : forall t cl tr fs, att t cl -> newbot wait_contract wmid t cl tr fs -> newbot idle_contract imid t cl tr fs.
Proof.
  intros t cl tr fs A H. unfold newbot in *. destruct (rev fs) as [|f l]; [now apply idle_att|].
  destruct H as [H|H]; [left; left; auto|right].
  assert (S : forall r, stable idle_contract t cl tr r) by (intros r a l0; now apply idle_att).
  destruct f; try (destruct H; split; auto; fail).
  - destruct H as [[H1 _]|[H1 _]]; [left|right]; split; auto. now apply idle_att.
  - destruct H as [[H1 _]|[H1 _]]; [left|right]; split; auto. now apply idle_att.
Qed.

Lemma att_dec : forall t cl, att t cl \/ attached t (cl_pre cl) = None.
Proof. intros t cl. unfold att. destruct (attached t (cl_pre cl)); [left; discriminate|now right]. Qed.

Theorem idle_waits : forall s, reachable s ->
  each_return (fun t cl tr r => wait_sel (cl_api cl) = true -> idle_contract t cl tr r) (trace s).
Proof.
  apply (res_rule wait_sel idle_contract imid).
  - intros t c pre S. destruct (attached t pre) eqn:A.
    { apply lift; [unfold att; cbn [cl_pre]; rewrite A; discriminate|]. now apply wmid_start. }
    destruct c; try discriminate S; unfold newbot; cbn; left; right; (split; [exact A|split; [reflexivity|split; [reflexivity|]]]); cbn; try (now constructor).
  - intros. now apply idle_tr.
  - intros t cl tr l f g [[A H]|H]; [left|right; auto]. split; auto. now apply wmid_tr.
  - apply no_throw. intros t cl tr f above [[A H]|(_ & _ & _ & H)]; [now apply wmid_user in H|]. destruct H; exact I.
  - intros s t cl f inp h n R S C Op ST Ru M. destruct M as [[A M]|(N & A1 & _ & M)].
    { apply lift; [exact A|]. eapply wmid_code; eauto. }
    destruct Op as [cs Op]. assert (Lo : h_loc (hp s) t = None) by (eapply noacts_loc; eauto).
    assert (Z : forall g, start (cl_api cl) g -> forall l, l = [] -> newbot idle_contract imid t (add_acts l cl) (tr_of h) [g]).
    { intros g G l ->. unfold newbot. cbn [rev app]. left. right. split; [exact N|]. split; [cbn; now rewrite A1|]. auto. }
    assert (Y : forall l, l = [] -> forall tr, idle_contract t (add_acts l cl) tr (if wfor (cl_api cl) then RCv false else RUnit)).
    { intros l -> tr. apply (idle_ok t (add_acts [] cl)); [exact S|]. cbn. now rewrite A1. }
    assert (Ys : forall l, l = [] -> newbot idle_contract imid t (add_acts l cl) (tr_of h) (wresume (wk_of (cl_api cl)) false)).
    { intros l E. specialize (Y l E (tr_of h)). unfold wk_of. destruct (wfor (cl_api cl)); unfold newbot; cbn [wresume rev app]; [|exact Y].
      right. left. auto. }
    assert (Yn : wfor (cl_api cl) = false -> forall l, l = [] -> newbot idle_contract imid t (add_acts l cl) (tr_of h) []).
    { intros W l E. specialize (Y l E (tr_of h)). rewrite W in Y. exact Y. }
    assert (Kw : wfor (cl_api cl) = true -> WApiFor = wk_of (cl_api cl)) by (unfold wk_of; now intros ->).
    destruct M; code_cases Ru; opinfo A; cbn [next_frames];
      try (apply Z; [now constructor|exact Ea]); try (apply Ys; exact Ea); try (apply Yn; assumption);
      try (rewrite (Kw H); apply Ys; exact Ea); try (rewrite (Kw H); apply Z; [now constructor|exact Ea]);
      cbn [atom] in A; op_unfold A; rewrite ?Lo in A; injection A as _ <-; auto.
  - intros s t cl f e inp h n R S C Op Ru [[A M]|(_ & _ & X & _)]; [|discriminate X]. apply lift; [exact A|]. eapply wmid_throw; eauto.
  - intros s t cl f above r h n R S C Op ST Et T [[A M]|(_ & _ & -> & _)]; [|inversion T]. left. split; [exact A|]. eapply wmid_above; eauto.
  - intros t cl tr r [[A M]|(_ & _ & _ & M)]; [now apply idle_att|inversion M].
Qed.
