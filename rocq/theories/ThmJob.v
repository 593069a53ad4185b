(** * ThmJob: consequences for schedule and stop. *)
From Verif Require Import Types Core State Ops Code Machine Base Spec SpecApi SpecKind SpecPack SpecPool SpecPoolApi Rules Events InvBound InvKind InvJobs InvTab InvCv InvRefs OwnProm ApiPool OwnJob ThmOwn ThmPool.

Theorem pool_contracts : forall s, reachable s -> each_return pool_contract (trace s).
Proof.
  intros s R. apply (at_each_imp (fun tr e => match e with
    | EvRet t c r => exists cl rest, open_calls t tr = cl :: rest /\ cl_api cl = c /\ (pool_sel (cl_api cl) = true -> pool_contract t cl tr r) | _ => True end)); [|exact (pool_calls s R)].
  intros tr [] H; auto. destruct H as (cl & rest & O & C & P). exists cl, rest. split; auto. split; auto.
  destruct (pool_sel (cl_api cl)) eqn:Q; auto. unfold pool_contract. destruct (cl_api cl); try exact Logic.I; discriminate Q.
Qed.
Lemma fun_purpose : forall s, reachable s -> at_each (fun tr e => match e with EvJobAdd _ pl j g p q => exists u, purpose_is tr p (PuFun u) | _ => True end) (trace s).
Proof.
  apply (event_rule (fun s => reachable s)); auto.
  intros s t pre rest h n e0 R U E L X. pose proof (proj2 (k_inv_reachable s R) t) as F. rewrite E in F. apply Forall_app in F as [F _].
  assert (K : forall t' pl j g p q, e0 = EvJobAdd t' pl j g p q -> exists u, purpose_is (trace s) p (PuFun u)).
  { intros t' pl0 j0 g0 p0 q0 ->. clear E. ev_cases L X. injection X as <- -> -> -> -> ->. inversion F as [|? ? K _]; subst. destruct K as [K _]. eauto. }
  destruct e0; auto. eapply K; reflexivity.
Qed.
(** The call of a packaged function that ends was begun by the same thread. *)
Definition ufok (tr : list event) (t : tid) (f : frame) : Prop :=
  match f with FUser u (UPack p) => exists a, In (EvUser t u a (Some p)) tr | _ => True end.
Lemma ufok_app : forall tr l t f, ufok tr t f -> ufok (tr ++ l) t f.
Proof. intros tr l t f. destruct f; cbn; auto. destruct fin; auto. intros [a H]. exists a. apply in_or_app; auto. Qed.
Lemma ufok_reachable : forall s, reachable s -> forall t, Forall (ufok (trace s) t) (stk s t).
Proof.
  apply (frame_rule reachable (fun h => ufok (tr_of h))); try exact I; auto.
  - intros s d u f R _ H. unfold tr_of in *. hs. cbn [rev]. now apply ufok_app.
  - intros s t pre rest h n u f R F E L _ J H. unfold tr_of in *. destruct (lstep_tr _ _ _ _ _ L) as [X|[e0 X]]; rewrite X; auto. cbn [rev]. now apply ufok_app.
  - intros s t pre rest h n R E L Fp _. destruct (lstep_tr' _ _ _ _ _ L) as [l Et]. rewrite Et.
    assert (Fp' : Forall (ufok (trace s ++ l) t) pre) by (eapply Forall_impl; [|exact Fp]; intros; now apply ufok_app). clear Fp.
    lstep_cases L; (split; [|try exact I; cbn [spawned]; try (fl_; exact I)]); cbn [next_frames];
      inversion Fp' as [|? ? Fp1 Fp2]; subst; fl_; try exact I; cbn [ufok] in *; eauto.
    destruct fin; auto. exists a. rewrite <- Et. cbn [atom] in A. injection A as <- _. unfold tr_of. hs. cbn [rev fin_sid]. apply in_or_app. right. now left.
Qed.
Theorem end_begun : forall s, reachable s -> at_each (fun tr e => match e with EvUserEnd t u (Some p) r => exists a, In (EvUser t u a (Some p)) tr | _ => True end) (trace s).
Proof.
  apply (event_rule (fun s => reachable s)); auto.
  intros s t pre rest h n e0 R U E L X. pose proof (ufok_reachable s R t) as F. rewrite E in F. apply Forall_app in F as [F _].
  assert (K : forall t' u p r, e0 = EvUserEnd t' u (Some p) r -> exists a, In (EvUser t' u a (Some p)) (trace s)).
  { intros t' u0 p0 r0 ->. clear E. ev_cases L X; injection X as -> -> Ef _; destruct fin; try discriminate Ef; injection Ef as ->;
      repeat (inversion F as [|? ? K F']; subst; clear F; rename F' into F; cbn [ufok] in K; try (exact K)). }
  destruct e0; auto. match goal with |- match ?x with _ => _ end => destruct x; auto end. eapply K; reflexivity.
Qed.
(** A job removed before it was taken: its function never begins, and its future
    gets broken_promise or nothing. *)
Theorem removed_result : forall s pl j t js e a b t0 g p q, reachable s -> trace s = a ++ e :: b ->
  (e = EvJobErase t pl js \/ e = EvJobClear t pl js) -> In j js -> ~ taken pl j a -> In (EvJobAdd t0 pl j g p q) (trace s) ->
  ~ begun p (trace s) /\ forall t' o, In (EvReady t' p o) (trace s) -> o = OExn XBroken.
Proof.
  intros s pl j t js e a b t0 g p q R E X J N A.
  assert (NT : ~ taken pl j (trace s)).
  { intros (v & lv & g' & I). rewrite E in I. apply in_app_iff in I as [I|[I|I]].
    - apply N. exists v, lv, g'. exact I.
    - destruct X; subst e; discriminate I.
    - eapply removed_never_taken in E; eauto. apply E. exists v, lv, g'. exact I. }
  assert (NB : ~ begun p (trace s)).
  { intros (v & u & x & I). apply in_split in I as (l1 & l2 & I). destruct (job_run s R pl j t0 g p q A l1 v u x l2 I) as (lv & g' & K).
    apply NT. exists v, lv, g'. rewrite I. apply in_or_app. auto. }
  split; auto. intros v o I. apply in_split in I as (l1 & l2 & I).
  assert (P : exists u, purpose_is (trace s) p (PuFun u)).
  { apply in_split in A as (m1 & m2 & A). destruct (fun_purpose s R m1 _ m2 A) as (u & P). exists u. rewrite A. now apply pur_app. }
  destruct P as (u & P). destruct (ThmOwn.outcome s v p o l1 l2 u R I P) as [(w & r & C & _)|[-> _]]; auto.
  destruct NB. apply in_split in C as (c1 & c2 & C). rewrite C in I. rewrite I, <- app_assoc in *. 
  destruct (end_begun s R c1 _ (c2 ++ EvReady v p o :: l2) I) as (x & Y). exists w, u, x. apply in_or_app. auto.
Qed.
