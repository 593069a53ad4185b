(** * ThmMutex: mutual exclusion, and a checker for [steady]. *)
From Verif Require Import Types Core State Ops Code Machine Base Spec SpecApi SpecWait SpecSync SpecMutex Rules Events InvCtx InvQueue InvStack InvAff InvTop InvSleep
  Calls Contract ContractLib Replay ReplayObj ThmObj Calm ApiWait SemWait InvCv InvMutex ApiMutex.
From Verif Require ThmSync.

Lemma owns_snoc : forall m t tr e, owns m t (tr ++ [e]) =
  match e with
  | EvRet u (AMLock x) RUnit | EvRet u (AMTry x) (RBool true) => if (u =? t) && (x =? m) then true else owns m t tr
  | EvCall u (AMUnlock x) => if (u =? t) && (x =? m) then false else owns m t tr
  | _ => owns m t tr
  end.
Proof.
  intros. unfold owns. rewrite latest_snoc.
  destruct e; auto; destruct c; auto; try destruct r as [|[]| | | | | | | | | | |]; auto; destruct ((_ =? _) && (_ =? _)); auto.
Qed.

Definition unf (m : nat) (f : frame) : bool := match f with FMUnlock x | FMUn1 x _ | FMUn2 x | FMUn3 x => x =? m | _ => false end.
Lemma owns_other : forall m t tr e, by_thread t e = false -> owns m t (tr ++ [e]) = owns m t tr.
Proof.
  intros m t tr e H. rewrite owns_snoc. unfold by_thread in H. 
  destruct e; auto; cbn [actor] in H; destruct c; auto; try (rewrite H; reflexivity); destruct r as [|[]| | | | | | | | | | |]; auto; rewrite H; reflexivity.
Qed.
Theorem unlocking : forall m s, reachable s -> forall t f r, stk s t = f :: r -> unf m f = true -> owns m t (trace s) = false.
Proof.
  intros m. apply (top_rule reachable (fun h t f => unf m f = true -> owns m t (tr_of h) = false)); auto.
  - intros h t f U X. destruct f; discriminate.
  - intros s d u f R H X. change (tr_of _) with (trace s ++ [EvTick (Zpos d)]). rewrite owns_snoc. auto.
  - intros h t b X. destruct b; discriminate X.
  - intros s t pre rest h n u f r R U E L N Eu H X. specialize (H X). change (tr_of (hp s)) with (trace s) in H.
    unfold tr_of. destruct (lstep_tr _ _ _ _ _ L) as [->|[e Ee]]; [exact H|]. rewrite Ee. change (rev (e :: h_tr (hp s))) with (trace s ++ [e]).
    rewrite owns_other; auto. unfold by_thread. destruct (actor e) as [v|] eqn:Ae; auto. apply Nat.eqb_neq. intros ->.
    pose proof (lstep_actor _ _ _ _ _ _ L Ee) as La. rewrite Ae in La. destruct La; congruence.
  - intros s t pre rest h n f0 R U E L H Hd X.
    lstep_cases L; hdk Hd; injection Hd as <-; try discriminate X.
    all: try (specialize (H _ _ E); cbn [unf] in *; specialize (H X); pose proof (step_trace _ _ _ _ _ _ _ A) as Et; cbn [op_event] in Et; rewrite Et, app_nil_r; exact H).
    change (tr_of _) with (trace s ++ [EvCall t (AMUnlock m0)]). rewrite owns_snoc, Nat.eqb_refl. cbn [unf] in X. now rewrite X.
Qed.

Theorem owns_holder : forall m s, reachable s -> steady m (trace s) -> forall t, owns m t (trace s) = true -> mx_holder m (trace s) = Some t.
Proof.
  intros m. apply (reachable_ind'' (fun s => steady m (trace s) -> forall t, owns m t (trace s) = true -> mx_holder m (trace s) = Some t)).
  - intros _ t H. discriminate H.
  - intros s s' R R' IH U Tr. destruct Tr as [d|t pre rest u E L|t pre rest h n E L]; [|exact IH|].
    + intros S t. match type of S with steady m (trace ?x) => change (trace x) with (trace s ++ [EvTick (Zpos d)]) in * end. rewrite owns_snoc, mxh_snoc. intros H. apply IH; auto. now apply steady_app in S.
    + intros S u H. match type of S with steady m (trace ?x) => set (s' := x) in * end. change (trace s') with (tr_of h) in *.
      destruct (tr_step _ _ _ _ _ L) as [T|[e T]]; rewrite T in *; [auto|]. specialize (IH (steady_app _ _ _ S)).
      pose proof (mutex_calls s' R') as MC. change (trace s') with (tr_of h) in MC. rewrite T in MC. apply at_each_end in MC.
      rewrite owns_snoc in H. rewrite mxh_snoc. destruct e; auto.
      * destruct c; auto. destruct (_ && _); [discriminate H|auto].
      * destruct MC as (cl & cs & Oc & Ec & MC). destruct c; auto.
        -- destruct r; auto. destruct ((t0 =? u) && (m0 =? m)) eqn:X; auto. apply andb_true_iff in X as [X1 X2]. apply Nat.eqb_eq in X1, X2. subst.
           rewrite Ec in MC. specialize (MC eq_refl). unfold mutex_contract in MC. rewrite Ec in MC. specialize (MC (steady_app _ _ _ S)).
           destruct MC as [(_ & Hm & _)|[(Y & _)|(e & c & k & l & Y & _)]]; try discriminate Y. exact Hm.
        -- destruct r as [|[]| | | | | | | | | | |]; auto. destruct ((t0 =? u) && (m0 =? m)) eqn:X; auto. apply andb_true_iff in X as [X1 X2]. apply Nat.eqb_eq in X1, X2. subst.
           rewrite Ec in MC. specialize (MC eq_refl). unfold mutex_contract in MC. rewrite Ec in MC.
           destruct MC as [(_ & _ & Hm)|(Y & _)]; try discriminate Y. apply Hm. now apply steady_app in S.
      * destruct (Nat.eqb_spec m0 m) as [->|]; auto. pose proof (lock_events s' R') as LE. change (trace s') with (tr_of h) in LE. rewrite T in LE. apply at_each_end in LE.
        specialize (IH u H). cbn in LE. congruence.
      * destruct (Nat.eqb_spec m0 m) as [->|]; auto. exfalso.
        pose proof (rel_holder m s' R') as RH. change (trace s') with (tr_of h) in RH. rewrite T in RH. specialize (RH S). apply at_each_end in RH. cbn in RH.
        pose proof (IH u H) as Hu. rewrite RH in Hu by auto. injection Hu as ->.
        assert (X : h_tr h = EvMxRel u m :: h_tr (hp s)).
        { unfold tr_of, trace in T. apply (f_equal (@rev _)) in T. rewrite rev_app_distr, !rev_involutive in T. exact T. }
        destruct (lstep_mx m _ _ _ _ _ L) as [f g Ep Mf En Cg Ig Fl Ex Y|i Ep En Ex Y|i Ep En Ex Y|i Ep En Ow Ex Y|Ep En Ex Y|Ep En Ex Y|C1 C2 C3 C4 Ex Y].
        all: try (rewrite Y in X; try discriminate X; now apply cons_neq in X).
        -- rewrite Y in X. injection X as ->. rewrite Ep in E. 
           rewrite (unlocking m s R _ _ _ E) in H; [discriminate H|]. cbn. apply Nat.eqb_refl.
        -- destruct Y as [Y|(e & Y & O)]; rewrite Y in X; [now apply cons_neq in X|]. injection X as ->. cbn in O. rewrite Nat.eqb_refl in O. discriminate O.
Qed.
Theorem mutual_exclusion : forall m s, reachable s -> steady m (trace s) -> forall t u, owns m t (trace s) = true -> owns m u (trace s) = true -> t = u.
Proof. intros m s R S t u A B. apply (owns_holder m s R S) in A, B. congruence. Qed.

(** ** Checking [steady] *)
Definition engagedb (m : nat) (t : tid) (tr : list event) : bool :=
  match mx_holder m tr with Some u => u =? t | None => false end || existsb (fun cl => mx_call m (cl_api cl)) (open_calls t tr).
Definition oeq (a b : option id) : bool := match a, b with Some x, Some y => x =? y | None, None => true | _, _ => false end.
Definition steady1 (m : nat) (t : tid) (a : list event) (o : option event) : bool :=
  negb (engagedb m t a) || (match attached t a with Some _ => true | None => false end && match o with Some e => oeq (attached t (a ++ [e])) (attached t a) | None => true end).
Definition users (tr : list event) : list tid := flat_map (fun e => match e with EvMxAcq t _ | EvCall t _ => [t] | _ => [] end) tr.
Definition steady_chk (m : nat) (tr : list event) : bool :=
  forallb (fun t => forallb (fun n => steady1 m t (firstn n tr) (nth_error tr n)) (seq 0 (S (length tr)))) (nodup Nat.eq_dec (users tr)).
Lemma engaged_b : forall m t tr, engaged m t tr -> engagedb m t tr = true.
Proof.
  intros m t tr [H|(cl & I & H)]; unfold engagedb; apply orb_true_iff.
  - left. rewrite H. apply Nat.eqb_refl.
  - right. apply existsb_exists. eauto.
Qed.
Lemma calls_users : forall t l, calls_r t l <> [] -> In t (users (rev l)).
Proof.
  intros t. induction l as [|e l IH]; intros N; [now elim N|]. cbn [rev]. unfold users. rewrite flat_map_app. apply in_or_app.
  cbn [calls_r] in N. destruct e; try (left; apply IH; intros X; rewrite X in N; destruct (by_thread _ _); now elim N).
  all: repeat match type of N with context [if ?a =? ?b then _ else _] => destruct (Nat.eqb_spec a b) end; subst;
    try (now elim N); try (left; apply IH; auto; intros X; rewrite X in N; now elim N); right; now left.
Qed.
Lemma engaged_user : forall m t tr, engaged m t tr -> In t (users tr).
Proof.
  intros m t tr [H|(cl & I & _)].
  - induction tr as [|e tr IH] using rev_ind; [discriminate H|]. rewrite mxh_snoc in H. unfold users. rewrite flat_map_app. apply in_or_app.
    destruct e; try (left; now apply IH).
    + destruct (_ =? _); [right; injection H as ->; now left|left; now apply IH].
    + destruct (_ =? _); [discriminate H|left; now apply IH].
  - unfold open_calls in I. rewrite <- (rev_involutive tr). induction (rev tr) as [|e l IH]; [destruct I|].
    cbn [rev]. unfold users. rewrite flat_map_app. apply in_or_app. cbn [calls_r] in I.
    assert (AA : forall e cs, In cl (add_act e cs) -> cs <> []) by (intros e0 [|c cs] J; [destruct J|discriminate]).
    assert (NE : calls_r t l <> [] -> In t (users (rev l))).
    { apply calls_users. }
    assert (NI : In cl (calls_r t l) -> In t (users (rev l))) by (intros J; apply NE; intros X; rewrite X in J; destruct J).
    destruct e; try (left; destruct (by_thread _ _); eauto; fail).
    all: repeat match type of I with context [if ?a =? ?b then _ else _] => destruct (Nat.eqb_spec a b) end; subst;
      try (now destruct I); try (left; eauto; apply NE; intros X; rewrite X in I; now destruct I); right; now left.
Qed.
Lemma steady_ok : forall m tr, steady_chk m tr = true -> steady m tr.
Proof.
  intros m tr H a b t E G. unfold steady_chk in H. rewrite forallb_forall in H.
  assert (I : In t (users tr)) by (subst; unfold users; rewrite flat_map_app; apply in_or_app; left; eapply engaged_user; eauto).
  apply (nodup_In Nat.eq_dec) in I. specialize (H t I). rewrite forallb_forall in H.
  specialize (H (length a)). rewrite in_seq in H. assert (L : 0 <= length a < 0 + S (length tr)) by (subst; rewrite app_length; lia). specialize (H L).
  subst tr. rewrite firstn_app, Nat.sub_diag, firstn_all in H. cbn [firstn] in H. rewrite app_nil_r in H.
  rewrite nth_error_app2, Nat.sub_diag in H by lia. unfold steady1 in H. rewrite (engaged_b m t a G) in H. cbn [negb orb] in H.
  apply andb_true_iff in H as [H1 H2]. split; [destruct (attached t a); congruence|]. intros e b' ->. cbn in H2.
  destruct (attached t (a ++ [e])), (attached t a); cbn in H2; try congruence. apply Nat.eqb_eq in H2. congruence.
Qed.
Theorem mutex_contracts : forall s, reachable s ->
  each_return (fun t cl tr r => match cl_api cl with
    | AMLock m => steady m tr -> mlock_spec t m cl tr r
    | AMTry m => mtry_spec t m cl tr r
    | AMUnlock m => steady m tr -> munlock_spec t m cl tr r
    | _ => True end) (trace s).
Proof.
  intros s R. eapply ThmSync.each_mono; [|exact (mutex_calls s R)]. intros t cl tr r H. unfold mutex_contract in H.
  destruct (cl_api cl); auto; apply H; reflexivity.
Qed.
