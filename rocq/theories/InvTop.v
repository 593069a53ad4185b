(** * InvTop: program points that occur only at the top of a stack. *)
From Verif Require Import Types Core State Ops Code Machine Base Spec Rules InvStack.

(** Frames that may lie under another frame. *)
Definition under (f : frame) : bool :=
  match f with
  | FApi _ | FUser _ _ | FRes _ | FThrow _ | FNoexcept | FRun _ | FDrop _ | FDestroy _ | FPackVal _ | FPackGuard _ | FSwallow
  | FRel _ | FUnreg | FClearLoc | FInit2 | FShut2 _ | FShut3 _ _ | FDisp _ _ _ | FProc _ | FPfNow _ _ | FPoEnd _
  | FWait _ WOnce | FSlNow _ | FThPut _ _ | FDetach _ | FLoop | FEnd | FJoin _ | FThJoin1 _ | FThSwap _ _
  | FSemRe _ _ _ _ _ _ _ | FNotifyL _ | FSet2 _ _ | FFire _ _ _ | FGet3 _ _ | FHnd _ _ | FThen _ _ _ _ _ _ | FThen1 _ _ _ _ _ _ _
  | FAsync _ _ _ _ _ | FWProc _ _ _ _ _ | FWMark _ _ | FWUnl _ _ | FPoolEnd _ _ | FPoolW _ _ _ _ | FPWk _ _ _ _ | FSched4 _ _ _ | FPDisp _ _
  | FPUnl _ | FPMoveS _ _ | FPJoin _ | FJoinL _ | FCheckEnd _ _ _ => true
  | _ => false
  end.
Definition unders (fs : list frame) : bool := forallb under fs.

Lemma unders_app : forall a b, unders (a ++ b) = unders a && unders b.
Proof. intros. unfold unders. apply forallb_app. Qed.
Lemma unders_destroy : forall ks, unders (destroy ks) = true.
Proof. destruct ks; reflexivity. Qed.
Lemma unders_lresume : forall c ok b, unders (lresume c ok b) = true.
Proof. intros [] ok []; reflexivity. Qed.
Lemma unders_wresume : forall k b, unders (wresume k b) = true.
Proof. intros [] b; reflexivity. Qed.
Lemma unders_tl : forall l, unders l = true -> unders (tl l) = true.
Proof. intros [|f l] H; auto. cbn in H. now apply andb_true_iff in H. Qed.

Lemma lstep_under : forall h t pre h' n, lstep h t pre h' n -> unders (tl (next_frames n)) = true.
Proof.
  intros h t pre h' n L.
  lstep_cases L; cbn [next_frames];
    try reflexivity;
    try (repeat match goal with |- context [match ?x with _ => _ end] => destruct x end; reflexivity);
    repeat match goal with |- context [match ?x with _ => _ end] => destruct x end;
    try (unfold run_one; cbn [app tl]; rewrite ?unders_app, ?unders_wresume; cbn; rewrite ?unders_lresume, ?unders_destroy, ?unders_wresume; reflexivity);
    try (apply unders_tl; rewrite ?unders_app, ?unders_lresume, ?unders_destroy, ?unders_wresume; reflexivity).
  - destruct c; reflexivity.
  - destruct fin; reflexivity.
  - destruct k; reflexivity.
  - destruct k as [| |p [d|] g|], st; reflexivity.
  - destruct g; reflexivity.
  - destruct a; reflexivity.
  - destruct a; reflexivity.
Qed.

Theorem under_reachable : forall s, reachable s -> forall t, unders (tl (stk s t)) = true.
Proof.
  apply (reachable_ind' (fun s => forall t, unders (tl (stk s t)) = true)).
  - intros t. cbn. destruct t; reflexivity.
  - intros s s' _ IH _ Tr. destruct Tr as [d|t pre rest u E L|t pre rest h n E L]; [exact IH|exact IH|].
    pose proof (lstep_under _ _ _ _ _ L) as H. destruct (lstep_pre _ _ _ _ _ L) as (P1 & _).
    assert (Rr : unders rest = true).
    { specialize (IH t). rewrite E in IH. destruct pre as [|f pre]; [congruence|]. cbn in IH.
      rewrite unders_app in IH. now apply andb_true_iff in IH. }
    assert (T : forall fs, unders (tl fs) = true -> unders (tl (fs ++ rest)) = true).
    { intros [|f fs] X; [now apply unders_tl|]. cbn [tl app] in *. now rewrite unders_app, X, Rr. }
    intros u. cbn [stk]. destruct n as [fs|c cfs fs]; unfold set_next; cbn [next_frames] in *.
    + rewrite upd_eq. destruct (u =? t); auto.
    + rewrite !upd_eq. destruct (u =? t); auto. destruct (u =? c); auto.
      assert (X : exists b, cfs = tframes b).
      { apply lstep_tst in L as [(b & k & inp & _ & _ & _ & _ & X)|[(_ & X & _)|((fs' & X) & _)]]; try discriminate X.
        injection X as _ -> _. now exists b. }
      destruct X as [[] ->]; reflexivity.
Qed.

(** A property of top-only program points. *)
Theorem top_rule : forall (I : st -> Prop) (P : heap -> tid -> frame -> Prop),
  (forall s, reachable s -> I s) ->
  (forall h t f, under f = true -> P h t f) ->
  (forall s d u f, I s -> P (hp s) u f -> P (emit (put_now (hp s) (h_now (hp s) + Zpos d)) (EvTick (Zpos d))) u f) ->
  (forall h t b, P h t (hd FEnd (tframes b))) ->
  (forall s t pre rest h n u f r, I s -> ubs s = None -> stk s t = pre ++ rest -> lstep (hp s) t pre h n ->
     u <> t -> stk s u = f :: r -> P (hp s) u f -> P h u f) ->
  (forall s t pre rest h n f, I s -> ubs s = None -> stk s t = pre ++ rest -> lstep (hp s) t pre h n ->
     (forall g r, stk s t = g :: r -> P (hp s) t g) ->
     hd_error (next_frames n) = Some f -> P h t f) ->
  forall s, reachable s -> forall t f r, stk s t = f :: r -> P (hp s) t f.
Proof.
  intros I P HI HU Ht Hs Ho Hn.
  apply (reachable_ind'' (fun s => forall t f r, stk s t = f :: r -> P (hp s) t f)).
  - intros t f r E. apply HU. cbn in E. destruct t; cbn in E; [|discriminate]. now injection E as <- <-.
  - intros s s' R R' IH U Tr. destruct Tr as [d|t pre rest u E L|t pre rest h n E L]; [|exact IH|].
    + intros t f r E. cbn [hp stk] in *. eapply Ht; eauto.
    + assert (Own : forall f r, next_frames n ++ rest = f :: r -> P h t f).
      { intros f r X. destruct (next_frames n) as [|g fs] eqn:N.
        - apply HU. pose proof (under_reachable s R t) as Ut. destruct (lstep_pre _ _ _ _ _ L) as (P1 & _).
          rewrite E in Ut. destruct pre as [|p0 pre]; [congruence|]. cbn in X, Ut. rewrite X, unders_app in Ut.
          apply andb_true_iff in Ut as [_ Ut]. cbn in Ut. now apply andb_true_iff in Ut.
        - cbn in X. injection X as -> _. eapply (Hn s t pre rest h n f); eauto. now rewrite N. }
      assert (Oth : forall u f r, u <> t -> stk s u = f :: r -> P h u f).
      { intros u f r N X. eapply (Ho s t pre rest h n u f r); eauto. }
      intros u f r X. cbn [hp stk] in *. destruct n as [fs|c cfs fs]; unfold set_next in X; cbn [next_frames] in *.
      * rewrite upd_eq in X. destruct (Nat.eqb_spec u t); [subst u|]; eauto.
      * rewrite !upd_eq in X. destruct (Nat.eqb_spec u t); [subst u; eauto|].
        destruct (Nat.eqb_spec u c); [subst u|eauto].
        assert (exists b, cfs = tframes b) as [b ->] by (apply lstep_tst in L as [(b & k & inp & _ & _ & _ & _ & Y)|[(_ & Y & _)|((fs' & Y) & _)]]; try discriminate Y; injection Y as _ -> _; now exists b).
        specialize (Hs h c b). rewrite X in Hs. exact Hs.
Qed.

(** Case analysis on the first frame pushed by a step. *)
Ltac hdk H :=
  cbn [next_frames app hd_error] in H; try discriminate H;
  repeat (first
    [ match type of H with context [match ?x with _ => _ end] => destruct x end
    | match type of H with
      | context [ufin_ret ?f _] => destruct f
      | context [destroy ?k] => destruct k
      | context [lresume ?c _ ?b] => destruct c, b
      | context [wresume ?k _] => destruct k
      | context [gresume ?k _] => destruct k
      | context [semresume ?k ?b] => destruct k as [| |? [?|] ?|], b
      | context [wresume_after _ ?a] => destruct a
      | context [pact_frames _ _ ?a] => destruct a
      | context [spresume _ _ ?k] => destruct k
      | context [api_frames ?c] => destruct c
      end ];
    cbn [next_frames app hd_error ufin_ret destroy lresume wresume gresume semresume wresume_after pact_frames spresume api_frames] in H; try discriminate H).
