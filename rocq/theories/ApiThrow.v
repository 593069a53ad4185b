(** * ApiThrow: every exception that leaves a call is explained. *)
From Verif Require Import Types Core State Ops Code Machine Base Spec SpecApi SpecFire SpecWhenApi SpecThrow Rules Events InvCtx InvStack InvRefs
  Calls Contract ContractLib Adj InvPack InvFire InvTab ThmCheck InvThrow ApiWhen.

(** ** Which frames belong to which calls *)
Section Fit.
Variable c : api.
Definition setc : Prop := match c with APSet _ _ | APSetExn _ _ | APAbandon _ | AMakeReady _ | AMakeExn _ | AWhenAll _ | AWhenAny _ _ => True | _ => False end.
Definition whenc : Prop := match c with AWhenAll _ | AWhenAny _ _ => True | _ => False end.
Definition readyc : Prop := match c with AMakeReady _ | AMakeExn _ | AWhenAll _ | AWhenAny _ _ => True | _ => False end.
Definition getc : Prop := match c with AFGet _ => True | _ => False end.
Definition thenc : Prop := match c with AFThen _ _ _ _ _ _ | AFThenNew _ _ _ _ _ => True | _ => False end.
Definition taskc : Prop := runs_tasks c = true.
Definition mlockc : Prop := match c with AMLock _ => True | _ => False end.
Definition gfit (g : gk) : Prop := match g with GGet _ => getc | _ => True end.
Definition semfit (k : semk) : Prop := taskc /\ match k with KMx _ _ => mlockc | KState _ _ g => gfit g | _ => True end.
Definition wkfit (k : wk) : Prop := match k with WSem _ _ _ _ _ k => semfit k | _ => True end.
Definition lkfit (k : lk) : Prop := match k with LkWhen _ _ _ _ _ => whenc | _ => True end.
Definition spfit (k : spk) : Prop := match k with SpThen _ _ _ _ _ => thenc | _ => True end.
Definition pfit (a : pact) : Prop := pesc a = true -> taskc.
Definition cfit (f : frame) : Prop :=
  match f with
  | FThJoin _ | FThJoin1 _ => match c with AThJoin _ => True | _ => False end
  | FThDetach _ => match c with AThDetach _ => True | _ => False end
  | FMLock _ | FMTas _ _ | FMOwnQ _ _ => mlockc
  | FMUnlock _ | FMUn1 _ _ => match c with AMUnlock _ => True | _ => False end
  | FSem _ _ _ k | FSemId _ _ _ k | FSemAdd _ _ _ _ k | FSemTok _ _ _ _ _ _ k | FSemExit _ _ _ _ _ _ k | FSemGo _ _ _ _ _ k
  | FSemRe _ _ _ _ _ _ k | FSemNow _ _ _ _ _ _ k | FSemRem _ _ _ _ k => semfit k
  | FWaitUntil _ | FProcess | FProc _ | FProcessFor _ | FPf0 _ _ | FPf _ _ _ | FPfNow _ _ | FSleepUntil _ | FSleepFor _ | FSl _ _ | FSlNow _ | FLoop => taskc
  | FWaitFor _ k | FWait _ k | FWait1 _ _ k | FSleep _ _ k => taskc /\ wkfit k
  | FSt _ _ g | FStW1 _ _ g | FStW2 _ _ g | FStEnd _ _ g => taskc /\ gfit g
  | FWaitList _ | FPWait _ _ | FPWaitAll _ => taskc
  | FPApi _ a | FJob _ _ a => pfit a
  | FGet _ | FGet2 _ | FGet3 _ _ => getc
  | FSet _ _ | FSet1 _ _ | FSetFail _ => setc
  | FMkReady _ _ | FMkReady1 _ _ => readyc
  | FWhen _ _ | FWId _ _ _ | FWFillAll _ _ _ _ _ | FWEach _ _ _ _ _ | FWThen _ _ _ _ _ _ _ | FWPack _ _ _ _ _ _ | FWAtt _ _ _ _ _ _ _
  | FWProc _ _ _ _ _ | FWFin _ | FWFin1 _ => whenc
  | FWIn _ _ _ _ _ | FPackVal _ => False
  | FWMark _ a | FWUnl _ a => match a with WaRet => True | WaPack _ => False end
  | FInvoke _ _ k | FPush _ _ k | FLaunch1 _ _ _ k | FLaunch _ _ _ k | FFire1 _ _ k => lkfit k
  | FDisp _ k c => (tesc k = true -> taskc) /\ lkfit c
  | FPSet _ _ => match c with APSet _ _ | APSetExn _ _ | APAbandon _ => True | _ => False end
  | FPGetF _ | FPGetF1 _ => match c with APGetFuture _ => True | _ => False end
  | FHReady _ => match c with AFReady _ => True | _ => False end
  | FHErr _ => match c with AFHasError _ => True | _ => False end
  | FHWait _ _ => match c with AFWait _ | AFWaitFor _ _ => True | _ => False end
  | FThen _ _ _ _ _ _ => thenc
  | FSpawn _ k | FSpReg _ k => spfit k
  | FRun k => tesc k = true -> taskc
  | FUStart _ _ fin | FUser _ fin => fin_sid fin = None /\ taskc
  | FRes r => match r with RExn _ => False | _ => True end
  | FApi _ => False
  | _ => True
  end.
End Fit.
(** As [explained], but make_ready_future, when_all and when_any may fail to set. *)
Definition origin (t : tid) (cl : call) (e : exn) : Prop :=
  (runs_tasks (cl_api cl) = true /\ exists u, In (EvUserEnd t u None (RExn e)) (cl_acts cl)) \/ lib_error t cl e \/ readyc (cl_api cl).
Definition fits (t : tid) (cl : call) (f : frame) : Prop :=
  match f with FThrow e => origin t cl e | f => cfit (cl_api cl) f end.
Fixpoint segok (t : tid) (cl : call) (seg : list frame) : Prop :=
  match seg with [] => True | f :: b => (fits t cl f \/ existsb stops b = true) /\ segok t cl b end.

Lemma origin_mono : forall t cl a e, origin t cl e -> origin t (add_acts a cl) e.
Proof.
  intros t cl a e [(R & u & J)|[H|H]]; [left|right; left|right; right]; auto.
  - split; auto. exists u. apply in_or_app. auto.
  - unfold lib_error in *. cbn [add_acts cl_api cl_acts]. destruct (cl_api cl); auto. destruct H as [H|(p & H)]; auto. right. exists p. apply in_or_app. auto.
Qed.
Lemma fits_mono : forall t cl a f, fits t cl f -> fits t (add_acts a cl) f.
Proof. intros t cl a f H. destruct f; try exact H. now apply origin_mono. Qed.
Lemma segok_mono : forall t cl a seg, segok t cl seg -> segok t (add_acts a cl) seg.
Proof. induction seg as [|f b IH]; cbn; auto. intros [[H|H] H']; split; auto. left. now apply fits_mono. Qed.
Lemma segok_stop : forall t cl l r, existsb stops r = true -> segok t cl r -> segok t cl (l ++ r).
Proof. induction l as [|f l IH]; cbn; auto. intros r S H. split; auto. right. rewrite existsb_app, S. apply orb_true_r. Qed.
Lemma segok_tail : forall t cl l r, segok t cl (l ++ r) -> segok t cl r.
Proof. induction l as [|f l IH]; cbn; auto. intros r [_ H]. auto. Qed.
(** Frames that fit whatever the call is. *)
Lemma segok_fit : forall t cl l r, Forall (fits t cl) l -> segok t cl r -> segok t cl (l ++ r).
Proof. intros t cl l r F H. induction F; cbn; auto. Qed.
Lemma destroy_fit : forall t cl l, Forall (fits t cl) (destroy l).
Proof. intros t cl [|k l]; cbn; auto. constructor; auto. exact Logic.I. Qed.
Lemma lresume_fit : forall t cl k b o, lkfit (cl_api cl) k -> Forall (fits t cl) (lresume k b o).
Proof.
  intros t cl k b o H. destruct k; cbn [lresume]; try (apply Forall_app; split; [apply destroy_fit|]); repeat constructor; auto using destroy_fit.
Qed.
Ltac ff := repeat first [apply Forall_nil|apply Forall_cons|apply destroy_fit|apply Forall_app; split].
Lemma wresume_fit : forall t cl k b, taskc (cl_api cl) -> wkfit (cl_api cl) k -> Forall (fits t cl) (wresume k b).
Proof. intros t cl k b T H. destruct k; cbn [wresume]; ff; cbn; auto. Qed.
Lemma gresume_fit : forall t cl g f, taskc (cl_api cl) -> gfit (cl_api cl) g -> Forall (fits t cl) (gresume g f).
Proof. intros t cl g f T H. destruct g; cbn [gresume]; ff; cbn; auto. Qed.
Lemma semresume_fit : forall t cl k b, semfit (cl_api cl) k -> Forall (fits t cl) (semresume k b).
Proof. intros t cl k b [T H]. destruct k; cbn [semresume]; ff; cbn; auto. destruct dur; [destruct b|]; ff; cbn; auto. Qed.
Lemma spresume_fit : forall t cl n i k, spfit (cl_api cl) k -> Forall (fits t cl) (spresume n i k).
Proof. intros t cl n i k H. destruct k; cbn [spresume]; ff; cbn; auto. split; auto. discriminate. Qed.
Lemma pact_fit : forall t cl o pl a, pfit (cl_api cl) a -> Forall (fits t cl) (pact_frames o pl a).
Proof. intros t cl o pl a H. destruct a; cbn [pact_frames]; ff; cbn; auto; apply H; reflexivity. Qed.
Lemma run_fit : forall t cl c k, taskc (cl_api cl) -> Forall (fits t cl) (run_one c k).
Proof. intros. unfold run_one. ff; cbn; auto. Qed.
Lemma start_ok : forall t c pre, segok t (mkCall c pre []) (api_frames c).
Proof. intros t c pre. destruct c; cbn; try (split; [left|]; auto; fail); repeat split; auto; left; repeat split; auto; intros; discriminate. Qed.
Lemma take_pack : forall s pl lv inp h t x, reachable s -> atom (hp s) t (OPTake pl lv) inp = AOk h x -> match snd x with Some (_, k) => tesc k = false | None => True end.
Proof.
  intros s pl lv inp h t x R A. cbn [atom] in A. destruct (pool_take (h_pools (hp s) pl) lv inp) as [p' r] eqn:Et.
  assert (X : match r with Some (_, k) => tesc k = false | None => True end).
  { unfold pool_take in Et. destruct (qs_get _ _); [injection Et as _ <-; auto|].
    destruct (jobs_find _ _) as [y|] eqn:E; [|injection Et as _ <-; auto]. destruct (_ <=? _); injection Et as _ <-; [|auto].
    destruct (task_null _); auto. apply find_in in E. pose proof (tab_inv pl s R) as F. rewrite Forall_forall in F. destruct (F _ E) as (t9 & g & a & q & _ & _ & [X|(u & caps & X)]); cbn in X; rewrite X; reflexivity. }
  destruct (pool_top _ _ _) as [d|]; destruct r as [[j k]|]; injection A as _ <-; exact X.
Qed.
Lemma step_ok : forall s t cl pre r rest h n, reachable s -> stk s t = (pre ++ r) ++ rest -> lstep (hp s) t pre h n ->
  (forall c, h <> emit (hp s) (EvCall t c)) -> segok t cl (pre ++ r) -> segok t (add_acts (new_acts t (hp s) h) cl) (next_frames n ++ r).
Proof.
  intros s t cl pre r rest h n R ST L NC H. pose proof (segok_tail _ _ _ _ H) as Hr.
  assert (Hr' := segok_mono t cl (new_acts t (hp s) h) r Hr).
  destruct (existsb stops r) eqn:Sr; [now apply segok_stop|].
  pose proof (flow_reachable s R t) as Fl. rewrite ST in Fl.
  destruct L as [c u fin|v u fin|e u fin|inp f h n Ru|inp e g h n Ru|x c].
  - now destruct (NC c).
  - cbn [app segok] in H. destruct H as [[[H _]|H] _]; [|congruence]. destruct fin; [exact Hr'|discriminate H].
  - cbn [app segok] in H. destruct H as [[[H T]|H] _]; [|congruence]. cbn [next_frames app segok]. split; [left|exact Hr']. left. split; [exact T|]. exists u.
    erewrite new_acts_one by reflexivity. unfold by_thread. cbn [actor]. rewrite Nat.eqb_refl, H. apply in_or_app. right. now left.
  - cbn [app segok] in H. destruct H as [[H|H] _]; [|congruence].
    cbn [app adj] in Fl. destruct Fl as [(_ & _ & Fn & _) _]. set (cl' := add_acts (new_acts t (hp s) h) cl) in *.
    assert (Ec : cl_api cl' = cl_api cl) by reflexivity.
    assert (Jb : forall pl lv x, f = FCheck2 pl lv -> atom (hp s) t (OPTake pl lv) inp = AOk h x -> match snd x with Some (_, k) => tesc k = false | None => True end).
    { intros pl lv x -> A. apply (take_pack s pl lv inp h t x R A). }
    assert (Gt : forall p take e, f = FGet3 p take -> atom (hp s) t (OGetVal p take) inp = AOk h (RExn e) -> In (EvGot t p (RExn e)) (cl_acts cl')).
    { intros p take e -> A. apply new_acts_op in A. cbn [op_event by_thread actor] in A. unfold by_thread in A. cbn [actor] in A. rewrite Nat.eqb_refl in A. unfold cl'. rewrite A. apply in_or_app. right. now left. }
    assert (Lb : forall e, lib_error t cl' e \/ readyc (cl_api cl) -> segok t cl' ([FThrow e] ++ r)).
    { intros e X. cbn [app segok]. split; auto. left. right. exact X. }
    destruct f; code_cases Ru; cbn [next_frames].
    all: cbn [fits cfit] in H; cbn [fine] in Fn.
    all: repeat match goal with |- context [match ?x with _ => _ end] => destruct x eqn:? end.
    all: rewrite ?app_nil_r, <- ?app_assoc.
    all: try (cbn [app segok existsb stops orb fits cfit fin_sid]; rewrite ?Ec; repeat split; auto; try (left; repeat split; solve [auto|tauto|intros; discriminate]); fail).
    all: try (apply segok_fit; [|exact Hr']; solve [apply destroy_fit|now apply lresume_fit|now apply semresume_fit|now apply spresume_fit|now apply pact_fit|apply gresume_fit; tauto|apply wresume_fit; tauto]).
    all: try (apply Lb; left; unfold lib_error; rewrite Ec; clear -H; unfold mlockc, getc, thenc in H; destruct (cl_api cl); try contradiction H; auto; fail).
    all: try (apply Lb; left; unfold lib_error; rewrite Ec; unfold getc in H; destruct (cl_api cl); try contradiction H; eauto; fail).
    all: try (apply Lb; unfold lib_error; rewrite Ec; clear -H; unfold setc in H; destruct (cl_api cl); try contradiction H; cbn; auto; fail).
    all: repeat first [exact Hr'|apply segok_fit].
    all: ff.
    all: try (first [now apply lresume_fit|apply run_fit; tauto|apply wresume_fit; tauto]; fail).
    all: cbn [fits cfit]; rewrite ?Ec.
    all: try exact Logic.I.
    all: try tauto.
    all: try (intros X; congruence).
    all: try (clear -H; unfold readyc, whenc, getc, mlockc, setc, semfit, taskc in *; destruct (cl_api cl); cbn in *; tauto).
    all: try (destruct a; [ff; exact Logic.I|contradiction H]).
    all: try (destruct H; split; [assumption|split; assumption]).
    all: try (right; left; unfold lib_error; rewrite Ec; clear -H; unfold thenc in H; destruct (cl_api cl); try contradiction H; auto; fail).
    specialize (Jb _ _ _ eq_refl A). match goal with E : snd x = _ |- _ => rewrite E in Jb end. intros X; congruence.
  - cbn [app segok] in H. destruct H as [[H|H] [Hg _]].
    + assert (Th : forall h', segok t (add_acts (new_acts t (hp s) h') cl) r -> segok t (add_acts (new_acts t (hp s) h') cl) ([FThrow e] ++ r)).
      { intros h' X. cbn [app segok]. split; [|exact X]. left. now apply origin_mono. }
      destruct g; code_cases Ru; cbn [next_frames]; try (cbn [atom] in A; discriminate A).
      all: rewrite <- ?app_assoc.
      all: first [exact Hr'|apply Th; exact Hr'|apply segok_fit; [apply destroy_fit|apply Th; exact Hr']
        |cbn [app segok existsb stops orb]; repeat split; auto; left; first [exact Logic.I|now apply origin_mono]].
    + cbn [existsb] in H. rewrite Sr, orb_false_r in H. destruct g; try discriminate H; code_cases Ru; cbn [next_frames]; try (cbn [atom] in A; discriminate A).
      all: first [exact Hr'|cbn [app segok existsb stops orb]; repeat split; auto; left; exact Logic.I].
  - cbn [app segok] in H. destruct H as [_ [[[]|H] _]]. congruence.
Qed.

Lemma throw_lnk : forall s, reachable s -> forall t,
  lnk (fun cl seg => incall t cl (trace s) /\ segok t cl seg) (stk s t) (open_calls t (trace s)).
Proof.
  apply (bot_rule (fun t cl tr seg => segok t cl seg)); auto.
  - intros s t c pre _ _. apply start_ok.
  - intros s s' t cl pre r rest h n R _ _ _ E L _ NC _ _ H. now apply (step_ok s t cl pre r (FApi (cl_api cl) :: rest) h n).
Qed.
Lemma throw_origin : forall s, reachable s -> each_return (fun t cl tr r => forall e, r = RExn e -> origin t cl e) (trace s).
Proof.
  apply (ret_rule (fun h t cl seg => incall t cl (tr_of h) /\ segok t cl seg)).
  - apply throw_lnk.
  - intros s t cl r top R T [_ H] e ->. destruct T as [[X _]|[->|(e' & X & ->)]]; [discriminate X| |injection X as <-].
    + cbn in H. destruct H as [[[]|H] _]. discriminate H.
    + cbn in H. destruct H as [[H|H] _]; [exact H|discriminate H].
Qed.
Theorem throw_explained : forall s, reachable s -> each_return (fun t cl tr r => explained t cl r) (trace s).
Proof.
  intros s R a e b E. pose proof (throw_origin s R a e b E) as H. pose proof (when_returns s R a e b E) as W.
  destruct e; auto. destruct H as (cl & cs & H1 & H2 & H3). destruct W as (cl' & cs' & W1 & W2 & W3). rewrite W1 in H1. injection H1 as -> ->.
  exists cl, cs. split; auto. split; auto. intros e ->. destruct (H3 e eq_refl) as [X|[X|X]]; auto.
  exfalso. unfold when_contract in W3. clear -X W3. unfold readyc in X. destruct (cl_api cl); try contradiction X; try destruct hs; unfold ready_future, combined in W3.
  all: repeat match goal with W : exists _, _ |- _ => destruct W | W : _ /\ _ |- _ => destruct W end.
  all: match goal with W : RExn _ = RHnd _ |- _ => discriminate W end.
Qed.
