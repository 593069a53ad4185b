(** * ApiSet: the setters and the destructor of promises meet their contracts. *)
From Verif Require Import Types Core State Ops Code Machine Base Spec SpecApi SpecFire Rules Events InvCtx InvQueue InvStack
  Calls Contract ContractLib Replay ReplayObj ThmObj OwnProm ApiObj InvFire.

Section Points.
Variables (t : tid) (cl : call) (tr : list event).
Let acts l := cl_acts cl = l.
Definition setter (pr : nat) (o : outcome) : Prop :=
  match cl_api cl with
  | APSet q v => q = pr /\ o = OVal v
  | APSetExn q n => q = pr /\ o = OExn (XUser n)
  | APAbandon q => q = pr /\ o = OExn XBroken
  | _ => False
  end.
Definition done (p : sid) (o : outcome) (B : list event) : Prop :=
  begins cl (B ++ [EvLock t (LState p); EvReady t p o]) /\ does cl tr (EvReady t p o) (fun m => ~ is_ready p m).
(** [set_value] proper of state [p]: the frames it consists of. *)
Inductive sseg (p : sid) (o : outcome) (B : list event) : list frame -> Prop :=
| s_set : acts B -> sseg p o B [FSet p o]
| s_set1 : acts (B ++ [EvLock t (LState p)]) -> sseg p o B [FSet1 p o]
| s_fail : acts (B ++ [EvLock t (LState p)]) -> sometime cl tr (is_ready p) -> sseg p o B [FSetFail p]
| s_thrown : acts (B ++ [EvLock t (LState p); EvUnlock t (LState p)]) -> sometime cl tr (is_ready p) -> sseg p o B [FThrow XSatisfied]
| s_fire : forall x f, done p o B -> fires_for p f -> sseg p o B (x ++ [f])
| s_end : forall x, sets t p o B cl tr -> shielded x -> sseg p o B x.
Inductive smid : frame -> list frame -> Prop :=
| m_start : forall pr o, acts [] -> setter pr o -> smid (FPSet pr o) []
| m_set : forall pr o p seg ab f, setter pr o -> sometime cl tr (fun m => prom_of pr m = Some p) -> sseg p o [] seg -> seg = ab ++ [f] -> shield f = false -> smid f ab
| m_dtor : forall pr, acts [] -> cl_api cl = APDtor pr -> smid (FPDtor pr) []
| m_dtor1 : forall pr p, acts [EvPrm t pr None] -> cl_api cl = APDtor pr -> does cl tr (EvPrm t pr None) (fun m => prom_of pr m = Some p) -> smid (FPromDtor p) []
| m_dtor2 : forall pr p seg, cl_api cl = APDtor pr -> does cl tr (EvPrm t pr None) (fun m => prom_of pr m = Some p) ->
    sseg p (OExn XBroken) [EvPrm t pr None] seg -> smid FNoexcept seg.
End Points.
Definition set_sel (c : api) : bool := match c with APSet _ _ | APSetExn _ _ | APAbandon _ | APDtor _ => true | _ => false end.

Lemma done_mono : forall t cl tr p o B a l, done t cl tr p o B -> done t (add_acts a cl) (tr ++ l) p o B.
Proof. intros t cl tr p o B a l [X Y]. split; eauto with mono. Qed.
Lemma does_ready : forall t cl tr p o P, does cl tr (EvReady t p o) P -> is_ready p tr.
Proof. intros t cl tr p o P (_ & m & H & _). apply happens_in in H. eapply ready_in; eauto. Qed.
Lemma sets_mono : forall t cl tr p o B a l, sets t p o B cl tr -> sets t p o B (add_acts a cl) (tr ++ l).
Proof. intros t cl tr p o B a l (X & Y & Z). split; [eauto with mono|]. split; [eauto with mono|]. apply all_fired_app; auto. eapply does_ready; eauto. Qed.
Lemma done_tr : forall t cl tr p o B l, done t cl tr p o B -> done t cl (tr ++ l) p o B.
Proof. intros. rewrite <- (add_acts_nil cl). now apply done_mono. Qed.
Lemma sets_tr : forall t cl tr p o B l, sets t p o B cl tr -> sets t p o B cl (tr ++ l).
Proof. intros. rewrite <- (add_acts_nil cl). now apply sets_mono. Qed.
#[local] Hint Resolve done_mono sets_mono done_tr sets_tr : mono.
Lemma sseg_tr : forall t cl tr l p o B seg, sseg t cl tr p o B seg -> sseg t cl (tr ++ l) p o B seg.
Proof.
  intros t cl tr l p o B seg M. destruct M; [apply s_set|apply s_set1|apply s_fail|apply s_thrown|apply s_fire|apply s_end]; eauto with mono.
Qed.
Lemma smid_tr : forall t cl tr l f ab, smid t cl tr f ab -> smid t cl (tr ++ l) f ab.
Proof.
  intros t cl tr l f ab M. destruct M.
  - now apply m_start.
  - eapply m_set; eauto using sseg_tr with mono.
  - now apply m_dtor.
  - eapply m_dtor1; eauto with mono.
  - eapply m_dtor2; eauto using sseg_tr with mono.
Qed.
Lemma set_tr : forall t cl tr l r, set_contract t cl tr r -> set_contract t cl (tr ++ l) r.
Proof.
  assert (S : forall t pr o cl tr l r, set_spec t pr o cl tr r -> set_spec t pr o cl (tr ++ l) r).
  { intros t pr o cl tr l r [(A & B & C)|(p & A & [(B & C & D)|(B & C)])]; [left; eauto with mono|right|right]; exists p; (split; [eauto with mono|]); [left|right]; eauto with mono. }
  intros t cl tr l r. unfold set_contract. destruct (cl_api cl); auto.
  intros (-> & x & A & B). split; auto. exists x. split; [eauto with mono|]. destruct x; auto. destruct B as [[B C]|B]; [left|right]; eauto with mono.
Qed.
Lemma setter_post : forall t cl tr pr o r, setter cl pr o -> set_spec t pr o cl tr r -> set_contract t cl tr r.
Proof. intros t cl tr pr o r S H. unfold setter, set_contract in *. destruct (cl_api cl); try contradiction; destruct S as [-> ->]; exact H. Qed.
Lemma smid_start : forall t c pre, set_sel c = true -> newbot set_contract smid t (mkCall c pre []) (pre ++ [EvCall t c]) (api_frames c).
Proof.
  intros t c pre S. destruct c; try discriminate S; unfold newbot; cbn [api_frames rev app]; left; try (apply m_start; [reflexivity|cbn; auto]; fail).
  now apply m_dtor.
Qed.
Lemma fires_last : forall p f h t inp h' n, fires_for p f -> runs (code f) h t inp h' n ->
  (exists x g, next_frames n = x ++ [g] /\ fires_for p g) \/ (exists lft, f = FFire p [] lft /\ next_frames n = destroy lft).
Proof.
  intros p f h t inp h' n F Ru.
  assert (L : forall c b o x, lk_of p c -> exists y g, x ++ lresume c b o = y ++ [g] /\ fires_for p g).
  { intros c b o x H. destruct c; try contradiction. cbn in H |- *. do 2 eexists. split; [reflexivity|exact H]. }
  destruct f; try contradiction; cbn [fires_for] in F; code_cases Ru; cbn [next_frames];
    try (left; eexists []; eexists; split; [reflexivity|exact F]).
  all: repeat match goal with |- context [if ?b then _ else _] => destruct b end;
    try (left; eexists []; eexists; split; [reflexivity|exact F]).
  - left. apply (L c false (Some k) []). exact F.
  - left. apply (L c false (Some k) []). exact F.
  - left. apply (L c true None [FRel i]). exact F.
  - left. apply (L c true None [FRun k; FDrop k]). exact F.
  - left. apply (L c true (Some k) [FRun k]). exact F.
  - left. eexists []; eexists; split; [reflexivity|reflexivity].
  - right. eauto.
  - left. eexists []; eexists; split; [reflexivity|reflexivity].
Qed.

Lemma top_fire : forall h t h' n x g r p, top_step h t h' n (x ++ [g]) r -> fires_for p g ->
  (exists y, next_frames n ++ r = y ++ [g]) \/ (x = [] /\ r = [] /\ exists inp, runs (code g) h t inp h' n).
Proof.
  intros h t h' n x g r p T F. destruct r as [|r0 r _] using rev_ind.
  - destruct x as [|a x].
    + right. split; auto. split; auto. inversion T; subst; try contradiction. eauto.
    + exfalso. inversion T as [v u fin r1 Eh En X|e u fin r1 Eh En X|inp f r1 Ru X|inp e f r1 Ru X]; subst; try (destruct x; discriminate).
      destruct x as [|b x]; [|destruct x; discriminate]. cbn [app] in *. match goal with H : [_] = [_] |- _ => injection H as -> end.
      destruct g; try contradiction; cbn in Ru; contradiction.
  - left. assert (E : exists y, x ++ [g] = y ++ [r0]).
    { inversion T as [v u fin r1 Eh En X|e u fin r1 Eh En X|inp f r1 Ru X|inp e f r1 Ru X]; [exists (FUser u fin :: r)|exists (FUser u fin :: r)|exists (f :: r)|exists (FThrow e :: f :: r)]; cbn [app]; congruence. }
    destruct E as [y E]. apply app_inj_tail in E as [_ <-]. exists (next_frames n ++ r). now rewrite app_assoc.
Qed.
Lemma sseg_step : forall s t cl p o B seg r h n below, reachable s -> incall t cl (trace s) -> stk s t = seg ++ below -> (exists es, tr_of h = trace s ++ es) ->
  sseg t cl (trace s) p o B seg -> top_step (hp s) t h n seg r ->
  sseg t (add_acts (new_acts t (hp s) h) cl) (tr_of h) p o B (next_frames n ++ r).
Proof.
  intros s t cl p o B seg r h n below R C E (es & Es) M T.
  destruct M.
  - inversion T as [| |inp f r1 Ru X|]; subst. code_cases Ru; stepinfo A; cbn [next_frames app]. apply s_set1. cbn. reflexivity.
  - inversion T as [| |inp f r1 Ru X|]; subst. code_cases Ru; destruct x as [cbs|]; cbn [next_frames app].
    + pose proof (try_set_ev _ _ _ _ _ _ _ A) as (Et & Nr & _). pose proof (new_acts_op _ _ _ _ _ _ _ A) as Ea. cbn [op_event] in Ea. unfold by_thread in Ea. cbn [actor] in Ea. rewrite Nat.eqb_refl in Ea.
      rewrite Ea, Et. apply (s_fire _ _ _ _ _ _ [FNotify (SSt p) true]); [|reflexivity]. split.
      * replace (B ++ [EvLock t (LState p); EvReady t p o]) with ((B ++ [EvLock t (LState p)]) ++ [EvReady t p o]) by now rewrite <- app_assoc. now apply bg_add.
      * eapply do_now; eauto. intros H'. apply ready_iff in H'; auto. congruence.
    + assert (Rd : is_ready p (trace s)).
      { apply ready_iff; auto. cbn in A. destruct (fs_ready _); auto. cbn in A. inversion A. }
      pose proof (step_trace _ _ _ _ _ _ _ A) as Et. pose proof (new_acts_op _ _ _ _ _ _ _ A) as Ea. cbn [op_event] in Et, Ea.
      change (tr_of h = trace s ++ []) in Et. rewrite Ea, Et. apply s_fail; [cbn; now rewrite app_nil_r|]. fact.
  - inversion T as [| |inp f r1 Ru X|]; subst. code_cases Ru; stepinfo A; cbn [next_frames app]. apply s_thrown; [|fact]. cbn. rewrite H. now rewrite <- app_assoc.
  - inversion T as [| |inp f r1 Ru X|]; subst. destruct Ru.
  - destruct (top_fire _ _ _ _ _ _ _ _ T H0) as [[y ->]|(-> & -> & inp & Ru)]; [rewrite Es; apply s_fire; auto; fact|]. rewrite app_nil_r.
    destruct (fires_last _ _ _ _ _ _ _ H0 Ru) as [(x & g & -> & F)|(lft & -> & ->)]; [rewrite Es; apply s_fire; auto; fact|].
    pose proof (fok_reachable s R t) as K. rewrite E in K. inversion K as [|? ? K1 _]; subst. cbn [fok] in K1. destruct K1 as (Rd & dn & Ec & S). rewrite Es.
    apply s_end; [|now destruct lft]. destruct H as [H1 H2]. split; [fact|]. split; [fact|]. apply all_fired_app; auto.
    unfold all_fired. now rewrite Ec, app_nil_r.
  - rewrite Es. apply s_end; [fact|]. eapply shield_above; eauto.
Qed.

Lemma smid_user : forall t cl tr f ab, smid t cl tr f ab -> match f with FUser _ _ => False | FThrow e => ab = [] -> set_contract t cl tr (RExn e) | _ => True end.
Proof.
  intros t cl tr f ab M. destruct M; auto. destruct H1; try (destruct ab as [|? []]; inversion H2; subst; auto; fail).
  - destruct ab as [|? []]; inversion H2; subst. intros _. eapply setter_post; [exact H|]. right. exists p. split; auto.
  - apply app_inj_tail in H2 as [_ <-]. destruct f0; auto; contradiction.
  - subst x. unfold shielded in H4. rewrite hd_of_app in H4 by discriminate. cbn in H4. congruence.
Qed.
(** After a step of [set_value] that is the whole call. *)
Lemma sseg_bot : forall t cl tr pr p o fs, setter cl pr o -> sometime cl tr (fun m => prom_of pr m = Some p) -> sseg t cl tr p o [] fs ->
  newbot set_contract smid t cl tr fs.
Proof.
  intros t cl tr pr p o fs S P M.
  assert (D : sets t p o [] cl tr -> stable set_contract t cl tr RUnit).
  { intros H a l. eapply setter_post; [exact S|]. right. exists p. split; [fact|]. right. split; auto. fact. }
  destruct fs as [|f fs _] using rev_ind.
  - inversion M; subst; try (destruct x; discriminate). specialize (D H). now apply stable_post in D.
  - apply newbot_snoc. destruct (shield f) eqn:Sh; [|left; eapply m_set; eauto].
    right. assert (X : sets t p o [] cl tr).
    { remember (fs ++ [f]) as sg eqn:Eg. destruct M; try (destruct fs as [|? []]; inversion Eg; subst; discriminate Sh); auto.
      apply app_inj_tail in Eg as [_ <-]. destruct f0; try discriminate Sh; contradiction. }
    destruct f; try discriminate Sh; auto.
Qed.

Lemma smid_code : forall s t cl f inp h n, reachable s -> set_sel (cl_api cl) = true -> incall t cl (trace s) -> (exists cs, open_calls t (trace s) = cl :: cs) ->
  (exists rest, stk s t = f :: FApi (cl_api cl) :: rest) ->
  runs (code f) (hp s) t inp h n -> smid t cl (trace s) f [] ->
  newbot set_contract smid t (add_acts (new_acts t (hp s) h) cl) (tr_of h) (next_frames n).
Proof.
  intros s t cl f inp h n R S C Op (rest & ST) Ru M. pose proof (fun o => replay_prms o _ R) as Ep. pose proof (fun p => ready_iff s p R) as Er.
  remember [] as ab eqn:Eab. destruct M; subst.
  - code_cases Ru; stepinfo A; unfold newbot; cbn [next_frames]. destruct (h_prms (hp s) pr) as [p|] eqn:E; rewrite Ep in E; cbn [rev app].
    + left. eapply m_set with (pr := pr) (p := p); [exact H0|fact|apply s_set|reflexivity|reflexivity]. act.
    + right. left. split; auto. eapply setter_post; [exact H0|]. left. split; auto. split; [act|fact].
  - cbn [app] in *. pose proof (ts_code _ _ _ _ inp f [] Ru) as T.
    assert (Es : exists es, tr_of h = trace s ++ es) by (destruct (lstep_trace (hp s) t [f] h n) as (es & Et & _); [now eapply ls_code; eauto|eauto]).
    pose proof (sseg_step s t cl p o [] [f] [] h n _ R C ST Es H1 T) as X. rewrite app_nil_r in X.
    destruct Es as [es Es]. rewrite Es in *. eapply sseg_bot; [exact H|fact|exact X].
  - code_cases Ru; stepinfo A; unfold newbot; cbn [next_frames]. destruct (h_prms (hp s) pr) as [p|] eqn:E; rewrite Ep in E; cbn [rev app].
    + left. eapply m_dtor1; [act|exact H0|]. eapply do_now; eauto.
    + unfold set_contract. cbn [add_acts cl_api]. rewrite H0. split; auto. exists None. split; [eapply do_now; eauto|act].
  - code_cases Ru; stepinfo A; unfold newbot; destruct (fs_ready (h_fsts (hp s) p)) eqn:Q; cbn [next_frames]; cbn [rev app].
    + unfold set_contract. cbn [add_acts cl_api]. rewrite H0. split; auto. exists (Some p). split; [fact|]. left. split; [act|]. eapply st_now; [eassumption|]. now apply Er.
    + left. eapply m_dtor2; [exact H0|fact|]. apply s_set. act.
  - code_cases Ru; stepinfo A; unfold newbot; cbn [next_frames]; cbn [rev app].
    unfold set_contract. cbn [add_acts cl_api]. rewrite H. split; auto. exists (Some p). split; [fact|]. right. inversion H1; subst; [destruct x; discriminate|fact].
Qed.
Lemma smid_throw : forall s t cl f e inp h n, reachable s -> set_sel (cl_api cl) = true -> incall t cl (trace s) -> (exists cs, open_calls t (trace s) = cl :: cs) ->
  runs (catch f e) (hp s) t inp h n -> smid t cl (trace s) f [FThrow e] ->
  newbot set_contract smid t (add_acts (new_acts t (hp s) h) cl) (tr_of h) (next_frames n).
Proof.
  intros s t cl f e inp h n R S C Op Ru M. remember [FThrow e] as ab eqn:Eab. destruct M; try discriminate Eab; subst.
  - remember ([FThrow e] ++ [f]) as seg eqn:Eg. destruct H1; try discriminate Eg.
    + apply app_inj_tail in Eg as [_ <-]. destruct f0; try contradiction; destruct Ru.
    + subst x. unfold shielded in H2. cbn in H2. congruence.
  - destruct Ru as (x & A & _). discriminate A.
Qed.
Lemma smid_above : forall s t cl f above r h n, reachable s -> set_sel (cl_api cl) = true -> incall t cl (trace s) -> (exists cs, open_calls t (trace s) = cl :: cs) ->
  (exists rest, stk s t = above ++ f :: FApi (cl_api cl) :: rest) ->
  (exists es, tr_of h = trace s ++ es) ->
  top_step (hp s) t h n above r -> smid t cl (trace s) f above ->
  smid t (add_acts (new_acts t (hp s) h) cl) (tr_of h) f (next_frames n ++ r).
Proof.
  intros s t cl f above r h n R S C Op (rest & ST) Es T M. destruct M; try solve [inversion T].
  - subst seg. pose proof (top_snoc _ _ _ _ _ f _ T) as T1.
    assert (ST1 : stk s t = (ab ++ [f]) ++ FApi (cl_api cl) :: rest) by (rewrite <- app_assoc; exact ST).
    pose proof (sseg_step s t cl p o [] _ _ h n _ R C ST1 Es H1 T1) as X. destruct Es as [es Es]. rewrite Es in *.
    eapply m_set; [exact H|fact|exact X|now rewrite app_assoc|auto].
  - pose proof (sseg_step s t cl p _ _ _ _ h n _ R C ST Es H1 T) as X. destruct Es as [es Es]. rewrite Es in *. eapply m_dtor2; [exact H|fact|exact X].
Qed.
Theorem set_calls : forall s, reachable s ->
  each_return (fun t cl tr r => set_sel (cl_api cl) = true -> set_contract t cl tr r) (trace s).
Proof.
  apply res_rule with (mid := smid).
  - apply smid_start.
  - intros. now apply set_tr.
  - intros. now apply smid_tr.
  - apply smid_user.
  - apply smid_code.
  - apply smid_throw.
  - apply smid_above.
  - intros t cl tr r M. remember (FRes r) as f eqn:Ef. remember [] as ab. destruct M; try discriminate Ef. subst f ab. destruct H1; try discriminate H2.
    + apply (app_inj_tail x []) in H2 as [_ ->]. contradiction.
    + subst x. unfold shielded in H4. discriminate H4.
Qed.
