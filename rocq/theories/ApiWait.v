(** * ApiWait: the processing and waiting calls keep their contracts. *)
From Verif Require Import Types Core State Ops Code Machine Base Spec SpecApi SpecWait Rules Events InvCtx InvQueue InvStack InvAff InvTop InvSleep
  Calls Contract ContractLib Replay ReplayObj Calm.

Definition wait_sel (c : api) : bool :=
  match c with
  | AProcess | AProcessFor _ | AWait | AWaitFor _ | AWaitUntil _ | ASleepFor _ | ASleepUntil _ => true
  | _ => false
  end.

(** ** The clock *)
Lemma clock_mono : forall s, reachable s -> forall a b, trace s = a ++ b -> (clock a <= clock (trace s))%Z.
Proof.
  apply (reachable_ind'' (fun s => forall a b, trace s = a ++ b -> (clock a <= clock (trace s))%Z)).
  - intros a b E. destruct a; [|discriminate E]. apply Z.le_refl.
  - intros s s' R R' IH U Tr a b E.
    assert (X : trace s' = trace s \/ exists e, trace s' = trace s ++ [e] /\ (0 <= match e with EvTick d => d | _ => 0 end)%Z).
    { destruct Tr as [d|t pre rest u E' L|t pre rest h n E' L]; [|now left|].
      - right. exists (EvTick (Zpos d)). split; [reflexivity|lia].
      - unfold trace. cbn [hp]. apply lstep_hstep in L. destruct L as [e Ok|T o inp h1 x Ok A].
        + right. exists e. split; [reflexivity|]. destruct e; cbn in Ok; try contradiction; lia.
        + apply step_trace in A as X. unfold tr_of in X. destruct (op_event (hp s) t o x) eqn:Oe; [|left; now rewrite app_nil_r in X].
          right. exists e. split; [exact X|]. destruct e; try lia. exfalso. clear - Oe Ok. 
          destruct o; cbn in Oe; try discriminate Oe; repeat match type of Oe with context [match ?x with _ => _ end] => destruct x end; try discriminate Oe.
          injection Oe as Oe. specialize (Ok t). now rewrite Oe in Ok. }
    destruct X as [X|(e & X & Z)]; rewrite X in *; [eauto|].
    destruct b as [|y b _] using rev_ind.
    + rewrite app_nil_r in E. subst a. apply Z.le_refl.
    + rewrite app_assoc in E. apply app_inj_tail in E as [E _]. rewrite clock_snoc'. specialize (IH _ _ E). lia.
Qed.
Lemma clock_call : forall s t cl, reachable s -> incall t cl (trace s) -> (clock (cl_pre cl) <= clock (trace s))%Z.
Proof. intros s t cl R [a E]. eapply clock_mono; eauto. Qed.

(** ** Program points *)
(** The requested duration, and what is left of it after truncation. *)
Definition dur_ok (cl : call) (tr : list event) (d : Z) : Prop :=
  match cl_api cl with
  | AWaitFor d' => d = d'
  | AWaitUntil z => exists m, moment cl tr m /\ d = (z - clock m)%Z
  | _ => False
  end.
Definition us_ok (cl : call) (tr : list event) (us : option Z) (k : wk) : Prop :=
  match us with
  | None => cl_api cl = AWait /\ k = WApi
  | Some u => k = WApiFor /\ exists d, dur_ok cl tr d /\ u = (1000 * (d / 1000))%Z
  end.
Definition until (cl : call) (e : Z) : Prop :=
  match cl_api cl with
  | ASleepFor d => (clock (cl_pre cl) + d <= e)%Z
  | ASleepUntil z => (z <= e)%Z
  | _ => False
  end.
Definition lim_of (c : api) : option Z := match c with AProcessFor d => Some d | _ => None end.
Definition pf_ok (cl : call) (e : Z) : Prop :=
  match cl_api cl with AProcessFor d => (clock (cl_pre cl) + 1000 * Z.quot d 1000 <= e)%Z | _ => False end.

(** The bottom frame on its own; [l] lists the scheduling events so far. *)
Inductive alone (t : tid) (cl : call) (tr : list event) : frame -> list event -> Prop :=
| al_wuntil : forall z, cl_api cl = AWaitUntil z -> alone t cl tr (FWaitUntil z) []
| al_wfor : forall d, dur_ok cl tr d -> alone t cl tr (FWaitFor d WApiFor) []
| al_wait : forall us k, us_ok cl tr us k -> alone t cl tr (FWait us k) []
| al_wait1 : forall c us k, us_ok cl tr us k -> alone t cl tr (FWait1 c us k) []
| al_slept : forall c us n k, us_ok cl tr us k -> (clock (cl_pre cl) <= n)%Z ->
    alone t cl tr (FSleep c (option_map (fun d => (n + d)%Z) us) k) [EvSleep t c]
| al_res : forall d c k l, dur_ok cl tr d -> (l = ran t c [k] \/ l = EvSleep t c :: ran t c [k]) -> alone t cl tr (FRes (RCv false)) l
| al_process : cl_api cl = AProcess -> alone t cl tr FProcess []
| al_proc : forall c ks, cl_api cl = AProcess -> sometime cl tr (fun m => attached t m = Some c) -> alone t cl tr (FProc c) (ran t c ks)
| al_pfor : forall d, cl_api cl = AProcessFor d -> alone t cl tr (FProcessFor d) []
| al_pf0 : forall d c, cl_api cl = AProcessFor d -> sometime cl tr (fun m => attached t m = Some c) -> alone t cl tr (FPf0 c d) []
| al_pf : forall c ks n e, pf_ok cl e -> sometime cl tr (fun m => attached t m = Some c) -> at_end t cl tr (fun m => n = clock m) -> alone t cl tr (FPf c n e) (ran t c ks)
| al_pfnow : forall c ks e, pf_ok cl e -> sometime cl tr (fun m => attached t m = Some c) -> alone t cl tr (FPfNow c e) (ran t c ks)
| al_suntil : forall z, cl_api cl = ASleepUntil z -> alone t cl tr (FSleepUntil z) []
| al_sfor0 : forall d, cl_api cl = ASleepFor d -> alone t cl tr (FSleepFor d) []
| al_sfor : forall d z, cl_api cl = ASleepUntil z -> at_end t cl tr (fun m => d = (z - clock m)%Z) -> alone t cl tr (FSleepFor d) []
| al_sl : forall n e l, until cl e -> at_end t cl tr (fun m => n = clock m) -> alone t cl tr (FSl n e) l
| al_slnow : forall e l, until cl e -> alone t cl tr (FSlNow e) l
| al_swfor : forall d e l, until cl e -> alone t cl tr (FWaitFor d (WSleepFor e)) l
| al_swait : forall us e l, until cl e -> alone t cl tr (FWait us (WSleepFor e)) l
| al_swait1 : forall c us e l, until cl e -> alone t cl tr (FWait1 c us (WSleepFor e)) l
| al_sslept : forall c dl e l, until cl e -> alone t cl tr (FSleep c dl (WSleepFor e)) l.

(** Bottom frames below a running task. *)
Definition cont (f : frame) : bool := match f with FRes _ | FProc _ | FPfNow _ _ | FSlNow _ => true | _ => false end.
(** What precedes a task in the call. *)
Definition before (t : tid) (cl : call) (c : id) (l : list event) (tr : list event) : Prop :=
  match cl_api cl with
  | AWait | AWaitFor _ | AWaitUntil _ => l = [] \/ l = [EvSleep t c]
  | AProcess | AProcessFor _ => (exists ks, l = ran t c ks) /\ sometime cl tr (fun m => attached t m = Some c)
  | _ => True
  end.
Inductive wmid (t : tid) (cl : call) (tr : list event) : frame -> list frame -> Prop :=
| w_alone : forall f, alone t cl tr f (scheds cl) -> wmid t cl tr f []
| w_run : forall f x c k l, cont f = true -> scheds cl = l ++ [EvStart t c k] -> before t cl c l tr ->
    alone t cl tr f (l ++ ran t c [k]) -> calms x = true -> wmid t cl tr f (x ++ [FPoEnd c])
| w_thrown : forall f e c k l, cont f = true -> scheds cl = l ++ [EvStart t c k; EvAbort t c] -> before t cl c l tr ->
    wmid t cl tr f [FThrow e]
| w_last : forall c k x l, cl_api cl = AWait -> scheds cl = l ++ [EvStart t c k] -> before t cl c l tr -> calms x = true ->
    wmid t cl tr (FPoEnd c) x.

(** ** The history may grow *)
Lemma dur_tr : forall cl tr l d, dur_ok cl tr d -> dur_ok cl (tr ++ l) d.
Proof. intros cl tr l d. unfold dur_ok. destruct (cl_api cl); auto. intros (m & M & E). exists m. split; auto. now apply moment_app. Qed.
Lemma us_tr : forall cl tr l us k, us_ok cl tr us k -> us_ok cl (tr ++ l) us k.
Proof. intros cl tr l [u|] k; unfold us_ok; auto. intros (E & d & D & X). split; auto. exists d. split; auto. now apply dur_tr. Qed.
Lemma before_tr : forall t cl c k tr l, before t cl c k tr -> before t cl c k (tr ++ l).
Proof. intros t cl c k tr l. unfold before. destruct (cl_api cl); auto; intros [A B]; split; auto with mono. Qed.
#[local] Hint Resolve dur_tr us_tr before_tr : mono.
Lemma alone_tr : forall t cl tr l f k, alone t cl tr f k -> alone t cl (tr ++ l) f k.
Proof.
  intros t cl tr l f k H. destruct H; try (econstructor; eauto with mono; fail).
Qed.
Lemma wmid_tr : forall t cl tr l f ab, wmid t cl tr f ab -> wmid t cl (tr ++ l) f ab.
Proof.
  intros t cl tr l f ab H. destruct H.
  - apply w_alone. now apply alone_tr.
  - eapply w_run; eauto with mono. now apply alone_tr.
  - eapply w_thrown; eauto with mono.
  - eapply w_last; eauto with mono.
Qed.
Lemma process_tr : forall t lim cl tr l r, process_spec t lim cl tr r -> process_spec t lim cl (tr ++ l) r.
Proof.
  intros t lim cl tr l r [(A & B & C)|(c & ks & S & H)]; [left; auto with mono|right]. exists c, ks. split; auto with mono.
  destruct H as [(A & B & C)|H]; [left|right]; auto with mono.
Qed.
Lemma wait_tr : forall t lim cl tr l r, wait_spec t lim cl tr r -> wait_spec t lim cl (tr ++ l) r.
Proof.
  intros t lim cl tr l r [(A & B & C)|[H|[(c & lt & A & B & C)|H]]].
  - left. split; auto. split; auto. destruct C as [C|[C|[c C]]]; auto with mono. right. right. exists c. auto with mono.
  - right. left. auto.
  - right. right. left. exists c, lt. auto with mono.
  - right. right. right. auto.
Qed.
Lemma sleep_tr : forall t z cl tr l r, sleep_spec t z cl tr r -> sleep_spec t z cl (tr ++ l) r.
Proof. intros t z cl tr l r [(A & B)|H]; [left|right]; auto with mono. Qed.
Lemma wait_contract_tr : forall t cl tr l r, wait_contract t cl tr r -> wait_contract t cl (tr ++ l) r.
Proof.
  intros t cl tr l r H. unfold wait_contract in *. destruct (cl_api cl); auto using process_tr, wait_tr, sleep_tr.
  destruct H as (m & M & H). exists m. split; [now apply moment_app|]. now apply wait_tr.
Qed.

(** ** Results *)
Lemma wait_post : forall t cl tr us k r, us_ok cl tr us k ->
  (forall lim, (us = None <-> lim = None) -> (forall d, lim = Some d -> dur_ok cl tr d /\ us = Some (1000 * (d / 1000))%Z) -> wait_spec t lim cl tr r) ->
  wait_contract t cl tr r.
Proof.
  intros t cl tr [u|] k r U H; cbn in U; unfold wait_contract.
  - destruct U as (-> & d & D & ->). unfold dur_ok in D.
    assert (W : wait_spec t (Some d) cl tr r) by (apply H; [split; discriminate|intros d' X; injection X as <-; auto]).
    destruct (cl_api cl); try contradiction.
    + now subst.
    + destruct D as (m & M & ->). eauto.
  - destruct U as [U ->]. rewrite U. apply H; [tauto|discriminate].
Qed.
Lemma dur_post : forall t cl tr d r, dur_ok cl tr d -> wait_spec t (Some d) cl tr r -> wait_contract t cl tr r.
Proof.
  intros t cl tr d r D H. unfold dur_ok in D. unfold wait_contract. destruct (cl_api cl); try contradiction.
  - now subst.
  - destruct D as (m & M & ->). eauto.
Qed.
Lemma until_post : forall t cl tr e r, until cl e ->
  (r = RUnit /\ at_end t cl tr (fun m => (e <= clock m)%Z \/ exit_seen t m)) \/
  (exists e c k l, r = RExn e /\ scheds cl = l ++ [EvStart t c k; EvAbort t c]) -> wait_contract t cl tr r.
Proof.
  intros t cl tr e r U H. unfold until in U. unfold wait_contract. destruct (cl_api cl); try contradiction;
    (destruct H as [(A & B)|H]; [left; split; auto; eapply ae_imp; [|exact B]; cbn; intros m [X|X]; auto; left; lia|right; auto]).
Qed.
Lemma thrown_post : forall t cl tr e c k l, wait_sel (cl_api cl) = true -> (forall z, cl_api cl = AWaitUntil z -> exists m, moment cl tr m) ->
  scheds cl = l ++ [EvStart t c k; EvAbort t c] -> before t cl c l tr -> wait_contract t cl tr (RExn e).
Proof.
  intros t cl tr e c k l S Mo E B. unfold before in B. unfold wait_contract.
  assert (W : forall lim, l = [] \/ l = [EvSleep t c] -> wait_spec t lim cl tr (RExn e)).
  { intros lim X. right. right. right. exists e, c, k, l. auto. }
  assert (P : forall lim, (exists ks, l = ran t c ks) /\ sometime cl tr (fun m => attached t m = Some c) -> process_spec t lim cl tr (RExn e)).
  { intros lim [[ks ->] X]. right. exists c, ks. split; auto. right. eauto. }
  destruct (cl_api cl); try discriminate S; auto.
  - destruct (Mo z eq_refl) as [m M]. eauto.
  - right. exists e, c, k, l. auto.
  - right. exists e, c, k, l. auto.
Qed.

Lemma wmid_start : forall t c pre, wait_sel c = true -> newbot wait_contract wmid t (mkCall c pre []) (pre ++ [EvCall t c]) (api_frames c).
Proof.
  intros t c pre S. destruct c; try discriminate S; unfold newbot; cbn [api_frames rev app]; left; apply w_alone; cbn [scheds cl_acts filter].
  - now apply al_process.
  - now apply al_pfor.
  - apply al_wait. cbn. auto.
  - apply al_wfor. reflexivity.
  - now apply al_wuntil.
  - now apply al_sfor0.
  - now apply al_suntil.
Qed.
Lemma wmid_user : forall t cl tr f above, wmid t cl tr f above -> match f with FUser _ _ | FThrow _ => False | _ => True end.
Proof.
  intros t cl tr f above M. destruct M as [f A|f x c k l C _ _ _ _|f e c k l C _ _|]; auto.
  - destruct A; exact I.
  - destruct f; auto; discriminate C.
  - destruct f; auto; discriminate C.
Qed.
Lemma wmid_res : forall t cl tr r, wmid t cl tr (FRes r) [] -> wait_contract t cl tr r.
Proof.
  intros t cl tr r M. remember [] as ab eqn:Eab. remember (FRes r) as f eqn:Ef. destruct M; try discriminate Ef; subst; try discriminate Eab; try (now apply app_eq_nil in Eab).
  inversion H as [| | | | |d c k l D X| | | | | | | | | | | | | | |]; subst. eapply dur_post; eauto. right. left. split; [reflexivity|]. exists c, k. exact X.
Qed.

(** ** Steps *)
Definition mono_acts (a : list event) (cl : call) : Prop := filter sched a = [] -> scheds (add_acts a cl) = scheds cl.
Lemma scheds_add : forall a cl, scheds (add_acts a cl) = scheds cl ++ filter sched a.
Proof. intros. unfold scheds. cbn. apply filter_app. Qed.
Lemma alone_acts : forall t cl tr a l f k, cont f = true -> alone t cl tr f k -> alone t (add_acts a cl) (tr ++ l) f k.
Proof.
  intros t cl tr a l f k C H. apply (alone_tr _ (add_acts a cl) tr). destruct H; try discriminate C.
  - eapply al_res; eauto.
  - now apply al_proc.
  - now apply al_pfnow.
  - now apply al_slnow.
Qed.

Ltac wnow := eapply ae_now; [eassumption|eassumption|].
Lemma wmid_throw : forall s t cl f e inp h n, reachable s -> wait_sel (cl_api cl) = true -> incall t cl (trace s) -> (exists cs, open_calls t (trace s) = cl :: cs) ->
  runs (catch f e) (hp s) t inp h n -> wmid t cl (trace s) f [FThrow e] ->
  newbot wait_contract wmid t (add_acts (new_acts t (hp s) h) cl) (tr_of h) (next_frames n).
Proof.
  intros s t cl f e inp h n R S C Op Ru M. remember [FThrow e] as ab eqn:Eab. destruct M as [f A|f x c k l Cf E B A X|f e' c k l Cf E B|c k x l Ap E B X]; try discriminate Eab.
  - destruct x as [|g [|g' x]]; discriminate Eab.
  - injection Eab as ->. destruct f; try discriminate Cf; cbn [catch] in Ru; code_cases Ru; stepinfo A; unfold newbot; cbn [next_frames rev app];
      (right; left; split; [reflexivity|]; rewrite add_acts_nil; eapply thrown_post; eauto with mono; intros; eexists; eapply moment_app, moment_now; eauto).
  - subst x. cbn [catch] in Ru. code_cases Ru. stepinfo A. unfold newbot. cbn [next_frames rev app].
    right. left. split; [reflexivity|]. eapply (thrown_post t (add_acts [EvAbort t c] cl) _ e c k l); eauto.
    + cbn. congruence.
    + rewrite scheds_add, E, <- app_assoc. reflexivity.
    + apply before_tr. exact B.
Qed.

Lemma wmid_above : forall s t cl f above r h n, reachable s -> wait_sel (cl_api cl) = true -> incall t cl (trace s) -> (exists cs, open_calls t (trace s) = cl :: cs) ->
  (exists rest, stk s t = above ++ f :: FApi (cl_api cl) :: rest) ->
  (exists es, tr_of h = trace s ++ es) ->
  top_step (hp s) t h n above r -> wmid t cl (trace s) f above ->
  wmid t (add_acts (new_acts t (hp s) h) cl) (tr_of h) f (next_frames n ++ r).
Proof.
  intros s t cl f above r h n R S C Op ST (es & Et) T M. destruct M as [f A|f x c k l Cf E B A X|f e' c k l Cf E B|c k x l Ap E B X].
  - inversion T.
  - destruct x as [|g x].
    + cbn [app] in T. inversion T as [v u fin r1 Eh En Y|e u fin r1 Eh En Y|inp f1 r1 Ru Y|inp e g r1 Ru Y]; subst.
      code_cases Ru. stepinfo A0. cbn [next_frames app]. apply w_alone.
      rewrite scheds_add, E, <- app_assoc. cbn [filter sched app]. apply alone_acts; auto.
    + destruct (top_calm _ _ _ _ (g :: x) [FPoEnd c] r T X) as [(x' & -> & T')|(e & g' & bot & inp & Ex & Eb & -> & Ru)]; [discriminate|..].
      * destruct (calm_top _ _ _ _ _ _ T' X) as [C1 C2]. rewrite app_assoc. rewrite Et.
        eapply w_run; eauto.
        -- rewrite scheds_add, C2, app_nil_r. exact E.
        -- apply before_tr. exact B.
        -- now apply alone_acts.
      * injection Eb as <- <-. cbn [catch] in Ru. code_cases Ru. stepinfo A0. cbn [next_frames app].
        eapply w_thrown; eauto.
        -- rewrite scheds_add, E, <- app_assoc. reflexivity.
        -- apply before_tr. exact B.
  - inversion T; subst. now match goal with H : runs (code (FThrow _)) _ _ _ _ _ |- _ => cbn in H end.
  - destruct x as [|g x]; [inversion T|].
    destruct (calm_top _ _ _ _ _ _ T X) as [C1 C2]. rewrite Et. eapply w_last; eauto.
    + rewrite scheds_add, C2, app_nil_r. exact E.
    + apply before_tr. exact B.
Qed.

(** ** Reading a context *)
Section Reads.
Variable s : st.
Hypothesis R : reachable s.
Lemma rd_idle : forall i, ctx_pending (h_ctxs (hp s) i) = [] -> idle i (trace s).
Proof. intros i E. destruct (q_inv_reachable s R i) as (A & _). unfold idle. change (trace s) with (tr_of (hp s)). now rewrite A, E, app_nil_r. Qed.
Lemma rd_proc : forall t c inp h r, atom (hp s) t (OProc c) inp = AOk h r ->
  match r with WTask _ => True | _ => unattached t (trace s) \/ exit_requested c (trace s) \/ idle c (trace s) end.
Proof.
  intros t c inp h r A. cbn [atom] in A. op_unfold A. brki A; try discriminate A; injection A as _ <-; auto.
  - right. left. now apply (rd_exit s R).
  - right. right. apply rd_idle. match goal with H : take_task _ = (None, _) |- _ => now apply take_none in H end.
  - left. unfold unattached. now rewrite <- (rd_loc s R).
Qed.
Lemma rd_take : forall t c inp h r, atom (hp s) t (OTakeSleep c) inp = AOk h r ->
  match r with
  | WTask _ => True
  | WExit => unattached t (trace s) \/ attached t (trace s) = Some c /\ idle c (trace s) /\ exit_requested c (trace s)
  | WSlept n => n = clock (trace s)
  end.
Proof.
  intros t c inp h r A. cbn [atom] in A. op_unfold A. brki A; try discriminate A; injection A as _ <-; auto.
  - right. match goal with H : take_task _ = (None, _) |- _ => apply take_none in H as [-> P] end.
    rewrite <- (rd_loc s R). split; [|split; [now apply rd_idle|now apply (rd_exit s R)]].
    match goal with H : (_ =? _) = true |- _ => apply Nat.eqb_eq in H; now subst end.
  - apply (replay_clock s R).
  - left. unfold unattached. now rewrite <- (rd_loc s R).
Qed.
Lemma rd_wake : forall t c dl inp h late x k r, stk s t = FSleep c dl k :: r -> atom (hp s) t (OWake c dl) inp = AOk h (late, x) ->
  match x with
  | Some _ => late = true -> False
  | None => idle c (trace s) /\ if late then exists e, dl = Some e /\ (e <= clock (trace s))%Z else exit_requested c (trace s)
  end.
Proof.
  intros t c dl inp h late x k r E A. destruct (sleep_woken s R t _ _ E) as (Lc & W1 & W2).
  cbn [atom] in A. op_unfold A. rewrite Lc, Nat.eqb_refl in A.
  destruct (alive (hp s) c); [|discriminate A].
  set (b := match dl with Some d => (d <=? h_now (hp s))%Z | None => false end) in A.
  destruct (cx_wakeup (h_ctxs (hp s) c) && (cx_sig (h_ctxs (hp s) c) || negb (inp =? 0)) || b) eqn:Cond; [|discriminate A].
  destruct (take_task (clear_wakeup (h_ctxs (hp s) c))) as [[k'|] c'] eqn:Tk; injection A as _ <- <-.
  - intros X. apply negb_true_iff in X. apply take_some in Tk as (P & _).
    rewrite X in W2. destruct W2 as [_ W2]. assert (Y : false = true); [|discriminate Y]. apply W2. left.
    intros Z. unfold ctx_pending in *. cbn in P. rewrite Z in P. discriminate P.
  - apply take_none in Tk as [-> P].
    assert (P' : ctx_pending (h_ctxs (hp s) c) = []) by exact P. split; [now apply rd_idle|].
    destruct (cx_wakeup (h_ctxs (hp s) c)) eqn:Wk; cbn [negb].
    + destruct W2 as [W2 _]. destruct (W2 eq_refl) as [Y|Y]; [now elim Y|now apply (rd_exit s R)].
    + cbn [andb orb] in Cond. subst b. destruct dl as [e|]; [|discriminate Cond]. exists e. split; auto.
      rewrite <- (replay_clock s R). now apply Z.leb_le.
Qed.
End Reads.

(** ** One step of the bottom frame *)
Lemma bot_alone : forall t cl tr f, alone t cl tr f (scheds cl) -> newbot wait_contract wmid t cl tr [f].
Proof. intros. unfold newbot. cbn. left. now apply w_alone. Qed.
Lemma bot_res : forall t cl tr r, wait_contract t cl tr r -> newbot wait_contract wmid t cl tr [FRes r].
Proof. intros. unfold newbot. cbn. right. left. auto. Qed.
Lemma bot_run : forall t cl tr c k g l, cont g = true -> scheds cl = l ++ [EvStart t c k] -> before t cl c l tr ->
  alone t cl tr g (l ++ ran t c [k]) -> newbot wait_contract wmid t cl tr (run_one c k ++ [g]).
Proof. intros. unfold newbot. cbn. left. apply (w_run t cl tr g [FRun k; FDrop k] c k l); auto. Qed.
Lemma bot_last : forall t cl tr c k l, cl_api cl = AWait -> scheds cl = l ++ [EvStart t c k] -> before t cl c l tr ->
  newbot wait_contract wmid t cl tr (run_one c k).
Proof. intros. unfold newbot. cbn. left. eapply w_last; eauto. Qed.
Lemma bot_wait : forall t cl tr us k b, us_ok cl tr us k ->
  (forall lim, (us = None <-> lim = None) -> (forall d, lim = Some d -> dur_ok cl tr d /\ us = Some (1000 * (d / 1000))%Z) -> wait_spec t lim cl tr (wait_res lim b)) ->
  newbot wait_contract wmid t cl tr (wresume k b).
Proof.
  intros t cl tr us k b U H. assert (K : k = match us with None => WApi | Some _ => WApiFor end) by (destruct us; cbn in U; tauto).
  subst k. destruct us as [u|].
  - apply bot_res. eapply wait_post; eauto. intros lim A B. specialize (H lim A B). destruct lim; auto. destruct A as [_ A]. discriminate (A eq_refl).
  - eapply wait_post; eauto. intros lim A B. specialize (H lim A B). destruct lim; auto. destruct A as [A _]. discriminate (A eq_refl).
Qed.
Lemma bot_task : forall t cl tr us k c tk l, us_ok cl tr us k -> (l = [] \/ l = [EvSleep t c]) -> scheds cl = l ++ [EvStart t c tk] ->
  newbot wait_contract wmid t cl tr (run_one c tk ++ wresume k false).
Proof.
  intros t cl tr us k c tk l U L E.
  assert (B : before t cl c l tr).
  { unfold before. destruct us; cbn in U; [destruct U as (_ & d & D & _); unfold dur_ok in D; destruct (cl_api cl); auto; contradiction|].
    destruct U as [-> _]. auto. }
  destruct us as [u|]; cbn in U.
  - destruct U as (-> & d & D & _). cbn [wresume]. eapply bot_run; eauto. eapply al_res; eauto.
    destruct L as [->| ->]; [left|right]; reflexivity.
  - destruct U as (Ap & ->). cbn [wresume]. rewrite app_nil_r. eapply bot_last; eauto.
Qed.
Lemma us_acts : forall cl tr us k a, us_ok cl tr us k -> us_ok (add_acts a cl) tr us k.
Proof. intros cl tr us k a H. exact H. Qed.
Lemma st_acts : forall cl tr a P, sometime cl tr P -> sometime (add_acts a cl) tr P.
Proof. intros cl tr a P H. apply (st_mono _ _ [] a) in H. now rewrite app_nil_r in H. Qed.
Lemma ran_snoc : forall t c ks k, ran t c ks ++ ran t c [k] = ran t c (ks ++ [k]).
Proof. intros. unfold ran. now rewrite flat_map_app. Qed.

Ltac opinfo A :=
  let Et := fresh "Et" in let Ea := fresh "Ea" in
  pose proof (step_trace _ _ _ _ _ _ _ A) as Et; pose proof (new_acts_op _ _ _ _ _ _ _ A) as Ea; cbn [op_event] in Et, Ea;
  match type of Et with tr_of ?h = tr_of (hp ?s) ++ ?l => change (tr_of h = trace s ++ l) in Et end.
(** A step without an event, and with one. *)
Ltac quiet_ :=
  cbn [next_frames fst snd] in *;
  match goal with Ea : new_acts _ _ _ = [], Et : tr_of _ = _ ++ [] |- _ => rewrite Ea, add_acts_nil, Et, app_nil_r end.
Ltac noisy :=
  cbn [next_frames fst snd] in *;
  match goal with Ea : new_acts _ _ _ = _, Et : tr_of _ = _ ++ _ |- _ =>
    unfold by_thread in Ea; cbn [actor] in Ea; rewrite Nat.eqb_refl in Ea; rewrite Ea, Et end.
Ltac now_ := match goal with Op : exists cs, open_calls _ ?tr = ?cl :: cs |- at_end _ ?cl ?tr _ =>
  let cs := fresh "cs" in let O := fresh in destruct Op as [cs O]; exists tr, cs; split; [eapply moment_now; eassumption|split; [exact O|]] end.

Lemma wmid_code : forall s t cl f inp h n, reachable s -> wait_sel (cl_api cl) = true -> incall t cl (trace s) -> (exists cs, open_calls t (trace s) = cl :: cs) ->
  (exists rest, stk s t = f :: FApi (cl_api cl) :: rest) ->
  runs (code f) (hp s) t inp h n -> wmid t cl (trace s) f [] ->
  newbot wait_contract wmid t (add_acts (new_acts t (hp s) h) cl) (tr_of h) (next_frames n).
Proof.
  intros s t cl f inp h n R S C Op [rest ST] Ru M. remember [] as ab eqn:Eab.
  destruct M as [f A|f x c k l Cf E B A X|f e' c k l Cf E B|c k x l Ap E B X]; try discriminate Eab; [|now destruct x|].
  2:{ subst x. code_cases Ru. stepinfo A. cbn [next_frames]. unfold newbot. cbn [rev].
      unfold wait_contract. cbn [add_acts cl_api]. rewrite Ap. right. left. split; [reflexivity|]. exists c, k.
      fold (add_acts [EvDone t c] cl). rewrite scheds_add, E, <- app_assoc. unfold before in B. rewrite Ap in B.
      destruct B as [->| ->]; [left|right]; reflexivity. }
  remember (scheds cl) as sc eqn:Sc.
  assert (Cl := clock_call s t cl R C).
  destruct A as [z Ap|d D|us k U|c us k U|c us n' k U Ln|d c k l D X|Ap|c ks Ap At|d Ap|d c Ap At|c ks n' e P At En|c ks e P At
    |z Ap|d Ap|d z Ap En|n' e l U En|e l U|d e l U|us e l U|c us e l U|c dl e l U].
  - (* FWaitUntil *) code_cases Ru. stepinfo A. cbn [next_frames]. rewrite add_acts_nil, app_nil_r. apply bot_alone. rewrite <- Sc.
    apply al_wfor. unfold dur_ok. rewrite Ap. exists (trace s). split; [eapply moment_now; eauto|]. now rewrite (replay_clock s R).
  - (* FWaitFor *) code_cases Ru; stepinfo A; cbn [next_frames]; rewrite add_acts_nil, app_nil_r.
    + cbn [wresume]. apply bot_res. eapply dur_post; eauto. left. split; [reflexivity|]. split; [congruence|]. left. exists d. split; auto. now apply Z.leb_le.
    + apply bot_alone. rewrite <- Sc. apply al_wait. cbn. eauto.
  - (* FWait *) code_cases Ru. opinfo A. cbn [atom] in A. injection A as _ <-. quiet_.
    destruct (h_loc (hp s) t) as [c|] eqn:Lo.
    + apply bot_alone. rewrite <- Sc. now apply al_wait1.
    + eapply bot_wait; eauto. intros lim A B. left. split; [reflexivity|]. split; [congruence|]. right. left.
      now_. unfold unattached. now rewrite <- (rd_loc s R).
  - (* FWait1 *) code_cases Ru. opinfo A. pose proof (rd_take s R _ _ _ _ _ A) as X. destruct x as [tk| |n'].
    + noisy. eapply (bot_task _ _ _ us k c tk []); eauto; [apply us_acts; now apply us_tr|]. rewrite scheds_add, <- Sc. reflexivity.
    + quiet_. eapply bot_wait; eauto. intros lim A1 B1. left. split; [reflexivity|]. split; [congruence|]. right.
      destruct X as [X|X]; [left|right; exists c]; now_; auto.
    + noisy. apply bot_alone. rewrite scheds_add, <- Sc. cbn [filter sched app]. subst n'. apply al_slept; auto. apply us_acts. now apply us_tr.
  - (* FSleep *) code_cases Ru. opinfo A. destruct x as [late x]. pose proof (rd_wake s R _ _ _ _ _ _ _ _ _ ST A) as X. cbn [fst snd] in *.
    destruct x as [tk|].
    + destruct late; [now elim X|]. noisy. eapply (bot_task _ _ _ us k c tk [EvSleep t c]); eauto; [apply us_acts; now apply us_tr|].
      rewrite scheds_add, <- Sc. reflexivity.
    + quiet_. cbn [app]. eapply bot_wait; eauto. intros lim A1 B1. right. right. left. exists c, late. split; [reflexivity|]. split; [congruence|].
      now_. destruct X as [Id X]. split; auto. destruct late; auto. destruct X as (e & Ee & Le).
      destruct lim as [d|]; [|destruct A1 as [_ A1]; rewrite (A1 eq_refl) in Ee; discriminate Ee].
      exists d. split; auto. destruct (B1 d eq_refl) as [_ ->]. assert (Ee' : e = (n' + 1000 * (d / 1000))%Z) by (cbn [option_map] in Ee; congruence). lia.
  - (* FRes *) contradiction.
  - (* FProcess *) code_cases Ru. opinfo A. cbn [atom] in A. injection A as _ <-. quiet_.
    pose proof (rd_loc s R t) as Lt. destruct (h_loc (hp s) t) as [c|].
    + apply bot_alone. rewrite <- Sc. apply (al_proc _ _ _ c []); auto. exists (trace s). split; auto. eapply moment_now; eauto.
    + unfold newbot. cbn. unfold wait_contract. rewrite Ap. left. split; auto. split; auto. now_. now symmetry.
  - (* FProc *) code_cases Ru. opinfo A. pose proof (rd_proc s R _ _ _ _ _ A) as X.
    assert (Y : forall lim, match x with WTask _ => True | _ => process_spec t lim cl (trace s) RUnit end).
    { intros lim. destruct x; auto; (right; exists c, ks; split; auto; left; split; auto; split; auto; now_; intuition). }
    destruct x as [tk| |n'].
    + noisy. eapply (bot_run _ _ _ c tk _ (ran t c ks)); eauto.
      * now rewrite scheds_add, <- Sc.
      * unfold before. cbn [add_acts cl_api]. rewrite Ap. split; eauto with mono.
      * rewrite ran_snoc. apply al_proc; eauto with mono.
    + quiet_. unfold newbot. cbn. unfold wait_contract. rewrite Ap. apply Y.
    + quiet_. unfold newbot. cbn. unfold wait_contract. rewrite Ap. apply Y.
  - (* FProcessFor *) code_cases Ru. opinfo A. cbn [atom] in A. injection A as _ <-. quiet_.
    pose proof (rd_loc s R t) as Lt. destruct (h_loc (hp s) t) as [c|].
    + apply bot_alone. rewrite <- Sc. apply al_pf0; auto. exists (trace s). split; auto. eapply moment_now; eauto.
    + unfold newbot. cbn. unfold wait_contract. rewrite Ap. left. split; auto. split; auto. now_. now symmetry.
  - (* FPf0 *) code_cases Ru. opinfo A. cbn [atom] in A. injection A as _ <-. quiet_. rewrite (replay_clock s R). apply bot_alone. rewrite <- Sc.
    apply (al_pf _ _ _ c []); auto; [|now now_]. unfold pf_ok. rewrite Ap. lia.
  - (* FPf *) unfold pf_ok in P. destruct (cl_api cl) eqn:Ap; try contradiction. code_cases Ru; opinfo A.
    + pose proof (rd_proc s R _ _ _ _ _ A) as X.
      assert (Y : forall lim, match x with WTask _ => True | _ => process_spec t lim cl (trace s) RUnit end).
      { intros lim. destruct x; auto; (right; exists c, ks; split; auto; left; split; auto; split; auto; now_; intuition). }
      destruct x as [tk| |n''].
      * noisy. eapply (bot_run _ _ _ c tk _ (ran t c ks)); eauto.
        -- now rewrite scheds_add, <- Sc.
        -- unfold before. cbn [add_acts cl_api]. rewrite Ap. split; eauto with mono.
        -- rewrite ran_snoc. apply al_pfnow; eauto with mono. unfold pf_ok. cbn [add_acts cl_api cl_pre]. now rewrite Ap.
      * quiet_. unfold newbot. cbn. unfold wait_contract. rewrite Ap. apply Y.
      * quiet_. unfold newbot. cbn. unfold wait_contract. rewrite Ap. apply Y.
    + cbn [atom] in A. injection A as _ <-. quiet_. unfold newbot. cbn. unfold wait_contract. rewrite Ap. right. exists c, ks. split; auto. left. split; auto. split; auto.
      eapply ae_imp; [|exact En]. cbv beta; intros m ->. right. right. right. apply Z.ltb_ge in Heqb. lia.
  - (* FPfNow *) code_cases Ru. opinfo A. cbn [atom] in A. injection A as _ <-. quiet_. rewrite (replay_clock s R). apply bot_alone. rewrite <- Sc.
    apply al_pf; auto. now now_.
  - (* FSleepUntil *) code_cases Ru. opinfo A. cbn [atom] in A. injection A as _ <-. quiet_. rewrite (replay_clock s R). apply bot_alone. rewrite <- Sc.
    apply (al_sfor _ _ _ _ z); auto. now now_.
  - (* FSleepFor *) code_cases Ru; opinfo A; cbn [atom] in A; injection A as _ <-; quiet_.
    + unfold newbot. cbn. unfold wait_contract. rewrite Ap. left. split; auto. now_. left. apply Z.leb_le in Heqb. lia.
    + apply bot_alone. rewrite (replay_clock s R). apply al_sl; [|now now_]. unfold until. rewrite Ap. lia.
  - code_cases Ru; opinfo A; cbn [atom] in A; injection A as _ <-; quiet_.
    + unfold newbot. cbn. unfold wait_contract. rewrite Ap. left. split; auto. eapply ae_imp; [|exact En]. cbn. intros m ->. left. apply Z.leb_le in Heqb. lia.
    + apply bot_alone. rewrite (replay_clock s R). apply al_sl; [|now now_]. unfold until. rewrite Ap.
      destruct En as (m & cs & (a & b & -> & Eb) & _ & ->). pose proof (clock_mono s R _ _ Eb). lia.
  - (* FSl *) code_cases Ru; opinfo A.
    + pose proof (rd_loc s R t) as Lt. cbn [atom] in A. assert (X : x = true -> exit_seen t (trace s)).
      { intros ->. unfold exit_seen. rewrite <- Lt. brki A; try discriminate A; auto. injection A as _ X. now apply (rd_exit s R). }
      quiet_. destruct x.
      * unfold newbot. cbn. eapply until_post; eauto. left. split; auto. now_. auto.
      * apply bot_alone. now apply al_swfor.
    + cbn [atom] in A. injection A as _ <-. quiet_. unfold newbot. cbn. eapply until_post; eauto. left. split; auto.
      eapply ae_imp; [|exact En]. cbn. intros m ->. left. now apply Z.ltb_ge in Heqb.
  - (* FSlNow *) code_cases Ru. opinfo A. cbn [atom] in A. injection A as _ <-. quiet_. rewrite (replay_clock s R). apply bot_alone.
    apply al_sl; auto. now now_.
  - (* FWaitFor *) code_cases Ru; opinfo A; cbn [atom] in A; injection A as _ <-; quiet_; apply bot_alone; [now apply al_slnow|now apply al_swait].
  - code_cases Ru; opinfo A; cbn [atom] in A; injection A as _ <-; quiet_. destruct (h_loc (hp s) t) as [c|]; apply bot_alone; [now apply al_swait1|now apply al_slnow].
  - code_cases Ru; opinfo A. destruct x as [tk| |n'].
    + noisy. eapply (bot_run _ _ _ c tk _ (scheds cl)); eauto.
      * now rewrite scheds_add.
      * unfold before, until in *. cbn [add_acts cl_api]. destruct (cl_api cl); try contradiction; auto.
      * now apply al_slnow.
    + quiet_. apply bot_alone. now apply al_slnow.
    + noisy. apply bot_alone. now apply al_sslept.
  - code_cases Ru; opinfo A. destruct x as [late [tk|]]; cbn [fst snd] in *.
    + noisy. eapply (bot_run _ _ _ c tk _ (scheds cl)); eauto.
      * now rewrite scheds_add.
      * unfold before, until in *. cbn [add_acts cl_api]. destruct (cl_api cl); try contradiction; auto.
      * now apply al_slnow.
    + quiet_. apply bot_alone. now apply al_slnow.
Qed.

Theorem wait_contracts : forall s, reachable s ->
  each_return (fun t cl tr r => wait_sel (cl_api cl) = true -> wait_contract t cl tr r) (trace s).
Proof.
  apply (res_rule wait_sel wait_contract wmid).
  - apply wmid_start.
  - intros. now apply wait_contract_tr.
  - intros. now apply wmid_tr.
  - apply no_throw. apply wmid_user.
  - apply wmid_code.
  - apply wmid_throw.
  - apply wmid_above.
  - apply wmid_res.
Qed.
