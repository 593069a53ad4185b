(** * ApiWhen: make_ready_future, when_all and when_any meet their contracts. *)
From Verif Require Import Types Core State Ops Code Machine Base Spec SpecApi SpecFire SpecWhen SpecWhenApi Rules Events InvCtx InvQueue InvStack
  Calls Contract ContractLib Replay ReplayObj ThmObj OwnProm ApiObj InvFire ApiSet InvWhen InvFill Adj InvThrow InvOnce.

Section Points.
Variables (t : tid) (cl : call) (tr : list event).
Let acts l := cl_acts cl = l.
(** The ready future the call has to make. *)
Definition rmake (o : outcome) : Prop :=
  match cl_api cl with
  | AMakeReady v => o = OVal v
  | AMakeExn n => o = OExn (XUser n)
  | AWhenAll [] => o = OVal (VFuts [])
  | AWhenAny _ [] => o = OVal (VAny None [])
  | _ => False
  end.
Definition iswhen (kd : wkind) (hs : list nat) : Prop :=
  match cl_api cl with
  | AWhenAll l => kd = KAll /\ l = hs
  | AWhenAny v l => kd = KAny v /\ l = hs
  | _ => False
  end.
Definition built (kd : wkind) (hs : list nat) (w : nat) (p : sid) (ins : list sid) : Prop :=
  iswhen kd hs /\ hs <> [] /\ begins cl [EvWhen t (is_all kd) w p ins] /\
  does cl tr (EvWhen t (is_all kd) w p ins) (fun m => map (fun n => snd (fut_of n m)) hs = map Some ins).
Definition hk (kd : wkind) (w : nat) (ins : list sid) (k : nat) : Prop :=
  forall i q, i < k -> nth_error ins i = Some q -> serves t (is_all kd) w i q cl.
Definition lkp (kd : wkind) (w k : nat) (c : lk) : Prop :=
  match c with LkWhen w' kd' _ idx _ => w' = w /\ kd' = kd /\ k = S idx | _ => False end.
(** The combinator has served the first [k] inputs. *)
Definition point (kd : wkind) (w n k : nat) (f : frame) : Prop :=
  match f with
  | FWId w' kd' _ | FWFillAll w' kd' _ _ _ => w' = w /\ kd' = kd /\ k = 0
  | FWEach w' kd' _ idx _ | FWThen w' kd' _ idx _ _ _ | FWPack w' kd' _ idx _ _ => w' = w /\ kd' = kd /\ k = idx
  | FWProc w' kd' _ idx _ => w' = w /\ kd' = kd /\ k = S idx
  | FInvoke _ _ c | FPush _ _ c | FDisp _ _ c | FLaunch _ _ _ c | FLaunch1 _ _ _ c | FFire1 _ _ c => lkp kd w k c
  | FWFin w' | FWFin1 w' | FWMark w' WaRet | FWUnl w' WaRet => w' = w /\ is_all kd = false /\ k = n
  | FWRet w' => w' = w /\ k = n
  | _ => False
  end.
(** No exception arrives at the block that sets the result. *)
Definition nothrow (f : frame) (ab : list frame) : Prop :=
  match f with FWMark _ _ => forall e, lasto None ab <> Some (FThrow e) | FWUnl _ _ => ab = [] | _ => True end.
Inductive wmid : frame -> list frame -> Prop :=
| w_mk : forall v o, acts [] -> rmake o -> wmid (FMkReady v o) []
| w_mk1 : forall p v o, acts [EvState t p v PuReady] -> rmake o -> wmid (FMkReady1 p o) []
| w_hnd : forall p v o seg, rmake o -> sseg t cl tr p o [EvState t p v PuReady] seg -> wmid (FHnd false (Some p)) seg
| w_start : forall kd hs, acts [] -> iswhen kd hs -> wmid (FWhen kd hs) []
| w_run : forall kd hs w p ins k f ab, built kd hs w p ins -> hk kd w ins k -> point kd w (length ins) k f -> nothrow f ab -> wmid f ab
| w_att : forall kd hs w p ins i idx par q r ab, built kd hs w p ins -> hk kd w ins idx -> In (EvState t q true (PuHook (is_all kd) w idx par)) (cl_acts cl) ->
    wmid (FWAtt w kd i idx par q r) ab.
End Points.
Definition when_sel (c : api) : bool := match c with AMakeReady _ | AMakeExn _ | AWhenAll _ | AWhenAny _ _ => true | _ => false end.

Lemma serves_mono : forall t all w i q cl a, serves t all w i q cl -> serves t all w i q (add_acts a cl).
Proof. intros t all w i q cl a (x & j & A & B). exists x, j. split; apply in_or_app; auto. Qed.
Lemma hk_mono : forall t cl kd w ins k a, hk t cl kd w ins k -> hk t (add_acts a cl) kd w ins k.
Proof. intros t cl kd w ins k a H i q L N. apply serves_mono. auto. Qed.
Lemma built_mono : forall t cl tr kd hs w p ins a l, built t cl tr kd hs w p ins -> built t (add_acts a cl) (tr ++ l) kd hs w p ins.
Proof. intros t cl tr kd hs w p ins a l (A & B & C & D). split; [exact A|]. split; [exact B|]. split; eauto with mono. Qed.
Lemma built_tr : forall t cl tr kd hs w p ins l, built t cl tr kd hs w p ins -> built t cl (tr ++ l) kd hs w p ins.
Proof. intros. rewrite <- (add_acts_nil cl). now apply built_mono. Qed.
Lemma wmid_tr : forall t cl tr l f ab, wmid t cl tr f ab -> wmid t cl (tr ++ l) f ab.
Proof.
  intros t cl tr l f ab M. destruct M.
  - now apply w_mk.
  - eapply w_mk1; eauto.
  - eapply w_hnd; eauto using sseg_tr.
  - now apply w_start.
  - eapply w_run; eauto using built_tr.
  - eapply w_att; eauto using built_tr.
Qed.
Lemma rf_tr : forall t o cl tr l r, ready_future t o cl tr r -> ready_future t o cl (tr ++ l) r.
Proof. intros t o cl tr l r (p & v & n & x & A & B & C). exists p, v, n, x. split; auto. split; auto. now apply sets_tr. Qed.
Lemma comb_mono' : forall t a hs cl tr l b r, combined t a hs cl tr r -> combined t a hs (add_acts b cl) (tr ++ l) r.
Proof.
  intros t a hs cl tr l b r (w & p & ins & A & B & C & n & D & E). exists w, p, ins. split; [eauto with mono|]. split; [eauto with mono|].
  split; [intros; now apply serves_mono, C|]. exists n. split; auto. eauto with mono.
Qed.
Lemma comb_tr : forall t a hs cl tr l r, combined t a hs cl tr r -> combined t a hs cl (tr ++ l) r.
Proof. intros. rewrite <- (add_acts_nil cl). now apply comb_mono'. Qed.
Lemma when_tr : forall t cl tr l r, when_contract t cl tr r -> when_contract t cl (tr ++ l) r.
Proof.
  intros t cl tr l r. unfold when_contract. destruct (cl_api cl); auto using rf_tr.
  - destruct hs; auto using rf_tr, comb_tr.
  - destruct hs; auto using rf_tr, comb_tr.
Qed.
Lemma wmid_start : forall t c pre, when_sel c = true -> newbot when_contract wmid t (mkCall c pre []) (pre ++ [EvCall t c]) (api_frames c).
Proof.
  intros t c pre S. destruct c; try discriminate S; unfold newbot; cbn [api_frames rev app]; left.
  - apply w_mk; reflexivity.
  - apply w_mk; reflexivity.
  - apply w_start; cbn; auto.
  - apply w_start; cbn; auto.
Qed.
Lemma wmid_user : forall t cl tr f ab, wmid t cl tr f ab -> match f with FUser _ _ => False | FThrow e => ab = [] -> when_contract t cl tr (RExn e) | _ => True end.
Proof. intros t cl tr f ab M. destruct M; auto. destruct f; auto; contradiction. Qed.
Lemma built_comb : forall s t cl kd hs w p ins, built t cl (trace s) kd hs w p ins -> comb (hp s) (is_all kd) w ins /\ In (EvWhen t (is_all kd) w p ins) (trace s).
Proof.
  intros s t cl kd hs w p ins (_ & _ & _ & _ & m & H & _). apply happens_in in H. split; auto. exists p, t. exact H.
Qed.
(** The result of a finished combinator. *)
Lemma built_post : forall t cl tr kd hs w p ins n, built t cl tr kd hs w p ins -> hk t cl kd w ins (length ins) ->
  In (EvHnd t n false (Some p)) (cl_acts cl) -> stable when_contract t cl tr (RHnd n).
Proof.
  intros t cl tr kd hs w p ins n (I & N & B & D) H J a l.
  assert (X : combined t (is_all kd) hs (add_acts a cl) (tr ++ l) (RHnd n)).
  { exists w, p, ins. split; [eauto with mono|]. split; [eauto with mono|]. split; [|exists n; split; auto; eauto with mono].
    intros i q E. apply serves_mono, H; auto. apply nth_error_Some. congruence. }
  unfold when_contract, iswhen in *. cbn [add_acts cl_api]. destruct (cl_api cl); try contradiction; destruct I as [-> ->]; destruct hs; try contradiction; auto.
Qed.
Lemma wmid_throw : forall s t cl f e inp h n, reachable s -> when_sel (cl_api cl) = true -> incall t cl (trace s) -> (exists cs, open_calls t (trace s) = cl :: cs) ->
  runs (catch f e) (hp s) t inp h n -> wmid t cl (trace s) f [FThrow e] ->
  newbot when_contract wmid t (add_acts (new_acts t (hp s) h) cl) (tr_of h) (next_frames n).
Proof.
  intros s t cl f e inp h n R S C Op Ru M. exfalso. remember [FThrow e] as ab eqn:Eab. destruct M; try discriminate Eab; subst; try destruct Ru; try contradiction.
  destruct f; try contradiction; cbn [nothrow lasto] in H2; [now apply (H2 e)|discriminate H2].
Qed.
(** What stands above the block. *)
Lemma nothrow_above : forall s t kd w n k f above r h nx rest ins, reachable s -> comb (hp s) (is_all kd) w ins -> point kd w n k f -> stk s t = above ++ f :: rest ->
  top_step (hp s) t h nx above r -> nothrow f above -> nothrow f (next_frames nx ++ r).
Proof.
  intros s t kd w n k f above r h nx rest ins R C P ST T N. destruct f; try exact Logic.I; cbn [nothrow] in *; [|subst above; inversion T].
  destruct a; [|contradiction P]. destruct P as (-> & K & _). rewrite K in C.
  assert (E : exists pre, above = pre ++ r /\ lstep (hp s) t pre h nx).
  { inversion T; subst; [exists [FUser u fin]|exists [FUser u fin]|exists [f]|exists [FThrow e; g]]; (split; [reflexivity|]).
    - apply ls_ret.
    - apply ls_throw.
    - now eapply ls_code; eauto.
    - now eapply ls_catch; eauto. }
  destruct E as (pre & -> & L). intros e. destruct r as [|r0 r].
  - rewrite app_nil_r in *. pose proof (adj_in _ _ _ _ _ _ (proj2 (once_reachable s R) t) ST) as B. cbn [block] in B. specialize (B (ex_intro _ ins C)).
    destruct (lasto None pre) as [x|] eqn:La; [|destruct L; discriminate La].
    pose proof (calm_next s t pre x _ h nx w R ST L La B (comb_lt _ _ _ _ R C)) as Cn. intros X. rewrite X in Cn. destruct Cn as [Y|[Y|Y]]; [contradiction Y|discriminate Y|contradiction Y].
  - intros X. apply (N e). rewrite lasto_app in *. cbn [lasto] in *. exact X.
Qed.
Lemma wmid_above : forall s t cl f above r h n, reachable s -> when_sel (cl_api cl) = true -> incall t cl (trace s) -> (exists cs, open_calls t (trace s) = cl :: cs) ->
  (exists rest, stk s t = above ++ f :: FApi (cl_api cl) :: rest) ->
  (exists es, tr_of h = trace s ++ es) ->
  top_step (hp s) t h n above r -> wmid t cl (trace s) f above ->
  wmid t (add_acts (new_acts t (hp s) h) cl) (tr_of h) f (next_frames n ++ r).
Proof.
  intros s t cl f above r h n R S C Op (rest & ST) Es T M. destruct M; try solve [inversion T].
  - pose proof (sseg_step s t cl p _ _ _ _ h n _ R C ST Es H0 T) as X. eapply w_hnd; [exact H|exact X].
  - destruct Es as [es ->]. eapply w_run; [apply built_mono; eassumption|apply hk_mono; eassumption|eassumption|].
    destruct (built_comb _ _ _ _ _ _ _ _ H) as [Cb _]. eapply nothrow_above; eauto.
  - destruct Es as [es ->]. eapply w_att; [apply built_mono; eassumption|apply hk_mono; eassumption|eauto with mono].
Qed.
Lemma run_bot : forall t cl tr kd hs w p ins k fs x f, fs = x ++ [f] -> built t cl tr kd hs w p ins -> hk t cl kd w ins k -> point kd w (length ins) k f -> nothrow f x -> newbot when_contract wmid t cl tr fs.
Proof. intros t cl tr kd hs w p ins k fs x f -> B H P N. apply newbot_snoc. left. eapply w_run; eauto. Qed.
Lemma hk_le : forall t cl kd w ins k, length ins <= k -> hk t cl kd w ins k -> hk t cl kd w ins (length ins).
Proof. intros t cl kd w ins k L H i q I N. apply H; auto. lia. Qed.
Lemma lresume_bot : forall kd w k c b o x, lkp kd w k c -> exists y f, x ++ lresume c b o = y ++ [f] /\ (forall n, point kd w n k f) /\ nothrow f y.
Proof.
  intros kd w k c b o x H. destruct c; try contradiction. cbn [lkp] in H. cbn [lresume].
  eexists (x ++ _), _. rewrite <- app_assoc. split; [reflexivity|]. split; [intros n; exact H|exact Logic.I].
Qed.
Lemma rmake_rf : forall t cl tr o r, rmake cl o -> ready_future t o cl tr r -> when_contract t cl tr r.
Proof.
  intros t cl tr o r M H. unfold rmake, when_contract in *. destruct (cl_api cl); try contradiction; try (subst; exact H).
  all: destruct hs; try contradiction; subst; exact H.
Qed.
Lemma all_some_eq : forall A (l : list (option A)) r, all_some l = Some r -> l = map Some r.
Proof.
  induction l as [|x l IH]; cbn; intros r H; [now injection H as <-|].
  destruct x; [|discriminate H]. destruct (all_some l); [|discriminate H]. injection H as <-. cbn. now rewrite <- (IH l0).
Qed.
Lemma wmid_code : forall s t cl f inp h n, reachable s -> when_sel (cl_api cl) = true -> incall t cl (trace s) -> (exists cs, open_calls t (trace s) = cl :: cs) ->
  (exists rest, stk s t = f :: FApi (cl_api cl) :: rest) ->
  runs (code f) (hp s) t inp h n -> wmid t cl (trace s) f [] ->
  newbot when_contract wmid t (add_acts (new_acts t (hp s) h) cl) (tr_of h) (next_frames n).
Proof.
  intros s t cl f inp h n R Sl C Op (rest & ST) Ru M.
  assert (Es : exists es, tr_of h = trace s ++ es) by (destruct (lstep_trace (hp s) t [f] h n) as (es & Et & _); [now eapply ls_code; eauto|eauto]).
  assert (F : fst_ (hp s) t f) by (pose proof (fst_reachable s R t) as F; rewrite ST in F; inversion F; auto).
  remember [] as ab eqn:Eab. destruct M; subst.
  - code_cases Ru; stepinfo A; unfold newbot; cbn [next_frames rev app]. left. eapply w_mk1; [act|exact H0].
  - code_cases Ru; stepinfo A; unfold newbot; cbn [next_frames rev app]. left. eapply w_hnd; [exact H0|]. apply s_set. cbn. rewrite H. reflexivity.
  - assert (Se : sets t p o [EvState t p v PuReady] cl (trace s)) by (inversion H0; subst; try (destruct x; discriminate); auto).
    code_cases Ru; stepinfo A; unfold newbot; cbn [next_frames rev app]. right. left. split; [reflexivity|].
    eapply rmake_rf; [exact H|]. exists p, v. eexists. exists (cl_acts cl). split; [reflexivity|]. split; [now apply sets_mono|reflexivity].
  - destruct hs as [|h0 hs].
    + assert (Rm : rmake cl (OVal (match kd with KAll => VFuts [] | KAny _ => VAny None [] end))).
      { unfold iswhen, rmake in *. destruct (cl_api cl); try contradiction; destruct H0 as [-> ->]; reflexivity. }
      destruct kd; code_cases Ru; stepinfo A; unfold newbot; cbn [next_frames rev app]; left; (apply w_mk; [act|exact Rm]).
    + pose proof (fun n => replay_hnds n s R) as Eh. destruct Ru as (x & A & ->). stepinfo A.
      match goal with E : all_some _ = Some _ |- _ => pose proof (all_some_eq _ _ _ E) as As end.
      unfold newbot; cbn [next_frames rev app]. left. eapply w_run with (k := 0); [|intros i q L; lia|cbn; auto|exact Logic.I].
      split; [exact H0|]. split; [discriminate|]. split; [apply bg_all; act|]. eapply do_now; eauto.
      rewrite <- As. apply map_ext. intros. now rewrite Eh.
  - assert (K : forall fs x f', fs = x ++ [f'] -> point kd w (length ins) k f' -> nothrow f' x -> newbot when_contract wmid t (add_acts (new_acts t (hp s) h) cl) (tr_of h) fs).
    { intros fs x f' -> P Nt. destruct Es as [es ->]. eapply run_bot; [reflexivity|apply built_mono; eassumption|apply hk_mono; eassumption|exact P|exact Nt]. }
    destruct f; try contradiction; cbn [point] in H1.
    all: try solve [code_cases Ru; cbn [next_frames];
      repeat match goal with |- context [if ?b then _ else _] => destruct b end;
      try (eapply (K _ []); [reflexivity|exact H1|first [exact Logic.I|reflexivity]]);
      match goal with |- newbot _ _ _ _ _ ?fs =>
        match fs with
        | lresume ?c ?b ?o => destruct (lresume_bot kd w k c b o [] H1) as (y & g & E & P & Nt)
        | ?x1 :: lresume ?c ?b ?o => destruct (lresume_bot kd w k c b o [x1] H1) as (y & g & E & P & Nt)
        | ?x1 ++ lresume ?c ?b ?o => destruct (lresume_bot kd w k c b o x1 H1) as (y & g & E & P & Nt)
        end; eapply K; [exact E|apply P|exact Nt] end].
    + (* FWEach *) destruct H1 as (-> & -> & ->). destruct (built_comb _ _ _ _ _ _ _ _ H) as [Cb _]. destruct F as (ins' & F1 & _ & F3). destruct (comb_one _ _ _ _ _ _ R Cb F1) as [_ <-].
      assert (En : r = WrH [] \/ r = WrT [] -> hk t cl kd w ins (length ins)).
      { intros X. apply hk_le with (k := idx); auto. destruct X; subst r.
        - destruct F3 as (F3 & rs & -> & F4). inversion F4; subst. rewrite app_nil_r. lia.
        - destruct F3 as [_ F3]. cbn in F3. symmetry in F3. apply (f_equal (@length _)) in F3. rewrite skipn_length in F3. cbn in F3. lia. }
      destruct r as [[|h0 hs0]|[|[u0 p0] l0]]; [| | |].
      all: try solve [code_cases Ru; eapply (K _ []); [reflexivity|cbn; auto|exact Logic.I]].
      all: destruct Es as [es Es]; destruct kd; code_cases Ru; rewrite Es; (eapply run_bot with (x := []) (k := length ins); [reflexivity|apply built_mono; exact H|apply hk_mono, En; auto|cbn; auto|exact Logic.I]).
    + (* FWPack *) destruct H1 as (-> & -> & ->). code_cases Ru; stepinfo A; unfold newbot; cbn [next_frames rev app]. left.
      eapply w_att; [apply built_mono; eassumption|apply hk_mono; eassumption|]. cbn. apply in_or_app. right. now left.
    + (* FWFin1 *) destruct H1 as (-> & X & ->). destruct Ru as (x & A & ->). cbn [next_frames]. destruct x as [[p0 v0]|]; [eapply (K _ [_])|eapply (K _ [])]; try reflexivity; cbn; auto. discriminate.
    + (* FWUnl *) destruct a; try contradiction. destruct H1 as (-> & X & ->). code_cases Ru. eapply (K _ []); [reflexivity|cbn; auto|exact Logic.I].
    + (* FWRet *) destruct H1 as (-> & ->). destruct (built_comb _ _ _ _ _ _ _ _ H) as [_ J]. apply (when_heap_reachable s R) in J as (_ & _ & Wp).
      code_cases Ru; stepinfo A. unfold newbot; cbn [next_frames rev app]. right. right. split; [reflexivity|].
      eapply built_post; [apply built_mono; exact H|apply hk_mono; exact H0|]. cbn. apply in_or_app. right. now left.
  - destruct F as [F1 (ins' & F2 & F3)]. destruct (built_comb _ _ _ _ _ _ _ _ H) as [Cb _]. destruct (comb_one _ _ _ _ _ _ R Cb F2) as [_ <-].
    assert (N : nth_error ins idx = Some par).
    { destruct F3 as [_ F3]. destruct r; [destruct F3 as (_ & rs & -> & _); rewrite nth_error_app1; auto; apply nth_error_Some; congruence|]. destruct F3 as [<- _]. exact F1. }
    destruct Ru as (x & A & ->). pose proof (step_trace _ _ _ _ _ _ _ A) as Et. pose proof (new_acts_op _ _ _ _ _ _ _ A) as Ea. cbn [op_event] in Et, Ea.
    unfold by_thread in Ea. cbn [actor] in Ea. rewrite Nat.eqb_refl in Ea. change (tr_of h = trace s ++ [EvAttach t par (mkCb i LOther (TPack q (wbody kd w idx par)))]) in Et. rewrite Ea, Et.
    assert (Hk : hk t (add_acts [EvAttach t par (mkCb i LOther (TPack q (wbody kd w idx par)))] cl) kd w ins (S idx)).
    { intros i0 q0 L0 N0. destruct (Nat.eq_dec i0 idx) as [-> |Ne].
      - rewrite N in N0. injection N0 as <-. exists q, i. split; apply in_or_app; [left; exact H1|right; left]. destruct kd; reflexivity.
      - apply serves_mono, H0; auto. lia. }
    cbn [next_frames]. destruct x; (eapply run_bot with (x := []) (k := S idx); [reflexivity|apply built_mono; exact H|exact Hk|cbn; auto|exact Logic.I]).
Qed.

Theorem when_calls : forall s, reachable s ->
  each_return (fun t cl tr r => when_sel (cl_api cl) = true -> when_contract t cl tr r) (trace s).
Proof.
  apply res_rule with (mid := wmid).
  - intros. now apply wmid_start.
  - intros. now apply when_tr.
  - intros. now apply wmid_tr.
  - apply wmid_user.
  - apply wmid_code.
  - apply wmid_throw.
  - apply wmid_above.
  - intros t cl tr r M. remember (FRes r) as f eqn:Ef. destruct M; try discriminate Ef. subst f. contradiction.
Qed.
Theorem when_returns : forall s, reachable s -> each_return when_contract (trace s).
Proof.
  intros s R a e b E. pose proof (when_calls s R a e b E) as H. destruct e; auto. destruct H as (cl & cs & H1 & H2 & H3). exists cl, cs. split; auto. split; auto.
  destruct (when_sel (cl_api cl)) eqn:Sl; [now apply H3|]. unfold when_contract. destruct (cl_api cl); auto; discriminate Sl.
Qed.
