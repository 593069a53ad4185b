(** * ApiReg: the registry and queue calls of thread.h meet their contracts. *)
From Verif Require Import Types Core State Ops Code Machine Base Spec SpecApi Rules Events InvCtx InvQueue InvStack Calls Contract Replay ReplayObj ContractLib.

Section Points.
Variables (t : tid) (cl : call) (tr : list event).
Let is c := cl_api cl = c.
Let acts l := cl_acts cl = l.
Definition inited : Prop := does cl tr (EvInit t 1) (fun m => init_level m = 0%Z).
Definition ending : Prop := does cl tr (EvInit t 0) (fun m => init_level m = 1%Z).
Definition told_all (l : list id) : Prop :=
  exists l0 l1, l0 = l1 ++ l /\ sometime cl tr (fun m => l0 = reg_ids m) /\ forall i, In i l1 -> told t cl tr i.
Definition noself (i : id) : Prop := sometime cl tr (fun m => my_id t m <> i).
Definition self (i : id) : Prop := sometime cl tr (fun m => my_id t m = i).
Definition lost (i : id) : Prop := i = invalid_id \/ sometime cl tr (unknown i).
Definition ran (u : nat) (x : res) : list event := [EvUser t u None None; EvUserEnd t u None x].
(** the calls that queue a closure for another thread *)
Definition queues (i : id) (k : task) (c : lk) : Prop :=
  match cl_api cl with
  | AInvoke j u caps => j = i /\ k = TUser u caps /\ c = LkUser
  | ADispatch j u caps => j = i /\ k = TUser u caps /\ c = LkUser /\ noself i
  | ANotify j => j = i /\ k = TNop /\ c = LkDisc /\ noself i
  | ASetConfig j => j = i /\ k = TConfig /\ c = LkUser /\ noself i
  | _ => False
  end.

(** The program points of these calls, with what is known there. *)
Inductive rmid : frame -> list frame -> Prop :=
| m_init : is AInit -> acts [] -> rmid FInit []
| m_init2a : is AInit -> inited -> acts [EvInit t 1] -> rmid FInit2 [FRegSelf]
| m_init2b : forall i f, is AInit -> inited -> acts [EvInit t 1; EvReg t t i f] -> rmid FInit2 [FSetLoc i]
| m_init2 : forall i f ab, is AInit -> inited -> begins cl [EvInit t 1; EvReg t t i f; EvLoc t (Some i)] -> shielded ab -> rmid FInit2 ab
| m_init3 : forall i f j, is AInit -> inited -> begins cl [EvInit t 1; EvReg t t i f; EvLoc t (Some i)] ->
    sometime cl tr (fun m' => j = my_id t m') -> rmid (FInit3 j) []
| m_shut : forall d, is (AShutdown d) -> acts [] -> rmid (FShut d) []
| m_shut1 : forall d, is (AShutdown d) -> acts [] -> rmid (FShut1 d) []
| m_shut2a : forall d, is (AShutdown d) -> ending -> acts [EvInit t 0] -> rmid (FShut2 d) [FUnreg]
| m_shut2b : forall d i, is (AShutdown d) -> ending -> acts [EvInit t 0] -> sometime cl tr (fun m => i = my_id t m) -> rmid (FShut2 d) [FUnreg1 i]
| m_shut2c : forall d i ab, is (AShutdown d) -> ending -> sometime cl tr (fun m => i = my_id t m) ->
    begins cl [EvInit t 0; EvUnreg t i] -> shielded ab -> rmid (FShut2 d) (ab ++ [FClearLoc])
| m_shut2d : forall d i, is (AShutdown d) -> ending -> sometime cl tr (fun m => i = my_id t m) ->
    acts [EvInit t 0] -> sometime cl tr (unknown i) -> rmid (FShut2 d) [FClearLoc]
| m_shut2 : forall d, is (AShutdown d) -> ending -> unreg_spec t cl tr [EvInit t 0] -> rmid (FShut2 d) []
| m_shut3 : forall d l ab, is (AShutdown d) -> ending -> unreg_spec t cl tr [EvInit t 0] -> told_all l -> shielded ab -> rmid (FShut3 l d) ab
| m_shut3a : forall d i l, is (AShutdown d) -> ending -> unreg_spec t cl tr [EvInit t 0] -> told_all (i :: l) -> rmid (FShut3 l d) [FNExit i]
| m_shut3b : forall d i l, is (AShutdown d) -> ending -> unreg_spec t cl tr [EvInit t 0] -> told_all (i :: l) -> rmid (FShut3 l d) [FNExit1 i]
| m_shut4 : forall d dl m0, is (AShutdown d) -> ending -> unreg_spec t cl tr [EvInit t 0] -> told_all [] ->
    moment cl tr m0 -> dl = (clock m0 + d)%Z -> rmid (FShut4 dl) []
| m_regself : is ARegThis -> acts [] -> rmid FRegSelf []
| m_setloc : forall i f, is ARegThis -> acts [EvReg t t i f] -> rmid (FSetLoc i) []
| m_reg : forall n, is (ARegThread n) -> acts [] -> rmid (FReg n) []
| m_unreg : is AUnregThis -> acts [] -> rmid FUnreg []
| m_unreg1 : forall i, is AUnregThis -> acts [] -> sometime cl tr (fun m => i = my_id t m) -> rmid (FUnreg1 i) []
| m_clear : forall i ab, is AUnregThis -> sometime cl tr (fun m => i = my_id t m) ->
    begins cl [EvUnreg t i] -> shielded ab -> rmid FClearLoc ab
| m_clear0 : forall i, is AUnregThis -> sometime cl tr (fun m => i = my_id t m) ->
    acts [] -> sometime cl tr (unknown i) -> rmid FClearLoc []
| m_nexit : forall i, is (ANotifyExit i) -> acts [] -> rmid (FNExit i) []
| m_nexit1 : forall i, is (ANotifyExit i) -> sometime cl tr (known i) -> acts [] -> rmid (FNExit1 i) []
| m_invoke : forall i k c, queues i k c -> acts [] -> rmid (FInvoke i k c) []
| m_push : forall i k c, queues i k c -> i <> invalid_id -> sometime cl tr (known i) -> acts [] -> rmid (FPush i k c) []
| m_refused : forall i k, queues i k LkUser -> lost i -> acts [] -> rmid (FRes (RBool false)) [FDestroy [DTask k]]
| m_refused1 : forall i k ab, queues i k LkUser -> lost i -> begins cl [EvDrop t k] -> no_caps k = false -> shielded ab -> rmid (FRes (RBool false)) ab
| m_refused2 : forall i k ab, queues i k LkUser -> lost i -> acts [EvDrop t k] -> (ab = [FDestroy []] \/ ab = []) -> rmid (FRes (RBool false)) ab
| m_nrefused : forall i, is (ANotify i) -> noself i -> lost i -> acts [] -> rmid (FDestroy [DTask TNop]) []
| m_nrefused1 : forall i, is (ANotify i) -> noself i -> lost i -> acts [EvDrop t TNop] -> rmid (FDestroy []) []
| m_disp : forall i u caps, is (ADispatch i u caps) -> acts [] -> rmid (FDisp i (TUser u caps) LkUser) []
| m_drun : forall i u caps, is (ADispatch i u caps) -> self i -> acts [] -> rmid (FRes (RBool true)) [FRun (TUser u caps); FDrop (TUser u caps)]
| m_dstart : forall i u caps, is (ADispatch i u caps) -> self i -> acts [] -> rmid (FRes (RBool true)) [FUStart u None UPlain; FDrop (TUser u caps)]
| m_duser : forall i u caps, is (ADispatch i u caps) -> self i -> acts [EvUser t u None None] -> rmid (FRes (RBool true)) [FUser u UPlain; FDrop (TUser u caps)]
| m_dran : forall i u caps v, is (ADispatch i u caps) -> self i -> acts (ran u (RVal v)) -> rmid (FRes (RBool true)) [FDrop (TUser u caps)]
| m_ddrop : forall i u caps v, is (ADispatch i u caps) -> self i -> acts (ran u (RVal v)) -> rmid (FRes (RBool true)) [FDestroy [DTask (TUser u caps)]]
| m_ddone : forall i u caps v ab, is (ADispatch i u caps) -> self i -> begins cl (ran u (RVal v) ++ [EvDrop t (TUser u caps)]) -> caps <> [] -> shielded ab ->
    rmid (FRes (RBool true)) ab
| m_ddone1 : forall i u v ab, is (ADispatch i u []) -> self i -> acts (ran u (RVal v) ++ [EvDrop t (TUser u [])]) -> (ab = [FDestroy []] \/ ab = []) ->
    rmid (FRes (RBool true)) ab
| m_dthrow : forall i u caps e, is (ADispatch i u caps) -> self i -> acts (ran u (RExn e)) -> rmid (FRes (RBool true)) [FThrow e; FDrop (TUser u caps)]
| m_dtdrop : forall i u caps e, is (ADispatch i u caps) -> self i -> acts (ran u (RExn e)) -> rmid (FRes (RBool true)) [FDestroy [DTask (TUser u caps)]; FThrow e]
| m_dtdone : forall i u caps e ab, is (ADispatch i u caps) -> self i -> begins cl (ran u (RExn e) ++ [EvDrop t (TUser u caps)]) -> caps <> [] -> shielded ab ->
    rmid (FRes (RBool true)) (ab ++ [FThrow e])
| m_dtdone1 : forall i u e ab, is (ADispatch i u []) -> self i -> acts (ran u (RExn e) ++ [EvDrop t (TUser u [])]) -> (ab = [FDestroy []; FThrow e] \/ ab = [FThrow e]) ->
    rmid (FRes (RBool true)) ab
| m_notify : forall i, is (ANotify i) -> acts [] -> rmid (FDisp i TNop LkDisc) []
| m_ndrop : forall i ab, is (ANotify i) -> acts [] -> self i -> (ab = [] \/ ab = [FRun TNop]) -> rmid (FDrop TNop) ab
| m_ndrop1 : forall i, is (ANotify i) -> acts [] -> self i -> rmid (FDestroy [DTask TNop]) []
| m_ndrop2 : forall i, is (ANotify i) -> acts [EvDrop t TNop] -> self i -> rmid (FDestroy []) []
| m_config : forall i, is (ASetConfig i) -> acts [] -> rmid (FDisp i TConfig LkUser) []
| m_cdrop : forall i ab, is (ASetConfig i) -> acts [] -> self i -> (ab = [FRun TConfig; FDrop TConfig] \/ ab = [FDrop TConfig] \/ ab = [FDestroy [DTask TConfig]]) ->
    rmid (FRes (RBool true)) ab
| m_cdone : forall i ab, is (ASetConfig i) -> acts [EvDrop t TConfig] -> self i -> (ab = [FDestroy []] \/ ab = []) -> rmid (FRes (RBool true)) ab
| m_count : forall i, is (ACount i) -> acts [] -> rmid (FCount i) []
| m_count1 : forall i, is (ACount i) -> sometime cl tr (known i) -> rmid (FCount1 i) []
| m_query : forall f, In (f, cl_api cl) [(FGetAll, AGetAll); (FMainId, AMainId); (FMyId, AMyId); (FDepth, ADepth); (FIsReg, AIsReg); (FExitQ, AExitQ)] ->
    acts [] -> rmid f [].
End Points.
#[global] Hint Unfold inited ending noself self lost : mono.

Definition reg_sel (c : api) : bool :=
  match c with
  | AInit | AShutdown _ | ARegThis | ARegThread _ | AUnregThis | ANotifyExit _ | AInvoke _ _ _ | ADispatch _ _ _ | ANotify _
  | ASetConfig _ | ACount _ | AGetAll | AMainId | AMyId | ADepth | AIsReg | AExitQ => true
  | _ => false
  end.

Lemma told_mono : forall t cl tr a l i, told t cl tr i -> told t (add_acts a cl) (tr ++ l) i.
Proof. unfold told. intros t cl tr a l i [H|H]; eauto with mono. Qed.
Lemma told_all_mono : forall t cl tr a l x, told_all t cl tr x -> told_all t (add_acts a cl) (tr ++ l) x.
Proof.
  intros t cl tr a l x (l0 & l1 & E & S & H). exists l0, l1. split; auto. split; [eauto with mono|].
  intros i Hi. now apply told_mono, H.
Qed.
Lemma unreg_mono : forall t cl tr a l x, unreg_spec t cl tr x -> unreg_spec t (add_acts a cl) (tr ++ l) x.
Proof.
  intros t cl tr a l x (i & S & H). exists i. split; [eauto with mono|].
  destruct H as [[A B]|[A B]]; [left|right]; eauto with mono.
Qed.
Lemma tr0 : forall (P : call -> list event -> Prop), (forall cl tr a l, P cl tr -> P (add_acts a cl) (tr ++ l)) ->
  forall cl tr l, P cl tr -> P cl (tr ++ l).
Proof. intros P H cl tr l X. apply (H _ _ [] l) in X. now rewrite add_acts_nil in X. Qed.
Lemma told_all_tr : forall t cl tr l x, told_all t cl tr x -> told_all t cl (tr ++ l) x.
Proof. intros t cl tr l x. apply (tr0 (fun cl tr => told_all t cl tr x)). intros; now apply told_all_mono. Qed.
Lemma told_tr : forall t cl tr l x, told t cl tr x -> told t cl (tr ++ l) x.
Proof. intros t cl tr l x. apply (tr0 (fun cl tr => told t cl tr x)). intros; now apply told_mono. Qed.
Lemma unreg_tr : forall t cl tr l x, unreg_spec t cl tr x -> unreg_spec t cl (tr ++ l) x.
Proof. intros t cl tr l x. apply (tr0 (fun cl tr => unreg_spec t cl tr x)). intros; now apply unreg_mono. Qed.
Lemma queues_mono : forall t cl tr a l i k c, queues t cl tr i k c -> queues t (add_acts a cl) (tr ++ l) i k c.
Proof. unfold queues. intros t cl tr a l i k c. cbn [add_acts cl_api]. destruct (cl_api cl); auto; intuition eauto with mono. Qed.
Lemma queues_tr : forall t cl tr l i k c, queues t cl tr i k c -> queues t cl (tr ++ l) i k c.
Proof. intros t cl tr l i k c. apply (tr0 (fun cl tr => queues t cl tr i k c)). intros; now apply queues_mono. Qed.
Lemma lost_mono : forall cl tr a l i, lost cl tr i -> lost (add_acts a cl) (tr ++ l) i.
Proof. unfold lost. intros cl tr a l i [H|H]; eauto with mono. Qed.
Lemma lost_tr : forall cl tr l i, lost cl tr i -> lost cl (tr ++ l) i.
Proof. unfold lost. intros cl tr l i [H|H]; eauto with mono. Qed.
#[global] Hint Resolve told_mono told_all_mono unreg_mono told_tr told_all_tr unreg_tr queues_mono queues_tr lost_mono lost_tr : mono.

Lemma reg_contract_tr : forall t cl tr l r, reg_contract t cl tr r -> reg_contract t cl (tr ++ l) r.
Proof.
  intros t cl tr l r. unfold reg_contract. destruct (cl_api cl) eqn:Ec; auto.
  - intros [H (z & D)]. split; auto. exists z. destruct D as (D & m & Hm & E & A & B). split; auto. exists m. split; [now apply happens_app|].
    split; auto. split; auto. intros Z. destruct (B Z) as (x & f & j & H1 & H2). exists x, f, j. split; auto.
    eapply do_imp; [|apply do_tr; exact H2]. intros m' S. eauto with mono.
  - unfold shutdown_spec. intros [H|[H|H]]; [left|right; left|right; right].
    + intuition eauto with mono.
    + destruct H as (H & z & H2). split; auto. exists z. intuition eauto with mono.
    + destruct H as (H1 & H2 & (x & H3 & H4) & H5). split; [eauto with mono|]. split; [eauto with mono|]. split; [exists x; split; [eauto with mono|]; intros; eauto with mono|].
      destruct H5 as [H5|(n & m0 & H5)]; [left|right]; [intuition eauto with mono|]. exists n, m0. intuition eauto with mono.
  - intuition eauto with mono.
  - unfold invoke_spec. intuition eauto with mono.
  - unfold dispatch_spec, invoke_spec. intros [[H1 (x & H2)]|H]; [left|right]; [split; [eauto with mono|eauto]|]. intuition eauto with mono.
  - intros [H1 [H|[H (b & H2)]]]; split; auto; [left|right]; [intuition eauto with mono|]. split; [eauto with mono|]. exists b.
    unfold invoke_spec in *. intuition eauto with mono.
  - unfold nexit_spec. intuition eauto with mono.
  - unfold invoke_spec. intuition eauto with mono.
  - intuition eauto with mono.
  - intros (z & H1 & H). exists z. split; auto. intuition eauto with mono.
  - intuition eauto with mono.
  - intuition eauto with mono.
  - intuition eauto with mono.
  - intuition eauto with mono.
  - intuition eauto with mono.
Qed.

Lemma rmid_tr : forall t cl tr l f ab, rmid t cl tr f ab -> rmid t cl (tr ++ l) f ab.
Proof. intros t cl tr l f ab M. destruct M; try (econstructor; eauto with mono; fail). Qed.

Lemma rmid_start : forall t c pre, reg_sel c = true -> newbot reg_contract rmid t (mkCall c pre []) (pre ++ [EvCall t c]) (api_frames c).
Proof.
  intros t c pre S. destruct c; try discriminate S; unfold newbot; cbn [api_frames rev app]; left;
    try (econstructor; cbn; auto; fail).
  all: try (eapply m_query; cbn; tauto).
  all: try (eapply m_invoke; cbn; auto; fail).
Qed.

Lemma rmid_user : forall t cl tr f above, rmid t cl tr f above -> match f with FUser _ _ | FThrow _ => False | _ => True end.
Proof.
  intros t cl tr f above M. destruct M; auto.
  repeat match goal with H : In _ _ |- _ => destruct H as [H|H] end; try contradiction; match goal with H : (_, _) = _ |- _ => injection H as <- _ end; auto.
Qed.

Lemma rmid_throw : forall s t cl f e inp h n, reachable s -> reg_sel (cl_api cl) = true -> incall t cl (trace s) -> (exists cs, open_calls t (trace s) = cl :: cs) ->
  runs (catch f e) (hp s) t inp h n -> rmid t cl (trace s) f [FThrow e] ->
  newbot reg_contract rmid t (add_acts (new_acts t (hp s) h) cl) (tr_of h) (next_frames n).
Proof.
  intros s t cl f e inp h n R S C Op Ru M. remember [FThrow e] as ab eqn:Eab. destruct M; try discriminate Eab; subst.
  all: try (match goal with H : shielded [FThrow _] |- _ => cbn in H; discriminate H end).
  all: try (destruct H2 as [?|[?|?]]; discriminate).
  all: try (destruct H2 as [?|?]; discriminate).
  all: cbn [catch] in Ru; code_cases Ru.
  all: stepinfo A; unfold newbot; cbn [next_frames rev app].
  - destruct ab as [|x [|y ab]]; cbn in Eab; [|discriminate Eab|discriminate Eab]. injection Eab as <-.
    rewrite add_acts_nil, app_nil_r. right. left. split; auto. unfold reg_contract. rewrite H. left. split; [exact H0|].
    exists (RExn e0). split; [split; [exact H1|destruct caps; [congruence|discriminate]]|]. right. eauto.
  - assert (e0 = e) as -> by (destruct H2 as [X|X]; [discriminate X|congruence]).
    rewrite add_acts_nil, app_nil_r. right. left. split; auto. unfold reg_contract. rewrite H. left. split; [exact H0|].
    exists (RExn e). split; [split; [now apply bg_all|auto]|]. right. eauto.
Qed.

Ltac post := unfold reg_contract; cbn [add_acts cl_api]; match goal with H : cl_api _ = _ |- _ => rewrite H end.
Ltac rok := right; left; split; [reflexivity|]; post.
Ltac rst := right; right; split; [reflexivity|]; let a := fresh "a" in let l := fresh "l" in intros a l; rewrite ?add_acts_app, <- ?app_assoc; post.
Ltac rsh := right; split; [reflexivity|]; let a := fresh "a" in let l := fresh "l" in intros a l; rewrite ?add_acts_app, <- ?app_assoc; post.
Ltac bga := eexists; cbn [add_acts cl_acts]; match goal with H : cl_acts _ = _ |- _ => rewrite H end; cbn; reflexivity.
Ltac now_ := eapply st_now; [eassumption|].
Ltac nowe := rewrite add_acts_nil; eapply ae_now; [eassumption|eassumption|].

Lemma refused_ok : forall t cl tr i k c, queues t cl tr i k c -> lost cl tr i -> cl_acts cl = [] ->
  newbot reg_contract rmid t cl tr (lresume c false (Some k)).
Proof.
  intros t cl tr i k c Q Lo A. assert (X : c = LkUser \/ (c = LkDisc /\ cl_api cl = ANotify i /\ k = TNop /\ noself t cl tr i)).
  { unfold queues in Q. destruct (cl_api cl); try contradiction; intuition subst; auto. }
  destruct X as [->|(-> & Ap & -> & Ns)]; unfold newbot; cbn [lresume destroy map rev app]; left.
  - now apply m_refused with (i := i).
  - now apply m_nrefused with (i := i).
Qed.
Lemma queues_sel : forall t cl tr i k c, queues t cl tr i k c -> forall a l b, i <> invalid_id \/ b = false ->
  (b = true -> sometime (add_acts a cl) (tr ++ l) (known i) /\ begins (add_acts a cl) [EvAccept t i k]) ->
  (b = false -> lost (add_acts a cl) (tr ++ l) i /\ drops k (add_acts a cl) [EvDrop t k]) ->
  reg_contract t (add_acts a cl) (tr ++ l) (match c with LkDisc => RUnit | _ => RBool b end).
Proof.
  intros t cl tr i k c Q a l b N T F.
  assert (I : invoke_spec t i k (add_acts a cl) (tr ++ l) (RBool b)).
  { destruct b; [left|right]; [|intuition congruence]. destruct (T eq_refl). intuition congruence. }
  unfold queues in Q. unfold reg_contract. cbn [add_acts cl_api]. destruct (cl_api cl); try contradiction.
  - destruct Q as (-> & -> & ->). exact I.
  - destruct Q as (-> & -> & -> & Ns). right. split; [fact|exact I].
  - destruct Q as (-> & -> & -> & Ns). split; auto. right. split; [fact|]. eauto.
  - destruct Q as (-> & -> & -> & Ns). right. split; [fact|exact I].
Qed.
Lemma queues_lk : forall t cl tr i k c, queues t cl tr i k c -> c = LkUser \/ c = LkDisc.
Proof. intros t cl tr i k c Q. unfold queues in Q. destruct (cl_api cl); intuition. Qed.
Lemma queues_null : forall t cl tr i k c, queues t cl tr i k c -> task_null k = false.
Proof. intros t cl tr i k c Q. unfold queues in Q. destruct (cl_api cl); intuition subst; auto. Qed.

Lemma rmid_code : forall s t cl f inp h n, reachable s -> reg_sel (cl_api cl) = true -> incall t cl (trace s) -> (exists cs, open_calls t (trace s) = cl :: cs) ->
  (exists rest, stk s t = f :: FApi (cl_api cl) :: rest) ->
  runs (code f) (hp s) t inp h n -> rmid t cl (trace s) f [] ->
  newbot reg_contract rmid t (add_acts (new_acts t (hp s) h) cl) (tr_of h) (next_frames n).
Proof.
  intros s t cl f inp h n R S C Op (rest & ST) Ru M.
  pose proof (rd_regd _ R) as Erg. pose proof (rd_myid _ R t) as Emy. pose proof (rd_loc _ R t) as Elc.
  pose proof (replay_initc _ R) as Eic. pose proof (replay_mainid _ R) as Emi. pose proof (replay_clock _ R) as Eck.
  pose proof (rd_unknown _ R) as Eun. pose proof (rd_known _ R) as Ekn.
  remember [] as ab eqn:Eab. destruct M; subst; try discriminate Eab; try (now apply app_eq_nil in Eab).
  all: try (match goal with H : In (_, _) _ |- _ => cbn in H; repeat (destruct H as [H|H]; [|]); [..|contradiction]; injection H as <- Hapi; symmetry in Hapi end).
  all: code_cases Ru.
  all: stepinfo A; unfold newbot; cbn [next_frames rev app].
  all: try (left; econstructor; fact; fail).
  (* init *)
  - destruct (h_initc (hp s) =? 0)%Z eqn:Z0; cbn [rev app].
    + left. apply Z.eqb_eq in Z0. rewrite Z0 in *. econstructor; fact || (eapply do_now; [eassumption|congruence]).
    + post. split; auto. exists (h_initc (hp s) + 1)%Z. eapply do_now; [eassumption|]. split; [congruence|]. split; [intros; act|].
      apply Z.eqb_neq in Z0. intros. congruence.
  - post. split; auto. exists 1%Z. destruct H0 as (D & m & Hm & Z0). split; [fact|]. exists m. split; [now apply happens_app, happens_acts|].
    rewrite Z0. split; auto. split; [congruence|]. intros _. exists i, f, j. split; [fact|]. eapply do_now; [eassumption|]. fact.
  (* shutdown *)
  - destruct (h_initc (hp s) =? 0)%Z eqn:Z0; cbn [rev app].
    + rok. left. split; auto. split; [act|]. now_. apply Z.eqb_eq in Z0. congruence.
    + left. econstructor; fact.
  - destruct (h_initc (hp s) - 1 =? 0)%Z eqn:Z0; cbn [rev app].
    + left. apply Z.eqb_eq in Z0. rewrite Z0 in *. econstructor; fact || (eapply do_now; [eassumption|lia]).
    + rok. right. left. split; auto. exists (h_initc (hp s) - 1)%Z. apply Z.eqb_neq in Z0. split; auto. split; [act|]. eapply do_now; [eassumption|congruence].
  - left. apply m_shut3; try fact; try reflexivity. exists (h_regd (hp s)), []. split; auto. split; [now_; auto|]. intros ? [].
  - rok. right. right. split; [fact|]. split; [fact|]. destruct H2 as (l0 & l1 & E1 & E2 & E3). split.
    + exists l0. split; [fact|]. intros i Hi. rewrite E1, app_nil_r in Hi. apply told_mono. auto.
    + left. split; auto. now_. congruence.
  - left. eapply m_shut4 with (m0 := trace s); try fact; [|congruence]. apply mo_mono. eapply moment_now; eauto.
  - rok. right. right. split; [fact|]. split; [fact|]. destruct H2 as (l0 & l1 & E1 & E2 & E3). split.
    + exists l0. split; [fact|]. intros i Hi. rewrite E1, app_nil_r in Hi. apply told_mono. auto.
    + left. split; auto. now_. congruence.
  - rok. right. right. split; [fact|]. split; [fact|]. destruct H2 as (l0 & l1 & E1 & E2 & E3). split.
    + exists l0. split; [fact|]. intros j Hj. rewrite E1, app_nil_r in Hj. apply told_mono. auto.
    + right. exists (Datatypes.S (length l)), m0. split; auto. split; [lia|]. split; [fact|]. now_. rewrite <- Erg. split; auto. lia.
  (* register, unregister *)
  - rsh. split; auto. exists i, f. bga.
  - rst. eexists _, _. split; [reflexivity|]. bga.
  - rst. eexists _, _. split; [reflexivity|]. bga.
  - rst. eexists _, _. split; [reflexivity|]. bga.
  - rst. eexists _, _. split; [reflexivity|]. bga.
  - rst. eexists _, _. split; [reflexivity|]. bga.
  - rst. eexists _, _. split; [reflexivity|]. bga.
  - left. eapply m_clear with (i := i); try fact; reflexivity.
  - left. eapply m_clear with (i := i); try fact; reflexivity.
  - post. split; auto. exists i. split; [fact|]. left. split; [fact|]. apply in_new. now left.
  - post. split; auto. exists i. split; [fact|]. right. split; [fact|]. fact.
  (* notify_for_exit *)
  - post. split; auto. right. split; [act|]. now_. auto.
  - rsh. split; auto. left. split; [bga|fact].
  (* invoke *)
  - eapply refused_ok with (i := i); [fact| |act]. left. rewrite (queues_null _ _ _ _ _ _ H) in Heqb. now apply Nat.eqb_eq.
  - left. eapply m_push; try fact. rewrite (queues_null _ _ _ _ _ _ H) in Heqb. now apply Nat.eqb_neq.
  - eapply refused_ok; [fact| |act]. right. now_. auto.
  - destruct (queues_lk _ _ _ _ _ _ H) as [-> | ->]; cbn [lresume destroy rev app].
    + right; right; split; [reflexivity|]. intros a l. rewrite ?add_acts_app, <- ?app_assoc.
      apply (queues_sel _ _ _ _ _ _ H _ _ true); auto; [intros _; split; [fact|bga]|discriminate].
    + right; split; [reflexivity|]. intros a l. rewrite ?add_acts_app, <- ?app_assoc.
      apply (queues_sel _ _ _ _ _ _ H _ _ true); auto; [intros _; split; [fact|bga]|discriminate].
  - post. split; auto. right. split; [fact|]. exists false. right. split; auto. split; [destruct H1; fact|]. split; [apply bg_all; act|intros; act].
  (* dispatch, notify, set_config *)
  - destruct (i0 =? i) eqn:Z0; cbn [rev app lresume destroy].
    + apply Nat.eqb_eq in Z0. left. eapply m_drun; fact || (now_; congruence).
    + apply Nat.eqb_neq in Z0. left. eapply m_invoke; [|act]. unfold queues. cbn [add_acts cl_api]. rewrite H. repeat (split; auto). now_. congruence.
  - destruct (invalid_id =? i) eqn:Z0; cbn [rev app lresume destroy].
    + apply Nat.eqb_eq in Z0. left. eapply m_drun; fact || (now_; congruence).
    + apply Nat.eqb_neq in Z0. left. eapply m_invoke; [|act]. unfold queues. cbn [add_acts cl_api]. rewrite H. repeat (split; auto). now_. congruence.
  - destruct (i0 =? i) eqn:Z0; cbn [rev app lresume destroy].
    + apply Nat.eqb_eq in Z0. left. eapply m_ndrop with (i := i); [fact|act|now_; congruence|now right].
    + apply Nat.eqb_neq in Z0. left. eapply m_invoke; [|act]. unfold queues. cbn [add_acts cl_api]. rewrite H. repeat (split; auto). now_. congruence.
  - destruct (invalid_id =? i) eqn:Z0; cbn [rev app lresume destroy].
    + apply Nat.eqb_eq in Z0. left. eapply m_ndrop with (i := i); [fact|act|now_; congruence|now right].
    + apply Nat.eqb_neq in Z0. left. eapply m_invoke; [|act]. unfold queues. cbn [add_acts cl_api]. rewrite H. repeat (split; auto). now_. congruence.
  - post. split; auto. left. split; [fact|]. act.
  - destruct (i0 =? i) eqn:Z0; cbn [rev app lresume destroy].
    + apply Nat.eqb_eq in Z0. left. eapply m_cdrop with (i := i); [fact|act|now_; congruence|now left].
    + apply Nat.eqb_neq in Z0. left. eapply m_invoke; [|act]. unfold queues. cbn [add_acts cl_api]. rewrite H. repeat (split; auto). now_. congruence.
  - destruct (invalid_id =? i) eqn:Z0; cbn [rev app lresume destroy].
    + apply Nat.eqb_eq in Z0. left. eapply m_cdrop with (i := i); [fact|act|now_; congruence|now left].
    + apply Nat.eqb_neq in Z0. left. eapply m_invoke; [|act]. unfold queues. cbn [add_acts cl_api]. rewrite H. repeat (split; auto). now_. congruence.
  (* queries *)
  - rok. exists 0%Z. split; auto. left. split; auto. split; [act|]. left. now apply Nat.eqb_eq.
  - rok. exists 0%Z. split; auto. left. split; auto. split; [act|]. right. now_. auto.
  - rst. eexists. split; [reflexivity|]. right. split; [fact|]. now_. now apply rd_count.
  - rok. split; [act|]. nowe. cbn. congruence.
  - rok. split; [act|]. nowe. cbn. congruence.
  - rok. split; [act|]. nowe. cbn. congruence.
  - rok. split; [act|]. nowe. cbn. congruence.
  - rok. split; [act|]. nowe. cbn. rewrite <- Elc. now rewrite rd_depth.
  - rok. split; [act|]. nowe. cbn. now rewrite <- Elc.
  - rok. split; [act|]. nowe. cbn. now rewrite <- Elc.
  - rok. split; [act|]. nowe. cbn. unfold exit_seen. rewrite <- Elc. eexists. split; [reflexivity|]. now apply rd_exit.
  - rok. split; [act|]. nowe. cbn. unfold exit_seen. rewrite <- Elc. eexists. split; [reflexivity|]. tauto.
Qed.

Lemma rmid_above : forall s t cl f above r h n, reachable s -> reg_sel (cl_api cl) = true -> incall t cl (trace s) -> (exists cs, open_calls t (trace s) = cl :: cs) ->
  (exists rest, stk s t = above ++ f :: FApi (cl_api cl) :: rest) ->
  (exists es, tr_of h = trace s ++ es) ->
  top_step (hp s) t h n above r -> rmid t cl (trace s) f above ->
  rmid t (add_acts (new_acts t (hp s) h) cl) (tr_of h) f (next_frames n ++ r).
Proof.
  intros s t cl f above r h n R S C Op (rest & ST) (es & Etr) T M.
  pose proof (rd_regd _ R) as Erg. pose proof (rd_myid _ R t) as Emy. pose proof (rd_unknown _ R) as Eun.
  destruct M.
  all: try (match goal with H : shielded _ |- _ => rewrite Etr; eapply shield_above in H; [|exact T]; econstructor; fact; fail end).
  all: try (match goal with H : _ = _ :> list frame \/ _ \/ _ |- _ => destruct H as [-> |[-> | ->]] | H : _ = _ :> list frame \/ _ = _ |- _ => destruct H as [-> | ->] end).
  all: try (match goal with H : shielded ?ab |- _ => destruct ab as [|x ab]; [cbn [app] in T|];
    [|apply top_split in T; [|discriminate|exact H]; destruct T as (r1 & -> & T); rewrite app_assoc; eapply shield_above in H; [|exact T]; rewrite Etr; econstructor; fact] end).
  all: inversion T; subst.
  all: try (match goal with H : runs _ _ _ _ _ _ |- _ => cbn [catch] in H; code_cases H end).
  all: try stepinfo A; cbn [next_frames app].
  all: try (econstructor; fact; fail).
  all: try (match goal with |- context [emit ?h ?e] => rewrite (new_acts_one t h (emit h e) e eq_refl), (tr_emit h e); unfold by_thread; cbn [actor]; rewrite Nat.eqb_refl; cbn [ufin_ret fin_sid app] end).
  all: try (eapply m_refused1; first [fact|reflexivity]; fail).
  all: try (eapply m_refused2; first [fact|left; reflexivity]).
  - eapply m_init2; first [fact|reflexivity].
  - eapply m_shut2c with (ab := [FRel i]); first [fact|reflexivity].
  - eapply m_shut2c with (ab := [FRel i]); first [fact|reflexivity].
  - eapply m_shut2; try fact. exists i. split; [fact|]. left. split; [fact|]. apply in_new. now left.
  - eapply m_shut2; try fact. exists i. split; [fact|]. right. split; [fact|]. fact.
  - eapply m_shut3; try fact; try reflexivity. destruct H2 as (l0 & l1 & E1 & E2 & E3). exists l0, (l1 ++ [i]). rewrite <- app_assoc. split; auto.
    split; [fact|]. intros j Hj. apply in_app_or in Hj. destruct Hj as [Hj|[<-|[]]]; [apply told_mono; auto|]. right. now_. auto.
  - eapply m_shut3; try fact; try reflexivity. destruct H2 as (l0 & l1 & E1 & E2 & E3). exists l0, (l1 ++ [i]). rewrite <- app_assoc. split; auto.
    split; [fact|]. intros j Hj. apply in_app_or in Hj. destruct Hj as [Hj|[<-|[]]]; [apply told_mono; auto|]. left. apply in_new. now left.
  - destruct caps; [eapply m_refused2; first [fact|left; reflexivity]|eapply m_refused1; first [fact|reflexivity]].
  - change (tr_of (hp s)) with (trace s). eapply m_dran; fact.
  - change (tr_of (hp s)) with (trace s). eapply m_dthrow; fact.
  - destruct caps; [eapply m_ddone1; first [fact|left; reflexivity]|eapply m_ddone; first [fact|reflexivity|discriminate]].
  - destruct caps; [eapply m_dtdone1; first [fact|left; reflexivity]|].
    eapply m_dtdone with (ab := [FDestroy (map DCap (n :: caps) ++ [])]); first [fact|reflexivity|discriminate].
Qed.

Lemma rmid_post : forall t cl tr r, rmid t cl tr (FRes r) [] -> reg_contract t cl tr r.
Proof.
  intros t cl tr r M. remember (FRes r) as f eqn:Ef. remember [] as ab eqn:Eab.
  destruct M; try discriminate Ef; try discriminate Eab; try (now apply app_eq_nil in Eab).
  all: try (repeat match goal with H : _ = _ \/ _ |- _ => destruct H end; subst; discriminate).
  - injection Ef as <-. subst. pose proof (queues_sel _ _ _ _ _ _ H [] [] false) as Q. rewrite add_acts_nil, app_nil_r in Q. apply Q; auto; [discriminate|].
    intros _. split; [auto|]. split; [auto|congruence].
  - injection Ef as <-. subst. pose proof (queues_sel _ _ _ _ _ _ H [] [] false) as Q. rewrite add_acts_nil, app_nil_r in Q. apply Q; auto; [discriminate|].
    intros _. split; [auto|]. split; [now apply bg_all|auto].
  - injection Ef as <-. subst. unfold reg_contract. rewrite H. left. split; [exact H0|]. exists (RVal v).
    split; [split; [exact H1|destruct caps; [congruence|discriminate]]|]. left. eauto.
  - injection Ef as <-. subst. unfold reg_contract. rewrite H. left. split; [exact H0|]. exists (RVal v).
    split; [split; [now apply bg_all|auto]|]. left. eauto.
  - injection Ef as <-. subst. unfold reg_contract. rewrite H. left. auto.
  - cbn in H. repeat (destruct H as [H|H]; [subst; discriminate H|]). contradiction.
Qed.

Theorem reg_contracts : forall s, reachable s ->
  each_return (fun t cl tr r => reg_sel (cl_api cl) = true -> reg_contract t cl tr r) (trace s).
Proof.
  apply res_rule with (mid := rmid).
  - apply rmid_start.
  - intros. now apply reg_contract_tr.
  - intros. now apply rmid_tr.
  - apply no_throw. apply rmid_user.
  - apply rmid_code.
  - apply rmid_throw.
  - apply rmid_above.
  - apply rmid_post.
Qed.
