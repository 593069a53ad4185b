(** * ApiObj: the calls on promise, future, thread and pool objects meet their contracts. *)
From Verif Require Import Types Core State Ops Code Machine Base Spec SpecApi SpecFut SpecObj Rules Events InvCtx InvQueue InvStack Calls Contract Replay ReplayObj ContractLib.

Lemma replay_end : forall n s, reachable s -> (exists b, h_tst (hp s) n = TEnd b) -> ended n (trace s).
Proof.
  intros n. apply (replay_rule (fun h tr => (exists b, h_tst h n = TEnd b) -> ended n tr)); unfold ended.
  - intros [b H]. cbn in H. unfold heap0, h_tst in H. destruct (n =? 0); discriminate H.
  - intros h l d IH. rewrite latest_snoc. exact IH.
  - intros h l e IH Ok. rewrite latest_snoc. destruct e; cbn in Ok; try contradiction; exact IH.
  - intros h ? ? [] ? ? ? G O IH At NN; try contradiction; atom_split At; rewrite ?latest_snoc; try exact IH; unfold upd;
      try match goal with |- context [?a =? ?b] => rewrite (Nat.eqb_sym b a); destruct (Nat.eqb_spec a b); subst end; auto.
    all: intros [b H]; try discriminate H.
    all: apply IH; destruct (Nat.eqb_spec n t0); subst; eauto; discriminate H.
Qed.

Section Points.
Variables (t : tid) (cl : call) (tr : list event).
Let is c := cl_api cl = c.
Let acts l := cl_acts cl = l.
Definition was (o : nat) (x : option tid * id) : Prop := sometime cl tr (fun m => thobj_of o m = x).
Definition free (o : nat) : Prop := sometime cl tr (fun m => fst (thobj_of o m) = None).
Definition idw (o : nat) (i : id) : Prop := sometime cl tr (fun m => snd (thobj_of o m) = i).
Definition over (o : nat) (n : tid) (i : id) : Prop :=
  sometime cl tr (fun m => ended n m /\ sometime cl m (fun m' => thobj_of o m' = (Some n, i))).

(** Inside thread::join on [o]. *)
Inductive jseq (o : nat) : list frame -> Prop :=
| j_start : jseq o [FThJoin o]
| j_exit : forall i, idw o i -> jseq o [FNExit i; FThJoin1 o]
| j_exit1 : forall i, idw o i -> jseq o [FNExit1 i; FThJoin1 o]
| j_told : forall ab, warned t o cl tr -> shielded ab -> jseq o (ab ++ [FThJoin1 o])
| j_throw : warned t o cl tr -> free o -> jseq o [FThrow XNotJoinable]
| j_join : forall n i, warned t o cl tr -> was o (Some n, i) -> jseq o [FJoin n; FThPut o (None, i)]
| j_put : forall n i, warned t o cl tr -> over o n i -> jseq o [FThPut o (None, i)]
| j_end : warned t o cl tr -> joined t o cl tr -> jseq o [].
Definition freed (o : nat) : Prop := (free o /\ cl_acts cl = []) \/ (warned t o cl tr /\ joined t o cl tr).

Inductive omid : frame -> list frame -> Prop :=
| o_ub : forall u, omid (FUb u) []
(* promises *)
| o_pnew : forall v, is (APromise v) -> acts [] -> omid (FPNew v) []
| o_pnew1 : forall v p, is (APromise v) -> acts [EvState t p v PuPromise] -> omid (FPNew1 p) []
| o_getf : forall pr, is (APGetFuture pr) -> acts [] -> omid (FPGetF pr) []
| o_getf1 : forall pr p, is (APGetFuture pr) -> acts [] -> sometime cl tr (fun m => prom_of pr m = Some p) -> omid (FPGetF1 p) []
| o_getf2 : forall pr p, is (APGetFuture pr) -> acts [EvRetr t p false] -> sometime cl tr (fun m => prom_of pr m = Some p) ->
    does cl tr (EvRetr t p false) (fun m => ~ (retrieved p m \/ taken p m)) -> omid (FHnd false (Some p)) []
| o_pass : forall d s, is (APAssign d s) -> acts [] -> omid (FPAssign d s) []
| o_pass1 : forall d s x, is (APAssign d s) -> acts [EvPrm t s None] -> does cl tr (EvPrm t s None) (fun m => prom_of s m = x) -> omid (FPAssign1 d x) []
(* futures *)
| o_valid : forall h, is (AFValid h) -> acts [] -> omid (FHValid h) []
| o_ready : forall h, is (AFReady h) -> acts [] -> omid (FHReady h) []
| o_ready1 : forall h p, is (AFReady h) -> acts [] -> refers h p cl tr -> omid (FHReady1 p) []
| o_err : forall h, is (AFHasError h) -> acts [] -> omid (FHErr h) []
| o_err1 : forall h p, is (AFHasError h) -> acts [] -> refers h p cl tr -> omid (FHErr1 p) []
| o_share : forall h, is (AFShare h) -> acts [] -> omid (FHShare h) []
| o_share1 : forall h x, is (AFShare h) -> acts [EvHnd t h false None] -> does cl tr (EvHnd t h false None) (fun m => fut_of h m = (false, x)) ->
    omid (FHnd true x) []
| o_copy : forall h, is (AFCopy h) -> acts [] -> omid (FHCopy h) []
| o_copy1 : forall h x, is (AFCopy h) -> acts [] -> sometime cl tr (fun m => fut_of h m = (true, x)) -> omid (FHnd true x) []
| o_move : forall h, is (AFMove h) -> acts [] -> omid (FHMove h) []
| o_from : forall p sh, is (AFFromVal p sh) -> acts [] -> omid (FHFrom sh p) []
(* pools *)
| o_count : forall o, is (APCount o) -> acts [] -> omid (FPApi o PaCount) []
| o_count1 : forall o pl, is (APCount o) -> acts [] -> sometime cl tr (fun m => pool_of o m = Some pl) -> omid (FPCount pl) []
(* threads *)
| o_std : forall u, is (AStdThread u) -> acts [] -> omid (FSpawn (BFun u) SpStd) []
| o_thid : forall o, is (AThId o) -> acts [] -> omid (FThId o) []
| o_new : forall o b, is (AThread o b) -> acts [] -> omid (FThNew o b) []
| o_new1 : forall o b, is (AThread o b) -> acts [] -> free o -> omid (FSpawn b (SpThread o)) []
| o_new2 : forall o b n, is (AThread o b) -> acts [EvSpawn t n] -> free o -> omid (FSpReg n (SpThread o)) []
| o_new3 : forall o b n i f, is (AThread o b) -> acts [EvSpawn t n; EvReg t n i f] -> free o -> omid (FRes (RThread n i)) [FThPut o (Some n, i); FRel i]
| o_new4 : forall o b n i f ab, is (AThread o b) -> begins cl [EvSpawn t n; EvReg t n i f; EvThObj t o (Some n) i] -> free o -> shielded ab ->
    omid (FRes (RThread n i)) ab
| o_detach : forall o, is (AThDetach o) -> acts [] -> omid (FThDetach o) []
| o_detach1 : forall o n i ab, is (AThDetach o) -> acts [] -> was o (Some n, i) -> ab = [] \/ ab = [FDetach n] -> omid (FThPut o (None, i)) ab
| o_mv : forall d s, is (AThMove d s) -> acts [] -> omid (FThMove d s) []
| o_mv1 : forall d s, is (AThMove d s) -> acts [] -> free d -> omid (FThMove1 d s) []
| o_mv2 : forall d s x, is (AThMove d s) -> acts [] -> free d -> was s x -> omid (FThMove2 d s x) []
| o_mv3 : forall d s x, is (AThMove d s) -> acts [EvThObj t s None (snd x)] -> free d ->
    does cl tr (EvThObj t s None (snd x)) (fun m => sometime cl m (fun m' => thobj_of s m' = x)) -> omid (FThPut d x) []
| o_swap : forall a b, is (AThSwap a b) \/ (is (AThAssign a b) /\ freed a) -> (is (AThSwap a b) -> acts []) -> omid (FThSwap a b) []
| o_swap1 : forall a b x, is (AThSwap a b) \/ (is (AThAssign a b) /\ freed a) -> (is (AThSwap a b) -> acts []) -> was a x -> omid (FThSwap1 a b x) []
| o_swap2 : forall a b x y, is (AThSwap a b) \/ (is (AThAssign a b) /\ freed a) -> (is (AThSwap a b) -> acts []) -> was a x -> was b y ->
    omid (FThPut a y) [FThPut b x]
| o_swap3 : forall a b x y l, (is (AThSwap a b) /\ l = []) \/ (is (AThAssign a b) /\ ((free a /\ l = []) \/ (warned t a cl tr /\ joined t a cl tr))) ->
    acts (l ++ [EvThObj t b (fst x) (snd x)]) ->
    does cl tr (EvThObj t b (fst x) (snd x)) (fun m => sometime cl m (fun m' => thobj_of a m' = x) /\ sometime cl m (fun m' => thobj_of b m' = y)) ->
    omid (FThPut a y) []
| o_join : forall o l f ab, is (AThJoin o) -> jseq o l -> l = ab ++ [f] -> match f with FUser _ _ | FThrow _ => False | _ => True end -> omid f ab
| o_ass : forall d s, is (AThAssign d s) -> acts [] -> omid (FThAssign d s) []
| o_ass1 : forall d s l, is (AThAssign d s) -> jseq d l -> omid (FThSwap d s) (l ++ [FNoexcept])
| o_dtor : forall o, is (AThDtor o) -> acts [] -> omid (FThDtor o) []
| o_dtor1 : forall o l, is (AThDtor o) -> jseq o l -> omid (FThPut o (None, 0)) (l ++ [FNoexcept])
| o_dtor2 : forall o, is (AThDtor o) -> freed o -> omid (FThPut o (None, 0)) [].
End Points.
#[global] Hint Unfold was free idw over : mono.
#[global] Hint Unfold refers : mono.

Definition obj_sel (c : api) : bool :=
  match c with
  | APromise _ | APGetFuture _ | APAssign _ _ | AFValid _ | AFReady _ | AFHasError _ | AFShare _ | AFCopy _ | AFMove _ | AFFromVal _ _ | APCount _
  | AStdThread _ | AThread _ _ | AThId _ | AThMove _ _ | AThSwap _ _ | AThDetach _ | AThJoin _ | AThAssign _ _ | AThDtor _ => true
  | _ => false
  end.

Lemma warned_mono : forall t o cl tr a l, warned t o cl tr -> warned t o (add_acts a cl) (tr ++ l).
Proof. unfold warned, told. intros t o cl tr a l (i & A & [B|B]); exists i; eauto with mono. Qed.
Lemma joined_mono : forall t o cl tr a l, joined t o cl tr -> joined t o (add_acts a cl) (tr ++ l).
Proof. unfold joined. intros t o cl tr a l (n & i & A & B). exists n, i. split; [|now apply in_mono]. apply (st_mono _ _ l a) in A. exact A. Qed.
Lemma over_mono : forall o cl tr n i a l, over cl tr o n i -> over (add_acts a cl) (tr ++ l) o n i.
Proof. unfold over. intros o cl tr n i a l A. apply (st_mono _ _ l a) in A. exact A. Qed.
Lemma warned_tr : forall t o cl tr l, warned t o cl tr -> warned t o cl (tr ++ l).
Proof. intros. rewrite <- (add_acts_nil cl). now apply warned_mono. Qed.
Lemma joined_tr : forall t o cl tr l, joined t o cl tr -> joined t o cl (tr ++ l).
Proof. intros. rewrite <- (add_acts_nil cl). now apply joined_mono. Qed.
Lemma over_tr : forall o cl tr n i l, over cl tr o n i -> over cl (tr ++ l) o n i.
Proof. intros. rewrite <- (add_acts_nil cl). now apply over_mono. Qed.
#[local] Hint Resolve warned_mono joined_mono over_mono warned_tr joined_tr over_tr : mono.
Lemma jseq_tr : forall t o cl tr x l, jseq t cl tr o l -> jseq t cl (tr ++ x) o l.
Proof.
  intros t o cl tr x l J. destruct J.
  - apply j_start.
  - apply j_exit; unfold idw in *; eauto with mono.
  - apply j_exit1; unfold idw in *; eauto with mono.
  - apply j_told; eauto with mono.
  - apply j_throw; unfold free in *; eauto with mono.
  - apply j_join; unfold was in *; eauto with mono.
  - apply j_put with (n := n); eauto with mono.
  - apply j_end; eauto with mono.
Qed.
Lemma freed_tr : forall t o cl tr x, freed t cl tr o -> freed t cl (tr ++ x) o.
Proof. intros t o cl tr x [[A B]|[A B]]; [left|right]; split; unfold free in *; eauto with mono. Qed.
#[local] Hint Resolve jseq_tr freed_tr : mono.

Lemma omid_tr : forall t cl tr l f ab, omid t cl tr f ab -> omid t cl (tr ++ l) f ab.
Proof.
  intros t cl tr l f ab M. destruct M; try (econstructor; eauto with mono; fail).
  - apply o_swap; [destruct H as [H|[H F]]; auto with mono|auto].
  - apply o_swap1; [destruct H as [H|[H F]]; auto with mono|auto|unfold was in *; auto with mono].
  - apply o_swap2; [destruct H as [H|[H F]]; auto with mono|auto|unfold was in *; auto with mono|unfold was in *; auto with mono].
  - apply o_swap3 with (b := b) (x := x) (l := l0); [|auto|auto with mono].
    destruct H as [H|[H [[F E]|[F E]]]]; [now left|right|right]; (split; [auto|]); [left|right]; unfold free in *; eauto with mono.
Qed.

Lemma obj_tr : forall t cl tr l r, obj_contract t cl tr r -> obj_contract t cl (tr ++ l) r.
Proof.
  intros t cl tr l r. unfold obj_contract. destruct (cl_api cl); auto.
  - intros [A (n & i & f & B)]. split; [eauto with mono|eauto].
  - intros [A [[B C]|[B C]]]; (split; [eauto with mono|]); [left|right]; eauto with mono.
  - intros [(A & B & C)|(A & n & i & B & C)]; [left|right]; eauto 6 with mono.
  - intros (A & x & B & C & D). split; auto. exists x. eauto with mono.
  - intros (A & [[B (x & y & C & D)]|(B & C & k & x & y & D & F)]); split; auto; [left|right].
    + split; [eauto with mono|]. exists x, y. eauto with mono.
    + split; [eauto with mono|]. split; [eauto with mono|]. exists k, x, y. eauto with mono.
  - intros (A & x & y & B & C). split; auto. exists x, y. eauto with mono.
  - intros (A & [[B C]|(B & C & D)]); split; auto; [left|right]; eauto with mono.
  - intros [A B]. eauto with mono.
  - intros [(A & B & C)|(p & A & B)]; [left; eauto with mono|right]. exists p. split; [eauto with mono|].
    destruct B as [(B & C & D)|(n & B & C & D)]; [left; eauto with mono|right; exists n; eauto with mono].
  - intros (A & x & B & C). split; auto. exists x. eauto with mono.
  - intros [A B]. eauto with mono.
  - intros [(A & B & C)|(p & b & A & B & C & D)]; [left; unfold invalid; eauto with mono|right; exists p, b; unfold refers in *; split; [|split; [|split]]; eauto with mono].
  - intros [(A & B & C)|(p & b & A & B & C & D)]; [left; unfold invalid; eauto with mono|right; exists p, b; unfold refers in *; split; [|split; [|split]]; eauto with mono].
  - intros (n & x & A & B & C). exists n, x. eauto with mono.
  - intros (n & x & A & B & C). exists n, x. eauto with mono.
  - intros (A & x & B & C). split; auto. exists x. eauto with mono.
  - intros (A & pl & B & C). split; auto. exists pl. eauto with mono.
Qed.

Lemma omid_start : forall t c pre, obj_sel c = true -> newbot obj_contract omid t (mkCall c pre []) (pre ++ [EvCall t c]) (api_frames c).
Proof.
  intros t c pre S. destruct c; try discriminate S; unfold newbot; cbn [api_frames rev app]; left; try (econstructor; cbn; auto; fail).
  eapply o_join with (l := [FThJoin o]); cbn; auto. apply j_start.
Qed.
Lemma omid_user : forall t cl tr f above, omid t cl tr f above -> match f with FUser _ _ | FThrow _ => False | _ => True end.
Proof.
  intros t cl tr f above M. destruct M; auto.
Qed.

Ltac runT T := inversion T; subst; match goal with H : runs _ _ _ _ _ _ |- _ => rename H into Ru end.
Lemma jseq_step : forall s t cl o l h n r, reachable s -> incall t cl (trace s) -> (exists es, tr_of h = trace s ++ es) -> jseq t cl (trace s) o l ->
  top_step (hp s) t h n l r -> jseq t (add_acts (new_acts t (hp s) h) cl) (tr_of h) o (next_frames n ++ r).
Proof.
  intros s t cl o l h n r R C (es & Etr) J T. pose proof (rd_unknown _ R) as Eun. pose proof (replay_tobj o _ R) as Eo.
  assert (Mo : moment cl (trace s) (trace s)) by (eapply moment_now; eauto).
  destruct J as [|i I|i I|ab W Sh|W F|m i W X|m i W X|W J].
  - runT T. code_cases Ru. stepinfo A. cbn [next_frames app]. apply j_exit. unfold idw. eapply st_now; eauto. congruence.
  - runT T. code_cases Ru. stepinfo A; cbn [next_frames app].
    + apply j_exit1. unfold idw in *. fact.
    + apply (j_told _ _ _ _ []); [|exact Logic.I]. exists i. split; [unfold idw in *; fact|]. right. fact.
  - runT T. code_cases Ru. stepinfo A; cbn [next_frames app].
    all: apply (j_told _ _ _ _ [FRel i]); [|reflexivity]; exists i; split; [unfold idw in *; fact|]; left; apply in_new; now left.
  - destruct ab as [|x ab]; cbn [app] in T.
    + runT T. code_cases Ru. stepinfo A; cbn [next_frames app]. rewrite Eo. destruct (thobj_of o (trace s)) as [[m|] i] eqn:E; cbn [fst snd].
      * eapply j_join; [fact|]. unfold was. fact.
      * apply j_throw; [fact|]. unfold free. eapply st_now; eauto. now rewrite E.
    + change (x :: ab ++ [FThJoin1 o]) with ((x :: ab) ++ [FThJoin1 o]) in T. apply top_split in T; [|discriminate|exact Sh]. destruct T as (r1 & -> & T).
      rewrite app_assoc. eapply shield_above in Sh; [|exact T]. rewrite Etr. apply j_told; auto. fact.
  - runT T. destruct Ru.
  - runT T. assert (En : ended m (trace s)).
    { apply (replay_end _ _ R). destruct Ru as (y & A & _). cbn [atom] in A. destruct (h_tst (hp s) m); try discriminate A. eauto. }
    code_cases Ru. stepinfo A; cbn [next_frames app]. apply j_put with (n := m); [fact|].
    apply over_mono. exists (trace s). split; auto.
  - runT T. code_cases Ru. stepinfo A; cbn [next_frames app]. apply j_end; [fact|]. exists m, i. split; [|apply in_new; now left].
    apply (over_mono o) with (a := [EvThObj t o None i]) (l := [EvThObj t o None i]) in X. exact X.
  - inversion T.
Qed.
Lemma jseq_newbot : forall t cl tr o l, cl_api cl = AThJoin o -> jseq t cl tr o l -> newbot obj_contract omid t cl tr l.
Proof.
  intros t cl tr o l Ap J. pose proof J as J0. inversion J0 as [El|i I El|i I El|ab W Sh El|W F El|m i W X El|m i W X El|W X El]; subst l.
  - left. eapply o_join; eauto; try reflexivity; try exact Logic.I.
  - left. eapply o_join with (ab := [_]); eauto; try reflexivity; try exact Logic.I.
  - left. eapply o_join with (ab := [_]); eauto; try reflexivity; try exact Logic.I.
  - apply newbot_snoc. left. eapply o_join; eauto; try exact Logic.I.
  - right. left. split; auto. unfold obj_contract. rewrite Ap. split; auto.
  - left. eapply o_join with (ab := [_]); eauto; try reflexivity; try exact Logic.I.
  - left. eapply o_join; eauto; try reflexivity; try exact Logic.I.
  - unfold newbot. cbn [rev]. unfold obj_contract. rewrite Ap. split; auto.
Qed.

Ltac post := unfold obj_contract; cbn [add_acts cl_api]; match goal with H : cl_api _ = _ |- _ => rewrite H end.
Ltac rok := right; left; split; [reflexivity|]; post.
Ltac now_ := eapply st_now; [eassumption|].
Ltac nowe := rewrite add_acts_nil; eapply ae_now; [eassumption|eassumption|].

Lemma omid_code : forall s t cl f inp h n, reachable s -> obj_sel (cl_api cl) = true -> incall t cl (trace s) -> (exists cs, open_calls t (trace s) = cl :: cs) ->
  (exists rest, stk s t = f :: FApi (cl_api cl) :: rest) ->
  runs (code f) (hp s) t inp h n -> omid t cl (trace s) f [] ->
  newbot obj_contract omid t (add_acts (new_acts t (hp s) h) cl) (tr_of h) (next_frames n).
Proof.
  intros s t cl f inp h n R S C Op (rest & ST) Ru M.
  pose proof (fun o => replay_tobj o _ R) as Eo. pose proof (fun o => replay_hnds o _ R) as Eh. pose proof (fun o => replay_prms o _ R) as Ep.
  pose proof (replay_pobj _ R) as Epo.
  remember [] as ab eqn:Eab. destruct M; subst; try discriminate Eab; try (destruct l; discriminate Eab).
  all: try (code_cases Ru; stepinfo A; unfold newbot; cbn [next_frames rev app]).
  all: try (left; econstructor; fact; fail).
  all: rewrite ?Eo, ?Eh, ?Ep, ?Epo; clear Eo Eh Ep Epo.
  (* promises *)
  - rok. eexists _, p. split; [reflexivity|act].
  - destruct (prom_of pr (trace s)) as [p|] eqn:E; cbn [rev app].
    + left. eapply o_getf1; fact.
    + rok. left. split; auto. split; [act|]. now_. exact E.
  - pose proof (fr_retr _ _ _ (replay_fs p s R)) as Fr. change (made p) with (taken p) in Fr. destruct (fs_retrieved _); cbn [rev app].
    + rok. right. exists p. split; [fact|]. left. split; auto. split; [act|]. eapply do_now; eauto. now apply Fr.
    + left. eapply o_getf2; try fact; try (eapply do_now; eauto). intros X. apply Fr in X. discriminate X.
  - rok. right. exists p. split; [fact|]. right. eexists. split; [reflexivity|]. split; [act|fact].
  - left. eapply o_pass1; try fact; try (eapply do_now; eauto).
  - post. split; auto. exists x. split; [act|fact].
  (* futures *)
  - rok. split; [act|]. nowe. reflexivity.
  - destruct (snd (fut_of h0 (trace s))) as [p|] eqn:E; cbn [rev app].
    + left. eapply o_ready1; try fact; try (unfold refers; now_; exact E).
    + rok. left. split; auto. split; [act|]. now_. exact E.
  - rok. right. eexists p, _. split; [unfold refers in *; fact|]. split; [act|]. split; [reflexivity|]. now_. rewrite (replay_ready p s R). unfold is_ready.
    destruct (outcome_of p (trace s)); split; congruence.
  - destruct (snd (fut_of h0 (trace s))) as [p|] eqn:E; cbn [rev app].
    + left. eapply o_err1; try fact; try (unfold refers; now_; exact E).
    + rok. left. split; auto. split; [act|]. now_. exact E.
  - rok. right. eexists p, _. split; [unfold refers in *; fact|]. split; [act|]. split; [reflexivity|]. now_. rewrite (replay_error p s R). unfold fails.
    destruct (outcome_of p (trace s)) as [[v|e]|]; split; try discriminate; eauto; intros [? N]; discriminate N.
  - destruct (fut_of h0 (trace s)) as [[] x] eqn:E; cbn [fst snd rev app].
    + left. apply o_ub.
    + left. eapply o_share1; try fact; try (eapply do_now; eauto).
  - rok. eexists _, x. split; [reflexivity|]. split; [act|fact].
  - destruct (fut_of h0 (trace s)) as [[] x] eqn:E; cbn [fst snd rev app].
    + left. eapply o_copy1; try fact.
    + left. apply o_ub.
  - rok. eexists _, x. split; [reflexivity|]. split; [act|fact].
  - post. split; auto. eexists. split; [act|]. eapply do_now; eauto.
  - rok. eexists. split; [reflexivity|act].
  (* pools *)
  - destruct (pool_of o (trace s)) as [pl|] eqn:E; cbn [pact_frames rev app].
    + left. eapply o_count1; fact.
    + left. apply o_ub.
  - rok. split; [act|]. exists pl. split; [fact|]. nowe. rewrite <- (replay_jobs pl s R), map_length. reflexivity.
  (* threads *)
  - rok. eexists. split; [reflexivity|act].
  - rok. split; [act|]. nowe. reflexivity.
  - destruct (thobj_of o (trace s)) as [[m|] i] eqn:E; cbn [fst snd rev app].
    + left. apply o_ub.
    + left. eapply o_new1; try fact; try (unfold free; now_; now rewrite E).
  - destruct (thobj_of o (trace s)) as [[m|] i] eqn:E; cbn [fst snd rev app].
    + left. eapply o_detach1 with (n := m); [fact|act|unfold was; now_; exact E|now right].
    + rok. left. split; auto. split; [act|]. now_. now rewrite E.
  - post. right. split; auto. exists n0, i. split; [act|]. unfold was in *. fact.
  - destruct (thobj_of d (trace s)) as [[m|] i] eqn:E; cbn [fst snd rev app].
    + left. apply o_ub.
    + left. eapply o_mv1; try fact; try (unfold free; now_; now rewrite E).
  - left. eapply o_mv3; [fact|act|unfold free in *; fact|]. eapply do_now; eauto.
  - post. split; auto. exists x. unfold was, free in *. split; [fact|]. split; [fact|act].
  - left. rewrite add_acts_nil, app_nil_r. eapply o_swap1; eauto. exists (trace s). split; auto. eapply moment_now; eauto.
  - left. rewrite add_acts_nil, app_nil_r. eapply o_swap2; eauto. exists (trace s). split; auto. eapply moment_now; eauto.
  - unfold was, free in *. destruct H as [[H ->]|[H [[F ->]|[W J]]]]; post.
    + split; auto. exists x, y. split; [fact|act].
    + split; auto. left. split; [fact|]. exists x, y. split; [fact|act].
    + split; auto. right. split; [fact|]. split; [fact|]. exists l, x, y. split; [fact|]. cbn [add_acts cl_acts]. rewrite H0. now rewrite <- app_assoc.
  - assert (Etr : exists es, tr_of h = trace s ++ es).
    { unfold runs in Ru. destruct (code f); [|contradiction]. destruct Ru as (x & A & _). eexists. exact (step_trace _ _ _ _ _ _ _ A). }
    cbn [app] in *. replace (next_frames n) with (next_frames n ++ []) by apply app_nil_r. eapply jseq_newbot; [exact H|].
    eapply jseq_step; eauto. eapply ts_code; eauto.
  - destruct (thobj_of d (trace s)) as [[m|] i] eqn:E; cbn [fst snd rev app]; left.
    + eapply (o_ass1 _ _ _ _ _ [FThJoin d]); try fact; try apply j_start.
    + rewrite add_acts_nil, app_nil_r. eapply o_swap; [|congruence]. right. split; auto. left. split; auto. exists (trace s). split; [eapply moment_now; eauto|now rewrite E].
  - destruct (thobj_of o (trace s)) as [[m|] i] eqn:E; cbn [fst snd rev app]; left.
    + eapply (o_dtor1 _ _ _ _ [FThJoin o]); try fact; try apply j_start.
    + rewrite add_acts_nil, app_nil_r. eapply o_dtor2; auto. left. split; auto. exists (trace s). split; [eapply moment_now; eauto|now rewrite E].
  - post. split; auto. destruct H0 as [[F E]|[W J]]; [left|right]; (split; [unfold free in *; fact|]); [act|]. split; [fact|]. exists (cl_acts cl). reflexivity.
Qed.

Lemma omid_throw : forall s t cl f e inp h n, reachable s -> obj_sel (cl_api cl) = true -> incall t cl (trace s) -> (exists cs, open_calls t (trace s) = cl :: cs) ->
  runs (catch f e) (hp s) t inp h n -> omid t cl (trace s) f [FThrow e] ->
  newbot obj_contract omid t (add_acts (new_acts t (hp s) h) cl) (tr_of h) (next_frames n).
Proof.
  intros s t cl f e inp h n R S C Op Ru M. remember [FThrow e] as ab eqn:Eab. destruct M; try discriminate Eab; subst.
  all: try (destruct l as [|? []]; discriminate Eab).
  - discriminate H2.
  - destruct H2; discriminate.
  - remember ([FThrow e] ++ [f]) as l eqn:El. destruct H0; try discriminate El. apply app_inj_tail in El as [-> <-]. discriminate H1.
Qed.
Lemma top_split1 : forall h t h' n x g r, x <> [] -> shield g = true -> top_step h t h' n (x ++ [g]) r ->
  exists r', r = r' ++ [g] /\ top_step h t h' n x r'.
Proof.
  intros h t h' n x g r N S T. destruct x as [|a x]; [contradiction|]. cbn [app] in T.
  inversion T as [v u fin r1 Eh En X|e u fin r1 Eh En X|inp f r1 Ru X|inp e f r1 Ru X]; subst.
  - exists x. split; auto. now eapply ts_ret.
  - exists x. split; auto. now eapply ts_throw.
  - exists x. split; auto. now eapply ts_code; eauto.
  - destruct x as [|b x]; cbn [app] in *.
    + match goal with H : _ :: _ = _ :: _ |- _ => injection H as -> -> end. now apply shield_catch in Ru.
    + match goal with H : _ :: _ = _ :: _ |- _ => injection H as -> -> end. exists x. split; auto. now eapply ts_catch; eauto.
Qed.

Lemma top_snoc : forall h t h' n x g r, top_step h t h' n x r -> top_step h t h' n (x ++ [g]) (r ++ [g]).
Proof.
  intros h t h' n x g r T. destruct T; cbn [app]; [eapply ts_ret|eapply ts_throw|eapply ts_code|eapply ts_catch]; eauto.
Qed.

Lemma omid_above : forall s t cl f above r h n, reachable s -> obj_sel (cl_api cl) = true -> incall t cl (trace s) -> (exists cs, open_calls t (trace s) = cl :: cs) ->
  (exists rest, stk s t = above ++ f :: FApi (cl_api cl) :: rest) ->
  (exists es, tr_of h = trace s ++ es) ->
  top_step (hp s) t h n above r -> omid t cl (trace s) f above ->
  omid t (add_acts (new_acts t (hp s) h) cl) (tr_of h) f (next_frames n ++ r).
Proof.
  intros s t cl f above r h n R S C Op (rest & ST) Etr T M.
  destruct M; try solve [inversion T].
  - runT T. code_cases Ru. stepinfo A; cbn [next_frames app]; eapply o_new4 with (f := f); try fact; reflexivity.
  - destruct Etr as [es ->]. eapply shield_above in H2; [|exact T]. eapply o_new4; fact.
  - destruct H2 as [-> | ->]; [inversion T|]. runT T. code_cases Ru. stepinfo A; cbn [next_frames app]; eapply o_detach1; try fact; now left.
  - runT T. code_cases Ru. stepinfo A; cbn [next_frames app]. unfold was in *. eapply o_swap3 with (b := b) (x := x) (l := cl_acts cl); auto; [|eapply do_now; eauto].
    destruct H as [H|[H [[F E]|[W J]]]]; [left; split; auto|right|right]; (split; [exact H|]).
    + left. split; [unfold free in *; fact|auto].
    + right. split; fact.
  - subst l. pose proof (top_snoc _ _ _ _ _ f _ T) as T'. eapply jseq_step in T'; eauto. rewrite app_assoc in T'. eapply o_join; eauto.
  - destruct l as [|x l].
    + runT T. inversion H0; subst; [destruct ab; discriminate|]. code_cases Ru. stepinfo A; cbn [next_frames app]. rewrite add_acts_nil, app_nil_r.
      apply o_swap; [right; split; auto; now right|congruence].
    + apply top_split1 in T as (r' & -> & T); [|discriminate|reflexivity]. rewrite app_assoc. eapply o_ass1; [exact H|]. eapply jseq_step; eauto.
  - destruct l as [|x l].
    + runT T. inversion H0; subst; [destruct ab; discriminate|]. code_cases Ru. stepinfo A; cbn [next_frames app]. rewrite add_acts_nil, app_nil_r.
      apply o_dtor2; [auto|now right].
    + apply top_split1 in T as (r' & -> & T); [|discriminate|reflexivity]. rewrite app_assoc. eapply o_dtor1; [exact H|]. eapply jseq_step; eauto.
Qed.

Theorem obj_calls : forall s, reachable s ->
  each_return (fun t cl tr r => obj_sel (cl_api cl) = true -> obj_contract t cl tr r) (trace s).
Proof.
  apply res_rule with (mid := omid).
  - apply omid_start.
  - intros. now apply obj_tr.
  - intros. now apply omid_tr.
  - apply no_throw. apply omid_user.
  - apply omid_code.
  - apply omid_throw.
  - apply omid_above.
  - intros t cl tr r M. remember (FRes r) as f eqn:Ef. remember [] as ab eqn:Eab. destruct M; try discriminate Ef; try discriminate Eab.
    + injection Ef as <-. unfold obj_contract. rewrite H. split; [exact H1|]. now exists n, i, f.
    + subst. exfalso. remember ([] ++ [FRes r]) as l eqn:El. destruct H0; try discriminate El. apply app_inj_tail in El as [_ El]. discriminate El.
Qed.
