(** * ApiLaunch: async and then meet their contracts. *)
From Verif Require Import Types Core State Ops Code Machine Base Spec SpecApi SpecFut SpecLaunch Rules Events InvCtx InvQueue InvStack
  Calls Contract ContractLib Replay ReplayObj ThmObj ReplayFut ApiFut.

Lemma hnd_kinds : forall s, reachable s -> at_each (fun tr e => match e with
  | EvHnd _ n sh _ => hnd_used n tr -> sh = fst (fut_of n tr)
  | _ => True end) (trace s).
Proof.
  at_ev; cbn [atom] in A; auto; intros U.
  all: try (apply (hnd_inv _ R) in U; revert U; op_unfold A; brki A; try discriminate A; inversion A; subst; lia).
  all: rewrite <- (replay_hnds _ _ R).
  - now injection A as _ <-.
  - destruct (h_hnds (hp s) n0) as [[] [q|]]; try discriminate A; injection A as _ <-; auto.
Qed.
Lemma fut_kind : forall s n m b, reachable s -> trace s = m ++ b -> hnd_used n m -> fst (fut_of n (trace s)) = fst (fut_of n m).
Proof.
  intros s n m b R E H. pose proof (hnd_kinds s R) as HE. rewrite E in *. clear E R s.
  induction b as [|e b IH] using rev_ind; [rewrite app_nil_r; auto|]. rewrite app_assoc in *.
  assert (HE' : at_each (fun tr e => match e with EvHnd _ n sh _ => hnd_used n tr -> sh = fst (fut_of n tr) | _ => True end) (m ++ b)).
  { intros x e' y X. apply (HE x e' (y ++ [e])). now rewrite X, <- app_assoc. }
  specialize (IH HE'). specialize (HE (m ++ b) e [] eq_refl). rewrite fut_snoc. destruct e; auto.
  destruct (Nat.eqb_spec n0 n); [subst|auto]. cbn [fst]. rewrite HE; auto. now apply hnd_used_app.
Qed.

Section Points.
Variables (t : tid) (cl : call) (tr : list event).
Let acts l := cl_acts cl = l.
Definition isnew : Prop := match cl_api cl with AAsyncNew _ _ _ _ | AFThenNew _ _ _ _ _ => True | _ => False end.
(** The call has reached async / then proper, with target [i] and the actions [pre] so far. *)
Definition origin (i : id) (pre : list event) : Prop :=
  match cl_api cl with
  | AAsync j _ _ _ _ | AFThen _ j _ _ _ _ => j = i /\ pre = []
  | AAsyncNew _ _ _ _ | AFThenNew _ _ _ _ _ => worker t i pre
  | _ => False
  end.
Definition is_async (pol : policy) (v : bool) (u : nat) (caps : list nat) : Prop :=
  match cl_api cl with
  | AAsync _ a b c d | AAsyncNew a b c d => a = pol /\ b = v /\ c = u /\ d = caps
  | _ => False
  end.
Definition is_then (h : nat) (pol : policy) (v : bool) (u : nat) (caps : list nat) : Prop :=
  match cl_api cl with
  | AFThen x _ a b c d | AFThenNew x a b c d => x = h /\ a = pol /\ b = v /\ c = u /\ d = caps
  | _ => False
  end.
Definition sframe (i : id) (f : frame) : Prop :=
  match f with
  | FAsync j pol v u caps => j = i /\ is_async pol v u caps
  | FThen h j pol v u caps => j = i /\ is_then h pol v u caps
  | _ => False
  end.
Definition mv (h : nat) (sh : bool) : list event := if sh then [] else [EvHnd t h false None].
(** A continuation of the state [p] made by this call. *)
Definition thenctx (i : id) (pol : policy) (h : nat) (v : bool) (u : nat) (caps : list nat) (p : sid) (sh : bool) (pre : list event) : Prop :=
  origin i pre /\ is_then h pol v u caps /\ sometime cl tr (fun m => fut_of h m = (sh, Some p)).
Definition tcb (i : id) (pol : policy) (q p : sid) (sh : bool) (u : nat) (caps : list nat) : callback := mkCb i pol (TPack q (BThen p sh u caps)).
Definition tbefore (h : nat) (p : sid) (sh : bool) (q : sid) (v : bool) (u : nat) (cb : callback) (pre : list event) : list event :=
  pre ++ mv h sh ++ [EvState t q v (PuFun u); EvAttach t p cb].
(** [k], the packaged function of the state [q], is to be launched after [B]. *)
Definition lctx (i : id) (pol : policy) (q : sid) (k : task) (B : list event) : Prop :=
  (exists pre v u caps, origin i pre /\ is_async pol v u caps /\ k = TPack q (BUser u caps) /\ B = pre ++ [EvState t q v (PuFun u)]) \/
  (exists pre h v u caps p sh, thenctx i pol h v u caps p sh pre /\ k = TPack q (BThen p sh u caps) /\
      does cl tr (EvAttach t p (tcb i pol q p sh u caps)) (is_ready p) /\
      B = tbefore h p sh q v u (tcb i pol q p sh u caps) pre ++ [EvFire t p (tcb i pol q p sh u caps)]).
Definition away (pol : policy) (j : id) : Prop := pol = LAsync \/ (pol = LOther /\ sometime cl tr (fun m => my_id t m <> j)).
Definition lost (j : id) : Prop := j = invalid_id \/ sometime cl tr (unknown j).
Definition here (pol : policy) (j : id) : Prop := pol = LOther /\ sometime cl tr (fun m => my_id t m = j).

Inductive lmid : frame -> list frame -> Prop :=
| l_spawn : forall k, acts [] -> isnew -> (forall n i, exists f, spresume n i k = [FRel i; FDetach n; f] /\ sframe i f) -> lmid (FSpawn BOnce k) []
| l_reg : forall k c, acts [EvSpawn t c] -> isnew -> (forall n i, exists f, spresume n i k = [FRel i; FDetach n; f] /\ sframe i f) -> lmid (FSpReg c k) []
| l_start : forall i f n ab, sframe i f -> origin i (cl_acts cl) -> ab = [] \/ (isnew /\ exists x, ab = x ++ [FDetach n] /\ shielded x) -> lmid f ab
(* then on an invalid future *)
| l_inval : forall h i pol v u caps pre, origin i pre -> is_then h pol v u caps -> acts pre -> sometime cl tr (fun m => snd (fut_of h m) = None) ->
    lmid (FThrow XNoState) [FDestroy [DTask (TUser u caps)]]
| l_inval1 : forall h i pol v u caps pre ab, origin i pre -> is_then h pol v u caps -> begins cl (pre ++ [EvDrop t (TUser u caps)]) -> caps <> [] ->
    sometime cl tr (fun m => snd (fut_of h m) = None) -> shielded ab -> lmid (FThrow XNoState) ab
| l_inval2 : forall h i pol v u caps pre ab, origin i pre -> is_then h pol v u caps -> acts (pre ++ [EvDrop t (TUser u caps)]) ->
    sometime cl tr (fun m => snd (fut_of h m) = None) -> ab = [FDestroy []] \/ ab = [] -> lmid (FThrow XNoState) ab
(* then *)
| l_then1 : forall i pol h v u caps p sh pre ab, thenctx i pol h v u caps p sh pre ->
    (ab = [] /\ acts (pre ++ mv h sh)) \/ (ab = [FHMove h] /\ sh = false /\ acts pre) -> lmid (FThen1 p sh i pol v u caps) ab
| l_then2 : forall i pol h v u caps p sh pre q, thenctx i pol h v u caps p sh pre -> acts (pre ++ mv h sh ++ [EvState t q v (PuFun u)]) ->
    lmid (FThen2 p (tcb i pol q p sh u caps) q) []
| l_later : forall i pol h v u caps p sh pre q, thenctx i pol h v u caps p sh pre ->
    acts (tbefore h p sh q v u (tcb i pol q p sh u caps) pre) -> does cl tr (EvAttach t p (tcb i pol q p sh u caps)) (fun m => ~ is_ready p m) ->
    lmid (FHnd false (Some q)) []
| l_fire : forall i pol h v u caps p sh pre q, thenctx i pol h v u caps p sh pre ->
    acts (tbefore h p sh q v u (tcb i pol q p sh u caps) pre) -> does cl tr (EvAttach t p (tcb i pol q p sh u caps)) (is_ready p) ->
    lmid (FFire1 p (tcb i pol q p sh u caps) (LkHnd q)) []
(* launching *)
| l_launch : forall i pol q k B, lctx i pol q k B -> acts B -> lmid (FLaunch i pol k (LkHnd q)) []
| l_launch1 : forall i pol q k B j, lctx i pol q k B -> acts B -> target t i j cl tr -> lmid (FLaunch1 j pol k (LkHnd q)) []
| l_invoke : forall i pol q k B j, lctx i pol q k B -> acts B -> target t i j cl tr -> away pol j -> lmid (FInvoke j k (LkHnd q)) []
| l_push : forall i pol q k B j, lctx i pol q k B -> acts B -> target t i j cl tr -> away pol j -> j <> invalid_id -> sometime cl tr (known j) ->
    lmid (FPush j k (LkHnd q)) []
| l_drop : forall i pol q k B j, lctx i pol q k B -> acts B -> target t i j cl tr -> away pol j -> lost j -> lmid (FHnd false (Some q)) [FDestroy [DTask k]]
| l_run : forall i pol q k B j, lctx i pol q k B -> acts B -> target t i j cl tr -> here pol j -> lmid (FHnd false (Some q)) [FRun k; FDestroy [DTask k]]
| l_run1 : forall i pol q k B j u a l ab, lctx i pol q k B -> acts (B ++ l) -> target t i j cl tr -> here pol j -> inline t k (l ++ [EvUser t u a (Some q)]) ->
    lmid (FHnd false (Some q)) (FUStart u a (UPack q) :: ab)
| l_done : forall i pol q k B ab, lctx i pol q k B -> launched t i pol k B cl tr -> lmid (FHnd false (Some q)) ab.
End Points.

Definition launch_sel (c : api) : bool :=
  match c with AAsync _ _ _ _ _ | AAsyncNew _ _ _ _ | AFThen _ _ _ _ _ _ | AFThenNew _ _ _ _ _ => true | _ => false end.

Lemma target_mono : forall t i j cl tr a l, target t i j cl tr -> target t i j (add_acts a cl) (tr ++ l).
Proof. intros t i j cl tr a l [[A B]|[A B]]; [left|right]; eauto with mono. Qed.
Lemma away_mono : forall t cl tr pol j a l, away t cl tr pol j -> away t (add_acts a cl) (tr ++ l) pol j.
Proof. intros t cl tr pol j a l [A|[A B]]; [left|right]; eauto with mono. Qed.
Lemma lost_mono : forall cl tr j a l, lost cl tr j -> lost (add_acts a cl) (tr ++ l) j.
Proof. intros cl tr j a l [A|A]; [left|right]; eauto with mono. Qed.
Lemma here_mono : forall t cl tr pol j a l, here t cl tr pol j -> here t (add_acts a cl) (tr ++ l) pol j.
Proof. intros t cl tr pol j a l [A B]. split; eauto with mono. Qed.
Lemma thenctx_mono : forall t cl tr i pol h v u caps p sh pre a l, thenctx t cl tr i pol h v u caps p sh pre -> thenctx t (add_acts a cl) (tr ++ l) i pol h v u caps p sh pre.
Proof. intros t cl tr i pol h v u caps p sh pre a l (A & B & C). split; [exact A|]. split; [exact B|]. eauto with mono. Qed.
Lemma lctx_mono : forall t cl tr i pol q k B a l, lctx t cl tr i pol q k B -> lctx t (add_acts a cl) (tr ++ l) i pol q k B.
Proof.
  intros t cl tr i pol q k B a l [H|(pre & h & v & u & caps & p & sh & A & C & D & E)]; [left; exact H|right].
  exists pre, h, v, u, caps, p, sh. split; [now apply thenctx_mono|]. split; auto. split; auto. now apply do_mono.
Qed.
Lemma launched_mono : forall t i pol k B cl tr a l, launched t i pol k B cl tr -> launched t i pol k B (add_acts a cl) (tr ++ l).
Proof.
  intros t i pol k B cl tr a l (j & T & H). exists j. split; [now apply target_mono|].
  destruct H as [(A & C & x & D & E)|[A H]]; [left|right].
  - split; auto. split; [eauto with mono|]. exists x. eauto with mono.
  - split; [destruct A as [A|[A C]]; eauto with mono|]. destruct H as [(C & D & E)|([C|C] & D)]; [left|right|right]; unfold queued, refused; eauto 6 with mono.
Qed.
Lemma target_tr : forall t i j cl tr l, target t i j cl tr -> target t i j cl (tr ++ l).
Proof. intros t i j cl tr l H. rewrite <- (add_acts_nil cl). now apply target_mono. Qed.
Lemma away_tr : forall t cl tr pol j l, away t cl tr pol j -> away t cl (tr ++ l) pol j.
Proof. intros t cl tr pol j l H. rewrite <- (add_acts_nil cl). now apply away_mono. Qed.
Lemma lost_tr : forall cl tr j l, lost cl tr j -> lost cl (tr ++ l) j.
Proof. intros cl tr j l H. rewrite <- (add_acts_nil cl). now apply lost_mono. Qed.
Lemma here_tr : forall t cl tr pol j l, here t cl tr pol j -> here t cl (tr ++ l) pol j.
Proof. intros t cl tr pol j l H. rewrite <- (add_acts_nil cl). now apply here_mono. Qed.
Lemma thenctx_tr : forall t cl tr i pol h v u caps p sh pre l, thenctx t cl tr i pol h v u caps p sh pre -> thenctx t cl (tr ++ l) i pol h v u caps p sh pre.
Proof. intros. rewrite <- (add_acts_nil cl). now apply thenctx_mono. Qed.
Lemma lctx_tr : forall t cl tr i pol q k B l, lctx t cl tr i pol q k B -> lctx t cl (tr ++ l) i pol q k B.
Proof. intros. rewrite <- (add_acts_nil cl). now apply lctx_mono. Qed.
Lemma launched_tr : forall t i pol k B cl tr l, launched t i pol k B cl tr -> launched t i pol k B cl (tr ++ l).
Proof. intros. rewrite <- (add_acts_nil cl). now apply launched_mono. Qed.
#[local] Hint Resolve target_mono away_mono lost_mono here_mono thenctx_mono lctx_mono launched_mono
  target_tr away_tr lost_tr here_tr thenctx_tr lctx_tr launched_tr : mono.

Lemma lmid_tr : forall t cl tr l f ab, lmid t cl tr f ab -> lmid t cl (tr ++ l) f ab.
Proof.
  intros t cl tr l f ab M. destruct M.
  - eapply l_spawn; eauto.
  - eapply l_reg; eauto.
  - eapply l_start; eauto.
  - eapply l_inval; eauto with mono.
  - eapply l_inval1; eauto with mono.
  - eapply l_inval2; eauto with mono.
  - eapply l_then1; eauto with mono.
  - eapply l_then2; eauto with mono.
  - eapply l_later; eauto with mono.
  - eapply l_fire; eauto with mono.
  - eapply l_launch; eauto with mono.
  - eapply l_launch1; eauto with mono.
  - eapply l_invoke; eauto with mono.
  - eapply l_push; eauto with mono.
  - eapply l_drop; eauto with mono.
  - eapply l_run; eauto with mono.
  - eapply l_run1; eauto with mono.
  - eapply l_done; eauto with mono.
Qed.

Definition lpost := launch_contract.
(** The result, once the launch is settled. *)
Lemma then_post : forall t cl tr h i pol v u caps pre r, origin t cl i pre -> is_then cl h pol v u caps -> then_spec t h i pol v u caps pre cl tr r -> launch_contract t cl tr r.
Proof.
  intros t cl tr h i pol v u caps pre r O T H. unfold launch_contract, origin, is_then in *. destruct (cl_api cl); try contradiction.
  - destruct T as (-> & -> & -> & -> & ->). destruct O as [-> ->]. exact H.
  - destruct T as (-> & -> & -> & -> & ->). now exists i, pre.
Qed.
Lemma async_post : forall t cl tr i pol v u caps pre r, origin t cl i pre -> is_async cl pol v u caps -> async_spec t i pol v u caps pre cl tr r -> launch_contract t cl tr r.
Proof.
  intros t cl tr i pol v u caps pre r O T H. unfold launch_contract, origin, is_async in *. destruct (cl_api cl); try contradiction.
  - destruct T as (-> & -> & -> & ->). destruct O as [-> ->]. exact H.
  - destruct T as (-> & -> & -> & ->). now exists i, pre.
Qed.
Lemma launched_begins : forall t i pol k B cl tr, launched t i pol k B cl tr -> begins cl B.
Proof.
  intros t i pol k B cl tr (j & _ & [(_ & _ & l & _ & r & E)|[_ [(_ & _ & r & E)|(_ & r & E)]]]); rewrite <- app_assoc in E; eexists; exact E.
Qed.
Lemma gives_of : forall t q B cl n, begins cl B -> gives t q B (add_acts [EvHnd t n false (Some q)] cl) (RHnd n).
Proof. intros t q B cl n [l E]. exists n, l. split; auto. cbn. rewrite E. now rewrite <- app_assoc. Qed.

Lemma lctx_post : forall t cl tr i pol q k B n, lctx t cl tr i pol q k B -> launched t i pol k B cl tr ->
  launch_contract t (add_acts [EvHnd t n false (Some q)] cl) (tr ++ [EvHnd t n false (Some q)]) (RHnd n).
Proof.
  intros t cl tr i pol q k B n [(pre & v & u & caps & O & A & -> & ->)|(pre & h & v & u & caps & p & sh & (O & A & F) & -> & D & ->)] L.
  - eapply async_post; [exact O|exact A|]. exists q. split; [|now apply launched_mono]. apply gives_of. eapply launched_begins; eauto.
  - eapply then_post; [exact O|exact A|]. right. exists p, sh, q. split; [fact|]. cbv zeta. split.
    + apply gives_of. apply launched_begins in L. destruct L as [r E]. rewrite <- app_assoc in E. eexists. exact E.
    + right. split; [fact|]. split; [|now apply launched_mono]. apply bg_mono. eapply launched_begins; eauto.
Qed.

Lemma lmid_start : forall t c pre, launch_sel c = true -> newbot launch_contract lmid t (mkCall c pre []) (pre ++ [EvCall t c]) (api_frames c).
Proof.
  intros t c pre S. destruct c; try discriminate S; unfold newbot; cbn [api_frames rev app]; left.
  - eapply l_start with (i := i) (n := 0); [cbn; repeat split|cbn; auto|now left].
  - apply l_spawn; [reflexivity|exact Logic.I|]. intros n i. eexists. split; [reflexivity|]. cbn. repeat split.
  - eapply l_start with (i := i) (n := 0); [cbn; repeat split|cbn; auto|now left].
  - apply l_spawn; [reflexivity|exact Logic.I|]. intros n i. eexists. split; [reflexivity|]. cbn. repeat split.
Qed.
Lemma launch_tr : forall t cl tr l r, launch_contract t cl tr r -> launch_contract t cl (tr ++ l) r.
Proof.
  assert (Th : forall t h i pol v u caps pre cl tr l r, then_spec t h i pol v u caps pre cl tr r -> then_spec t h i pol v u caps pre cl (tr ++ l) r).
  { intros t h i pol v u caps pre cl tr l r [(A & B & C)|(p & sh & q & A & B & C)]; [left; eauto with mono|right].
    exists p, sh, q. split; [eauto with mono|]. cbv zeta in *. split; auto. destruct C as [[C D]|(C & D & E)]; [left|right]; eauto with mono. }
  assert (As : forall t i pol v u caps pre cl tr l r, async_spec t i pol v u caps pre cl tr r -> async_spec t i pol v u caps pre cl (tr ++ l) r).
  { intros t i pol v u caps pre cl tr l r (q & A & B). exists q. eauto with mono. }
  intros t cl tr l r. unfold launch_contract. destruct (cl_api cl); auto.
  - intros (i & pre & W & H). exists i, pre. auto.
  - intros (i & pre & W & H). exists i, pre. auto.
Qed.

Lemma lmid_user : forall t cl tr f ab, lmid t cl tr f ab -> match f with FUser _ _ => False | FThrow e => ab = [] -> launch_contract t cl tr (RExn e) | _ => True end.
Proof.
  intros t cl tr f ab M. destruct M; auto.
  - destruct f; auto; contradiction.
  - discriminate.
  - intros _. eapply then_post; [exact H|exact H0|]. left. split; auto. split; auto. split; auto. cbn. destruct caps; [contradiction|discriminate].
  - intros _. eapply then_post; [exact H|exact H0|]. left. split; auto. split; auto. split; [now apply bg_all|auto].
Qed.

Ltac act0 := first [act | cbn; now rewrite ?app_nil_r].
Lemma lmid_code : forall s t cl f inp h n, reachable s -> launch_sel (cl_api cl) = true -> incall t cl (trace s) -> (exists cs, open_calls t (trace s) = cl :: cs) ->
  (exists rest, stk s t = f :: FApi (cl_api cl) :: rest) ->
  runs (code f) (hp s) t inp h n -> lmid t cl (trace s) f [] ->
  newbot launch_contract lmid t (add_acts (new_acts t (hp s) h) cl) (tr_of h) (next_frames n).
Proof.
  intros s t cl f inp h n R S C Op (rest & ST) Ru M.
  pose proof (fun o => replay_hnds o _ R) as Eh. pose proof (fun p => replay_ready p s R) as Er.
  pose proof (rd_unknown _ R) as Eun. pose proof (rd_known _ R) as Ekn. pose proof (fun u => rd_myid _ R u) as Emy.
  remember [] as ab eqn:Eab. destruct M; subst; try discriminate Eab.
  - assert (N : k <> SpStd) by (intros ->; destruct (H1 0 0) as (g & E & _); discriminate E).
    code_cases Ru; stepinfo A; unfold newbot; cbn [next_frames rev app]; try contradiction; left; (eapply l_reg; [act|exact H0|exact H1]).
  - code_cases Ru; stepinfo A; unfold newbot; cbn [next_frames rev app].
    all: match goal with |- context [spresume ?c0 ?i0 ?k0] => destruct (H1 c0 i0) as (g & E & Sf); rewrite E; cbn [rev app]; left;
           (apply l_start with (i := i0) (n := c0); [exact Sf| |right; split; [exact H0|exists [FRel i0]; split; [reflexivity|reflexivity]]]) end.
    all: unfold isnew, origin in *; cbn [add_acts cl_api cl_acts]; rewrite H; destruct (cl_api cl); try contradiction; unfold worker; cbn [app]; eauto.
  - destruct f; try contradiction; destruct H as [-> T].
    + code_cases Ru. stepinfo A. unfold newbot. cbn [next_frames rev app]. destruct (h_hnds (hp s) h0) as [sh [p|]] eqn:E; rewrite Eh in E; [destruct sh|]; cbn [rev app].
      * left. apply l_then1 with (h := h0) (pre := cl_acts cl); [split; [exact H0|split; [exact T|fact]]|left]. split; [reflexivity|]. cbn. now rewrite ?app_nil_r.
      * left. apply l_then1 with (h := h0) (pre := cl_acts cl); [split; [exact H0|split; [exact T|fact]]|right]. split; [reflexivity|]. split; [reflexivity|]. cbn. now rewrite ?app_nil_r.
      * replace (if sh then destroy [TUser u caps] ++ [FThrow XNoState] else destroy [TUser u caps] ++ [FThrow XNoState]) with (destroy [TUser u caps] ++ [FThrow XNoState]) by now destruct sh.
        left. eapply l_inval with (pre := cl_acts cl); [exact H0|exact T|cbn; now rewrite ?app_nil_r|]. eapply st_now; eauto. now rewrite E.
    + code_cases Ru. stepinfo A. unfold newbot. cbn [next_frames rev app]. left.
      apply l_launch with (i := i) (B := cl_acts cl ++ [EvState t (h_nfs (hp s)) v (PuFun u)]); [|reflexivity]. left. exists (cl_acts cl), v, u, caps. split; [exact H0|]. split; [exact T|]. auto.
  - destruct Ru.
  - destruct Ru.
  - destruct H0 as [[_ H0]|[N _]]; [|discriminate N]. code_cases Ru; stepinfo A; unfold newbot; cbn [next_frames rev app]. left.
    eapply l_then2 with (sh := sh); [fact|]. cbn. rewrite H0. now rewrite <- !app_assoc.
  - code_cases Ru; stepinfo A; unfold newbot; cbn [next_frames rev app].
    + left. eapply l_fire; [fact| |eapply do_now; eauto; specialize (Er p); unfold is_ready; destruct (outcome_of p (trace s)); congruence]. unfold tbefore. cbn. rewrite H0. now rewrite <- !app_assoc.
    + left. eapply l_later; [fact| |eapply do_now; eauto; specialize (Er p); unfold is_ready; destruct (outcome_of p (trace s)); congruence]. unfold tbefore. cbn. rewrite H0. now rewrite <- !app_assoc.
  - code_cases Ru; stepinfo A; unfold newbot; cbn [next_frames rev app]. right. left. split; [reflexivity|].
    destruct H as (O & T & F). eapply then_post; [exact O|exact T|]. right. exists p, sh, q. split; [fact|]. cbv zeta. split.
    + apply gives_of. apply bg_all. rewrite H0. reflexivity.
    + left. split; [fact|]. eexists. cbn. rewrite H0. reflexivity.
  - code_cases Ru; stepinfo A; unfold newbot; cbn [next_frames rev app]. left. cbn [cb_id cb_pol cb_task tcb].
    eapply l_launch with (B := tbefore t h0 p sh q v u (tcb i pol q p sh u caps) pre ++ [EvFire t p (tcb i pol q p sh u caps)]); [|cbn; now rewrite H0].
    right. exists pre, h0, v, u, caps, p, sh. split; [fact|]. split; [reflexivity|]. split; [fact|reflexivity].
  - cbn [code] in Ru. destruct (Nat.eqb_spec i caller_id).
    + code_cases Ru; stepinfo A; unfold newbot; cbn [next_frames rev app]; specialize (Emy t).
      all: repeat match goal with H : h_loc _ _ = _ |- _ => rewrite H in Emy end.
      all: left; (eapply l_launch1; [fact|act0|]); left; (split; [auto|]); (eapply st_now; [eassumption|]); cbv beta; congruence.
    + code_cases Ru; stepinfo A; unfold newbot; cbn [next_frames rev app]. left. eapply l_launch1; [fact|act0|]. right. auto.
  - destruct pol.
    + code_cases Ru; stepinfo A; unfold newbot; cbn [next_frames rev app]. left. eapply l_invoke; [fact|act0|fact|now left].
    + code_cases Ru; stepinfo A; unfold newbot; cbn [next_frames rev app]; specialize (Emy t).
      all: repeat match goal with H : h_loc _ _ = _ |- _ => rewrite H in Emy end.
      all: match goal with |- context [?a =? ?b] => destruct (Nat.eqb_spec a b) end; cbn [lresume destroy map rev app].
      all: try (left; eapply l_run with (pol := LOther); [fact|act0|fact|]; split; [auto|]; (eapply st_now; [eassumption|]); cbv beta; congruence).
      all: left; (eapply l_invoke; [fact|act0|fact|]); right; (split; [auto|]); (eapply st_now; [eassumption|]); cbv beta; congruence.
  - assert (Nk : task_null k = false) by (destruct H as [(? & ? & ? & ? & _ & _ & -> & _)|(? & ? & ? & ? & ? & ? & ? & _ & -> & _)]; reflexivity).
    cbn [code] in Ru. rewrite Nk in Ru. cbn [orb] in Ru. destruct (Nat.eqb_spec j invalid_id).
    + code_cases Ru; stepinfo A; unfold newbot; cbn [next_frames lresume destroy map rev app]. left. eapply l_drop; [fact|act0|fact|fact|now left].
    + code_cases Ru; stepinfo A; unfold newbot; cbn [next_frames lresume destroy map rev app].
      * left. eapply l_push; [fact|act0|fact|fact|auto|]. fact.
      * left. eapply l_drop; [fact|act0|fact|fact|]. right. fact.
  - code_cases Ru; stepinfo A; unfold newbot; cbn [next_frames lresume destroy map rev app]. left. eapply l_done; [fact|].
    exists j. split; [fact|]. right. split; [apply away_mono; exact H2|]. left. split; auto. split; [fact|]. apply bg_add; reflexivity.
  - code_cases Ru; stepinfo A; unfold newbot; cbn [next_frames rev app]. right. left. split; [reflexivity|]. eapply lctx_post; eauto.
Qed.

Lemma lmid_throw : forall s t cl f e inp h n, reachable s -> launch_sel (cl_api cl) = true -> incall t cl (trace s) -> (exists cs, open_calls t (trace s) = cl :: cs) ->
  runs (catch f e) (hp s) t inp h n -> lmid t cl (trace s) f [FThrow e] ->
  newbot launch_contract lmid t (add_acts (new_acts t (hp s) h) cl) (tr_of h) (next_frames n).
Proof.
  intros s t cl f e inp h n R S C Op Ru M. remember [FThrow e] as ab eqn:Eab. destruct M; try discriminate Eab; subst; try destruct Ru.
  destruct H1 as [N|(_ & x & N & _)]; [discriminate N|]. destruct x as [|? []]; discriminate N.
Qed.

Ltac runT T := inversion T; subst; match goal with H : runs _ _ _ _ _ _ |- _ => rename H into Ru end.
Lemma lmid_above : forall s t cl f above r h n, reachable s -> launch_sel (cl_api cl) = true -> incall t cl (trace s) -> (exists cs, open_calls t (trace s) = cl :: cs) ->
  (exists rest, stk s t = above ++ f :: FApi (cl_api cl) :: rest) ->
  (exists es, tr_of h = trace s ++ es) ->
  top_step (hp s) t h n above r -> lmid t cl (trace s) f above ->
  lmid t (add_acts (new_acts t (hp s) h) cl) (tr_of h) f (next_frames n ++ r).
Proof.
  intros s t cl f above r h n R S C Op (rest & ST) Etr T M.
  destruct M; try solve [inversion T].
  - destruct H1 as [->|(N & x & -> & Sh)]; [inversion T|].
    assert (O : origin t (add_acts (new_acts t (hp s) h) cl) i (cl_acts (add_acts (new_acts t (hp s) h) cl))).
    { unfold origin, isnew in *. cbn [add_acts cl_api cl_acts]. destruct (cl_api cl); try contradiction.
      all: destruct H0 as (c & ff & l & E); rewrite E; cbn [app]; unfold worker; eauto. }
    destruct x as [|y x].
    + cbn [app] in T. runT T. code_cases Ru. cbn [next_frames app]. eapply l_start with (n := n0); [exact H|exact O|now left].
    + apply top_split in T; [|discriminate|exact Sh]. destruct T as (r' & -> & T). rewrite app_assoc.
      eapply l_start with (n := n0); [exact H|exact O|right]. split; [exact N|]. eexists. split; [reflexivity|]. eapply shield_above; eauto.
  - runT T. code_cases Ru; stepinfo A; cbn [next_frames app]. destruct caps as [|x caps].
    + eapply l_inval2; [exact H|exact H0|act0|fact|now left].
    + eapply l_inval1; [exact H|exact H0|(apply bg_add; first [assumption|reflexivity])|discriminate|fact|reflexivity].
  - destruct Etr as [es ->]. eapply l_inval1; [exact H|exact H0|fact|assumption|fact|]. eapply shield_above; eauto.
  - destruct H3 as [-> | ->]; [|inversion T]. runT T. code_cases Ru; stepinfo A; cbn [next_frames app].
    eapply l_inval2; [exact H|exact H0|act0|fact|now right].
  - destruct H0 as [[-> _]|(-> & -> & Ac)]; [inversion T|]. runT T. pose proof H as (_ & _ & (m & (a & b & Em & Ed) & F)).
    assert (K : fst (fut_of h0 (trace s)) = false).
    { rewrite (fut_kind s h0 m b R Ed); [now rewrite F|]. apply (fut_used _ p). now rewrite F. }
    pose proof (replay_hnds h0 _ R) as Eh.
    code_cases Ru; stepinfo A; cbn [next_frames app].
    all: eapply l_then1; [fact|left; split; [reflexivity|]]; cbn; try rewrite Ac; cbn [mv]; repeat f_equal; congruence.
  - runT T. code_cases Ru; stepinfo A; cbn [next_frames app];
      (eapply l_done; [fact|]); exists j; (split; [fact|]); right; (split; [now apply away_mono|]); right; (split; [now apply lost_mono|]); (apply bg_add; first [assumption|reflexivity]).
  - rename H0 into HB. runT T. destruct H as [(pre & v & u & caps & O & As & -> & EB)|(pre & h0 & v & u & caps & p & sh & Th & -> & D & EB)].
    + code_cases Ru; stepinfo A; cbn [next_frames app]. eapply l_run1 with (i := i) (pol := pol) (j := j) (l := []) (k := TPack q (BUser u caps)) (B := cl_acts cl); [left; exists pre, v, u, caps; split; [exact O|split; [exact As|auto]]|cbn; now rewrite ?app_nil_r|fact|now apply here_mono|reflexivity].
    + code_cases Ru; stepinfo A; cbn [next_frames app].
      eapply l_run1 with (i := i) (pol := pol) (j := j) (k := TPack q (BThen p sh u caps)) (B := cl_acts cl) (l := [EvHnd t (h_nhnd (hp s)) sh (Some p)]);
        [right; exists pre, h0, v, u, caps, p, sh; split; [fact|split; [reflexivity|split; [fact|auto]]]|cbn; rewrite ?H0; now rewrite ?app_nil_r|fact|now apply here_mono|].
      cbn [inline app]. eexists. reflexivity.
  - runT T. code_cases Ru; stepinfo A; cbn [next_frames app]. eapply l_done; [fact|]. exists j. split; [fact|]. left.
    destruct H2 as [E Hs]. split; [exact E|]. split; [fact|]. eexists. split; [exact H3|]. apply bg_all. cbn. rewrite ?H0. now rewrite <- ?app_assoc.
  - destruct Etr as [es ->]. eapply l_done; fact.
Qed.

Theorem launch_calls : forall s, reachable s ->
  each_return (fun t cl tr r => launch_sel (cl_api cl) = true -> launch_contract t cl tr r) (trace s).
Proof.
  apply res_rule with (mid := lmid).
  - apply lmid_start.
  - intros. now apply launch_tr.
  - intros. now apply lmid_tr.
  - apply lmid_user.
  - apply lmid_code.
  - apply lmid_throw.
  - apply lmid_above.
  - intros t cl tr r M. remember (FRes r) as f eqn:Ef. destruct M; try discriminate Ef. subst f. contradiction.
Qed.
