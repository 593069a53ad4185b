(** * InvUb: what a program must have done before its behaviour becomes undefined. *)
From Verif Require Import Types Core State Ops Code Machine Base Spec SpecApi SpecUb Rules Events InvCtx InvStack InvRefs
  Calls Contract ContractLib Adj Replay ReplayObj InvAff InvFill InvTop InvSleep InvLock Own SpecOwn OwnProm SemWait InvGuard InvKind InvTab InvCv.

Section Ok.
Variable t : tid.
Variable cl : call.
Variable tr : list event.
Notation c := (cl_api cl).
Definition hadst (h : nat) : Prop := c = AFGet h /\ sometime cl tr (fun m => snd (fut_of h m) <> None).
Definition gok (g : gk) : Prop := match g with GGet h => hadst h | _ => True end.
Definition semok (l : option lockid) (k : semk) : Prop :=
  (forall m, l = Some (LUser m) -> match c with ACvWait _ m' | ACvWaitFor _ m' _ => m' = m | _ => False end) /\ match k with KState _ _ g => gok g | _ => True end.
Definition wkok (k : wk) : Prop := match k with WSem _ l _ _ _ k => semok l k | _ => True end.
Definition rok (l : list nat) : Prop := exists hs, inputs c = Some hs /\ incl l hs.
Definition wrok (r : wrest) : Prop := match r with WrH l => rok l | _ => True end.
Definition lkok (k : lk) : Prop := match k with LkWhen _ _ _ _ r => wrok r | _ => True end.
Definition procs : Prop := match c with AProcess | AProcessFor _ => True | _ => False end.
Definition atok (i : id) : Prop := procs /\ sometime cl tr (fun m => attached t m = Some i).
Definition ubok (u : ub) : Prop :=
  match u with
  | UbUnlock _ => False
  | UbNullState => exists h, c = AFGet h /\
      sometime cl tr (fun m => snd (fut_of h m) = None /\ sometime cl m (fun m' => snd (fut_of h m') <> None))
  | UbNullPool o => on_pool o c /\ sometime cl tr (fun m => pool_of o m = None)
  | UbPrecondition => match c with
      | AThread o _ | AThMove o _ => sometime cl tr (fun m => fst (thobj_of o m) <> None)
      | AFShare h => sometime cl tr (fun m => fst (fut_of h m) = true)
      | AFCopy h => sometime cl tr (fun m => fst (fut_of h m) = false)
      | _ => False
      end
  | _ => False
  end.
Definition uok (f : frame) : Prop :=
  match f with
  | FUb u => ubok u
  | FUUnlock m => c = AUUnlock m
  | FULock m => c = AULock m
  | FSem _ l _ k | FSemId _ l _ k | FSemAdd _ l _ _ k | FSemTok _ l _ _ _ _ k | FSemExit _ l _ _ _ _ k | FSemGo _ l _ _ _ k
  | FSemRe _ l _ _ _ _ k | FSemNow _ l _ _ _ _ k | FSemRem _ l _ _ k => semok l k
  | FWaitFor _ k | FWait _ k | FWait1 _ _ k | FSleep _ _ k => wkok k
  | FSt _ _ g | FStW1 _ _ g | FStW2 _ _ g | FStEnd _ _ g => gok g
  | FGet h => c = AFGet h
  | FGet2 h => hadst h
  | FPApi o _ | FJob _ o _ => on_pool o c
  | FThNew o b => c = AThread o b
  | FThMove d s => c = AThMove d s
  | FHShare h => c = AFShare h
  | FHCopy h => c = AFCopy h
  | FPAssign d s => c = APAssign d s
  | FPAssign1 d _ => exists s, c = APAssign d s
  | FHFrom sh p => c = AFFromVal p sh
  | FWhen _ hs | FWId _ _ hs => rok hs
  | FWFillAll _ _ _ todo _ => rok todo
  | FWEach _ _ _ _ r | FWThen _ _ _ _ _ _ r | FWPack _ _ _ _ _ r | FWAtt _ _ _ _ _ _ r | FWProc _ _ _ _ r => wrok r
  | FInvoke _ _ k | FPush _ _ k | FLaunch1 _ _ _ k | FLaunch _ _ _ k | FFire1 _ _ k => lkok k
  | FDisp i k x => lkok x /\ (k = TConfig -> x = LkUser -> c = ASetConfig i)
  | FPool o lvs => c = APool o lvs
  | FPoolEnd o _ => exists lvs, c = APool o lvs
  | FProcess | FProcessFor _ => procs
  | FProc i | FPf0 i _ | FPf i _ _ | FPfNow i _ => atok i
  | _ => True
  end.
End Ok.

Lemma hadst_mono : forall cl tr l a h, hadst cl tr h -> hadst (add_acts a cl) (tr ++ l) h.
Proof. intros cl tr l a h [H1 H2]. split; [exact H1|]. now apply st_mono. Qed.
Lemma gok_mono : forall cl tr l a g, gok cl tr g -> gok (add_acts a cl) (tr ++ l) g.
Proof. intros cl tr l a []; cbn; auto. apply hadst_mono. Qed.
Lemma semok_mono : forall cl tr l a x k, semok cl tr x k -> semok (add_acts a cl) (tr ++ l) x k.
Proof. intros cl tr l a x k [H1 H2]. split; [exact H1|]. destruct k; auto. now apply gok_mono. Qed.
Lemma wkok_mono : forall cl tr l a k, wkok cl tr k -> wkok (add_acts a cl) (tr ++ l) k.
Proof. intros cl tr l a []; cbn; auto. apply semok_mono. Qed.
Lemma atok_mono : forall t cl tr l a i, atok t cl tr i -> atok t (add_acts a cl) (tr ++ l) i.
Proof. intros t cl tr l a i [H1 H2]. split; [exact H1|]. now apply st_mono. Qed.
Lemma st2_mono : forall cl tr l a (P Q : list event -> Prop), sometime cl tr (fun m => P m /\ sometime cl m Q) ->
  sometime (add_acts a cl) (tr ++ l) (fun m => P m /\ sometime (add_acts a cl) m Q).
Proof. intros. apply st_mono. eapply st_imp; [|exact H]. intros m [H1 H2]. split; auto. Qed.
Lemma ubok_mono : forall cl tr l a u, ubok cl tr u -> ubok (add_acts a cl) (tr ++ l) u.
Proof.
  intros cl tr l a []; cbn [ubok]; auto.
  - intros (h & H1 & H2). exists h. split; [exact H1|]. apply (st2_mono cl tr l a (fun m => snd (fut_of h m) = None) (fun m => snd (fut_of h m) <> None)). exact H2.
  - intros [H1 H2]. split; [exact H1|]. now apply st_mono.
  - change (cl_api (add_acts a cl)) with (cl_api cl). destruct (cl_api cl); auto; apply st_mono.
Qed.
Lemma uok_mono : forall t cl tr l a f, uok t cl tr f -> uok t (add_acts a cl) (tr ++ l) f.
Proof.
  intros t cl tr l a f H. destruct f; try exact H; cbn [uok] in *; auto using hadst_mono, gok_mono, semok_mono, wkok_mono, atok_mono, ubok_mono.
Qed.
Lemma acts_nil : forall cl, add_acts [] cl = cl.
Proof. intros []. unfold add_acts. cbn. now rewrite app_nil_r. Qed.
Lemma uok_tr : forall t cl tr l f, uok t cl tr f -> uok t cl (tr ++ l) f.
Proof. intros t cl tr l f H. apply (uok_mono t cl tr l []) in H. now rewrite acts_nil in H. Qed.
Lemma uok_start : forall t c pre, Forall (uok t (mkCall c pre []) (pre ++ [EvCall t c])) (api_frames c).
Proof.
  intros t c pre. destruct c; cbn; repeat constructor; cbn; auto; try discriminate; try (intros m0 X; now injection X).
  all: try (eexists; split; [reflexivity|]; unfold incl; auto).
Qed.
Ltac fu := repeat first [apply Forall_nil|apply Forall_cons]; cbn; auto.
Lemma wkok_wresume : forall t cl tr k b, wkok cl tr k -> Forall (uok t cl tr) (wresume k b).
Proof. intros t cl tr k b H. destruct k; cbn [wresume]; fu. Qed.
Lemma gok_gresume : forall t cl tr g f, gok cl tr g -> Forall (uok t cl tr) (gresume g f).
Proof. intros t cl tr g f H. destruct g; cbn [gresume]; fu. Qed.
Lemma semok_resume : forall t cl tr l k b, semok cl tr l k -> Forall (uok t cl tr) (semresume k b).
Proof. intros t cl tr l k b [_ H]. destruct k; cbn [semresume]; try (destruct dur; [destruct b|]); fu. Qed.
Lemma destroy_uok : forall t cl tr l, Forall (uok t cl tr) (destroy l).
Proof. intros t cl tr [|k l]; cbn; repeat constructor. Qed.
Lemma lkok_resume : forall t cl tr k b o, lkok cl k -> Forall (uok t cl tr) (lresume k b o).
Proof. intros t cl tr k b o H. destruct k; cbn [lresume]; try (apply Forall_app; split; [apply destroy_uok|]); fu; auto using destroy_uok. Qed.
Lemma sp_uok : forall t cl tr n i k, Forall (uok t cl tr) (spresume n i k).
Proof. intros t cl tr n i k. destruct k; cbn [spresume]; repeat constructor; discriminate. Qed.
Lemma pact_uok : forall t cl tr o pl a, Forall (uok t cl tr) (pact_frames o pl a).
Proof. intros t cl tr o pl a. destruct a; cbn [pact_frames]; repeat constructor. Qed.
Lemma uok_step : forall s t cl pre r h n, reachable s -> lstep (hp s) t pre h n -> incall t cl (trace s) ->
  (forall c, h <> emit (hp s) (EvCall t c)) ->
  Forall (uok t cl (trace s)) (pre ++ r) -> Forall (uok t (add_acts (new_acts t (hp s) h) cl) (tr_of h)) (next_frames n ++ r).
Proof.
  intros s t cl pre r h n R L C NC F. apply Forall_app in F as [Fp Fr]. destruct (lstep_trl _ _ _ _ _ L) as [l El].
  set (cl' := add_acts (new_acts t (hp s) h) cl). assert (Mo : forall f, uok t cl (trace s) f -> uok t cl' (tr_of h) f) by (intros f; rewrite El; apply uok_mono).
  apply Forall_app. split; [|eapply Forall_impl; [|exact Fr]; exact Mo].
  assert (Now : forall P : list event -> Prop, P (trace s) -> sometime cl' (tr_of h) P) by (intros P HP; rewrite El; now apply (st_now t)).
  assert (Nw2 : forall P Q : list event -> Prop, P (trace s) -> sometime cl (trace s) Q -> sometime cl' (tr_of h) (fun m => P m /\ sometime cl' m Q)) by (intros P Q HP HQ; apply Now; auto).
  assert (Fp' : Forall (uok t cl' (tr_of h)) pre) by (eapply Forall_impl; [|exact Fp]; exact Mo).
  assert (Ec : cl_api cl' = cl_api cl) by reflexivity. assert (Md : rok cl' = rok cl) by reflexivity.
  lstep_cases L; cbn [next_frames].
  all: try (now destruct (NC c)).
  all: inversion Fp' as [|? ? F1 _]; subst; inversion Fp as [|? ? G1 _]; subst; clear Fp Fp'; cbn [uok] in F1, G1; try match type of F1 with lkok _ _ /\ _ => destruct F1 as [F1 _] end.
  all: repeat match goal with |- context [match ?x with _ => _ end] => destruct x eqn:? end.
  all: unfold run_one; repeat first [apply Forall_nil|apply Forall_app; split|apply Forall_cons|apply destroy_uok|apply sp_uok|apply pact_uok|apply wkok_wresume; assumption|apply gok_gresume; assumption|eapply semok_resume; eassumption|apply lkok_resume; assumption].
  all: try exact I.
  all: cbn [uok wkok gok semok lkok wrok]; auto.
  all: try (split; [first [exact I|assumption]|intros; discriminate]).
  all: try (destruct fin; cbn; repeat constructor; fail).
  1, 2: cbn [atom] in A; injection A as <- Ex; split; [exact F1|]; apply Now; rewrite <- (rd_loc s R t); exact Ex.
  1, 2: cbn [atom] in A; injection A as <- Ex; cbn [ubok]; rewrite Ec, G1; apply Now; rewrite <- (replay_tobj _ s R), Ex; congruence.
  1, 2: split; [discriminate|auto].
  - cbn [atom] in A; injection A as <- Ex. split; [exact F1|]. apply Now. rewrite <- (replay_hnds _ s R), Ex. congruence.
  - cbn [atom] in A; injection A as <- Ex. destruct G1 as [G1 G2]. exists h. split; [exact G1|]. apply (Nw2 (fun m => snd (fut_of h m) = None)); auto. rewrite <- (replay_hnds _ s R), Ex. reflexivity.
  - cbn [atom] in A; injection A as <- Ex. destruct G1 as [G1 G2]. exists h. split; [exact G1|]. apply (Nw2 (fun m => snd (fut_of h m) = None)); auto. rewrite <- (replay_hnds _ s R), Ex. reflexivity.
  - eauto.
  - op_unfold A. injection A as <- Ex. cbn [ubok]. rewrite Ec, G1. apply Now. rewrite <- (replay_hnds _ s R), Ex. assumption.
  - op_unfold A. injection A as <- Ex. cbn [ubok]. rewrite Ec, G1. apply Now. rewrite <- (replay_hnds _ s R), Ex. assumption.
  - destruct F1 as (hs & H1 & H2). exists hs. split; [exact H1|]. intros y Hy. apply H2. now right.
  - destruct F1 as (hs & H1 & H2). exists hs. split; [exact H1|]. intros y Hy. apply H2. now right.
  - destruct a; fu.
  - eauto.
  - cbn [atom] in A; injection A as <- Ex. split; [exact F1|]. apply Now. rewrite <- (replay_pobj s R), Ex. assumption.
Qed.
Theorem uok_reachable : forall s, reachable s -> forall t,
  lnk (fun cl seg => incall t cl (trace s) /\ Forall (uok t cl (trace s)) seg) (stk s t) (open_calls t (trace s)).
Proof.
  apply (bot_rule (fun t cl tr seg => Forall (uok t cl tr) seg)).
  - intros s t c pre _ _. apply uok_start.
  - intros t cl tr tr' seg _ F (s & l & _ & _ & -> & _). eapply Forall_impl; [|exact F]. intros f. apply uok_tr.
  - intros t cl tr tr' l seg _ F _ ->. eapply Forall_impl; [|exact F]. intros f. apply uok_tr.
  - intros s s' t cl pre r rest h n R _ _ _ E L _ NC C _ H. now apply (uok_step s t cl pre r h n).
Qed.

(** ** Frames that run only inside a call *)
Definition wkneeds (k : wk) : bool := match k with WSem _ _ _ _ _ _ => true | _ => false end.
Definition lkneeds (k : lk) : bool := match k with LkWhen _ _ _ _ _ | LkUser => true | _ => false end.
Definition needs (f : frame) : bool :=
  match f with
  | FUb _ | FUUnlock _ | FSem _ _ _ _ | FSemId _ _ _ _ | FSemAdd _ _ _ _ _ | FSemTok _ _ _ _ _ _ _ | FSemExit _ _ _ _ _ _ _ | FSemGo _ _ _ _ _ _
  | FSemRe _ _ _ _ _ _ _ | FSemNow _ _ _ _ _ _ _ | FSemRem _ _ _ _ _ | FMLock _ | FMTas _ _ | FMOwnQ _ _
  | FSt _ _ _ | FStW1 _ _ _ | FStW2 _ _ _ | FStEnd _ _ _ | FGet _ | FGet2 _ | FWaitList _ | FHWait _ _ | FPApi _ _ | FJob _ _ _ | FPWait _ _ | FPWaitAll _
  | FThNew _ _ | FThMove _ _ | FHShare _ | FHCopy _ | FPAssign _ _ | FPAssign1 _ _ | FHFrom _ _
  | FWhen _ _ | FWId _ _ _ | FWFillAll _ _ _ _ _ | FWEach _ _ _ _ _ | FWThen _ _ _ _ _ _ _ | FWPack _ _ _ _ _ _ | FWAtt _ _ _ _ _ _ _ | FWProc _ _ _ _ _
  | FPool _ _ | FPoolEnd _ _ | FProcess | FProcessFor _ | FProc _ | FPf0 _ _ | FPf _ _ _ | FPfNow _ _
  | FThJoin _ | FThJoin1 _ | FThAssign _ _ | FThDtor _ | FULock _ => true
  | FWaitFor _ k | FWait _ k | FWait1 _ _ k | FSleep _ _ k => wkneeds k
  | FInvoke _ _ k | FPush _ _ k | FLaunch1 _ _ _ k | FLaunch _ _ _ k | FFire1 _ _ k | FDisp _ _ k => lkneeds k
  | _ => false
  end.
Definition calls (s : st) (t : tid) (a : option frame) (f : frame) (b : list frame) : Prop := needs f = true -> no_api b = false.
Notation plain l := (Forall (fun f => needs f = false) l).
Lemma plain_destroy : forall l, plain (destroy l).
Proof. intros [|k l]; cbn; repeat constructor. Qed.
Lemma plain_lresume : forall k b o, lkneeds k = false -> plain (lresume k b o).
Proof. intros k b o H. destruct k; cbn [lresume]; try discriminate H; try (apply Forall_app; split; [apply plain_destroy|]); repeat constructor; apply plain_destroy. Qed.
Lemma plain_wresume : forall k b, wkneeds k = false -> plain (wresume k b).
Proof. intros k b H. destruct k; cbn [wresume]; try discriminate H; repeat constructor. Qed.
Lemma plain_sp : forall n i k, plain (spresume n i k).
Proof. intros n i k. destruct k; cbn [spresume]; repeat constructor. Qed.
Lemma plain_adj : forall s t rest l a, plain l \/ no_api rest = false -> adj (fun a f r => calls s t a f (r ++ rest)) a l.
Proof.
  intros s t rest. induction l as [|f l IH]; intros a H; cbn [adj]; auto. split.
  - intros N. rewrite no_api_app. destruct H as [H|H]; [inversion H; congruence|]. rewrite H. apply andb_false_r.
  - apply IH. destruct H as [H|H]; auto. left. now inversion H.
Qed.
Theorem calls_reachable : forall s, reachable s -> forall t, adj (calls s t) None (stk s t).
Proof.
  apply (adj_rule calls); auto.
  - intros []; cbn; auto. unfold calls. cbn. intuition discriminate.
  - intros s t pre rest h n R R' E L Fp. split; [|split].
    + destruct L as [c u fin|v u fin|e u fin|inp f h n Ru|inp e g h n Ru|x c].
      * cbn [next_frames]. apply adj_app. split; [|cbn; repeat split; discriminate].
        clear. induction (api_frames c) as [|f l IH] in |- *; cbn [adj]; auto.
        assert (X : forall l a, adj (fun a f r => calls (mkSt (emit (hp s) (EvCall t c)) (set_next (stk s) t (Go (api_frames c ++ [FApi c; FUser u fin])) rest) None) t a f ((r ++ [FApi c; FUser u fin]) ++ rest)) a l).
        { clear. induction l as [|f l IH]; intros a; cbn [adj]; auto. split; auto. intros _. rewrite !no_api_app. cbn. now rewrite andb_false_r. }
        split; [|apply X]. intros _. rewrite !no_api_app. cbn. now rewrite andb_false_r.
      * apply plain_adj. left. destruct fin; cbn; repeat constructor.
      * apply plain_adj. left. cbn; repeat constructor.
      * apply plain_adj. cbn [adj] in Fp. destruct Fp as [Fp _]. unfold calls in Fp. cbn [app] in Fp. destruct (no_api rest); [left|now right].
        assert (Nf : needs f = false) by (destruct (needs f); [discriminate (Fp eq_refl)|reflexivity]). clear Fp.
        destruct f; try discriminate Nf; code_cases Ru; cbn [next_frames]; cbn [needs] in Nf.
        all: repeat match goal with |- context [match ?x with _ => _ end] => destruct x eqn:? end.
        all: unfold run_one; repeat first [apply Forall_nil|apply Forall_app; split|apply Forall_cons|apply plain_destroy|apply plain_sp|apply plain_wresume; assumption|apply plain_lresume; assumption].
        all: try reflexivity. all: try exact Nf.
        destruct a; repeat constructor.
      * apply plain_adj. left. destruct g; code_cases Ru; cbn [next_frames].
        all: repeat match goal with |- context [match ?x with _ => _ end] => destruct x eqn:? end.
        all: repeat first [apply Forall_nil|apply Forall_app; split|apply Forall_cons|apply plain_destroy]; reflexivity.
      * apply plain_adj. left. constructor.
    + destruct rest; auto.
    + destruct (spawned n) as [[c cfs]|] eqn:Sp; auto. destruct (lstep_spawned _ _ _ _ _ _ _ L Sp) as (_ & _ & b & ->).
      destruct b; cbn [tframes adj]; unfold calls; cbn; repeat split; auto; discriminate.
Qed.

(** ** The frame whose operation is undefined *)
Lemma wrong_lub : forall s t u, goes_wrong s t u -> ubs s = None /\ exists pre rest, stk s t = pre ++ rest /\ lub (hp s) t pre u.
Proof.
  intros s t u (inp & s' & St & Us). unfold step in St. destruct (ubs s) eqn:U; [discriminate|]. split; auto.
  destruct (focus (stk s t)) as [[a rest]|] eqn:F; [|discriminate].
  destruct a as [T o k|]; cbn in St; [|discriminate]. destruct (atom (hp s) t o inp) eqn:A; [discriminate| |injection St as <-; discriminate Us].
  injection St as <-. cbn in Us. injection Us as ->. assert (X : ubruns (Do o k) (hp s) t inp u) by exact A.
  apply focus_cases in F as [(f & E & F)|[(e & g & E & F)|(y & c & E & F)]]; rewrite F in X; rewrite E.
  - exists [f], rest. split; auto. econstructor; eauto.
  - exists [FThrow e; g], rest. split; auto. econstructor; eauto.
  - discriminate X.
Qed.
(** A frame that runs only inside a call belongs to the innermost one. *)
Lemma needs_call : forall s t f rest, reachable s -> stk s t = f :: rest -> needs f = true ->
  exists cl, inside t cl (trace s) /\ incall t cl (trace s) /\ uok t cl (trace s) f.
Proof.
  intros s t f rest R E N. pose proof (calls_reachable s R t) as C. rewrite E in C. destruct C as [C _]. specialize (C N).
  pose proof (uok_reachable s R t) as L. rewrite E in L. remember (f :: rest) as fs eqn:Ef. remember (open_calls t (trace s)) as cs0 eqn:Ecs. destruct L as [fs0 N0|seg cl u fin below cs N0 [I F] _].
  - exfalso. subst. unfold no_api in *. cbn in N0. destruct f; try discriminate N; cbn in N0; congruence.
  - exists cl. split; [exists cs; symmetry; exact Ecs|]. split; auto. destruct seg as [|g seg]; cbn in Ef; injection Ef as Eg Er.
    + subst f. discriminate N.
    + subst g. now inversion F.
Qed.
Definition top_wait (h : heap) (t : tid) (f : frame) : Prop := match f with FWait1 i _ _ => h_loc h t = Some i | _ => True end.
Theorem wait_loc : forall s, reachable s -> forall t f r, stk s t = f :: r -> top_wait (hp s) t f.
Proof.
  apply (top_rule reachable); [auto|..].
  - intros h t [] U; try exact I; discriminate.
  - intros s d u f _ X. exact X.
  - intros h t []; exact I.
  - intros s t pre rest h n u f r R U E L N Eu X. destruct f; try exact I. cbn in *. now rewrite (loc_other s t pre h n u _ r R L N Eu).
  - intros s t pre rest h n f R U E L X Hd. destruct f; try exact I. rename c into c9, us into a9, k into k9.
    lstep_cases L; hdk Hd. injection Hd as -> -> ->. cbn [atom] in A. injection A as <- X'. exact X'.
Qed.
Lemma prm_bound : forall s, reachable s -> forall u d p, In (EvPrm u d (Some p)) (trace s) -> d < h_nprm (hp s).
Proof.
  intros s0 R0 u d p. apply (replay_rule (fun h l => In (EvPrm u d (Some p)) l -> d < h_nprm h)) with (s := s0); auto.
  - intros [].
  - intros h l z H. rewrite in_app_iff. cbn [In]. intros [X|[X|[]]]; [exact (H X)|discriminate X].
  - intros h l e H Ok. rewrite in_app_iff. cbn [In]. hs. intros [X|[X|[]]]; [exact (H X)|subst; contradiction].
  - intros h t T o inp h' x G O IH At N. destruct o; try contradiction; cbn [op_event] in *; atom_split At;
      rewrite ?in_app_iff; cbn [In]; hs; try exact IH; try (intros [X|[X|[]]]; [try apply IH in X; try lia|try discriminate X]);
      try (injection X as <- <- <-).
    all: try lia. all: try (now apply Nat.ltb_lt). all: injection X as _ <- _; now apply Nat.ltb_lt.
Qed.
Lemma unlock_ub : forall s t f l inp u, reachable s -> In f (stk s t) -> InvLock.hold f = Some l -> internal l = true ->
  atom (hp s) t (OUnlock l) inp = AUb u -> False.
Proof.
  intros s t f l inp u R E Hf Il A. cbn [atom] in A. rewrite (replay_locks l s R) in A.
  rewrite (hold_in l s t f Il R E) in A.
  - rewrite Nat.eqb_refl in A. discriminate A.
  - unfold holds. rewrite Hf. apply lock_eqb_refl.
Qed.
Lemma strict_asc : forall l, is_strict_levels l = false -> ~ ascending (map fst l).
Proof.
  induction l as [|[a n] l IH]; [discriminate|]. destruct l as [|[b m] l]; [discriminate|]. cbn in *.
  intros H [A B]. apply andb_false_iff in H as [H|H]; [apply Nat.ltb_ge in H; lia|]. now apply IH in H.
Qed.
Lemma all_some_none : forall A (l : list (option A)), all_some l = None -> In None l.
Proof.
  induction l as [|[x|] l IH]; cbn; try discriminate; auto. destruct (all_some l); [discriminate|auto].
Qed.
Lemma locked_not : forall s t l, reachable s -> h_locks (hp s) l <> Some t -> lock_holder l (trace s) <> Some t.
Proof. intros s t l R H. now rewrite <- (replay_locks l s R). Qed.
Lemma unlock_not : forall s t l inp u, reachable s -> atom (hp s) t (OUnlock l) inp = AUb u -> lock_holder l (trace s) <> Some t.
Proof. intros s t l inp u R A. apply locked_not; auto. intros X. cbn [atom] in A. rewrite X, Nat.eqb_refl in A. discriminate A. Qed.
(** ** set_thread_config *)
Lemma calls_other : forall s t pre rest h n u f r, reachable s -> stk s t = pre ++ rest -> lstep (hp s) t pre h n -> u <> t -> stk s u = f :: r ->
  open_calls u (tr_of h) = open_calls u (trace s).
Proof.
  intros s t pre rest h n u f r R E L N Eu. rewrite open_trace. unfold open_calls, tr_of. rewrite rev_involutive.
  destruct (lstep_tr _ _ _ _ _ L) as [->|[e X]]; auto. rewrite X. apply calls_r_other.
  - unfold by_thread. destruct (lstep_actor _ _ _ _ _ _ L X) as [->| ->]; auto. now apply Nat.eqb_neq; auto.
  - destruct e; auto. intros ->. destruct (lstep_kind _ _ _ _ _ L) as [c u0 fin -> -> -> |c r0 top -> Hr -> ->| -> Y -> |c b fs Np Nf Y Nc Fr -> |fs Np Nf -> Y].
    + apply emit_event in X. discriminate X.
    + apply emit_event in X. discriminate X.
    + rewrite Y in X. discriminate X.
    + rewrite Y in X. injection X as _ ->. pose proof (stk_inv_reachable s R u) as K. unfold stk_ok in K.
      destruct (h_tst (hp s) u); try discriminate Fr; cbn in K; congruence.
    + destruct Y as [Y|(e & Y & Z)]; rewrite Y in X; [now apply cons_neq in X|injection X as ->; exact Z].
Qed.
Definition cfgf (f : frame) : Prop := match f with FDisp i TConfig LkUser => True | FDisp i TConfig _ => i <> invalid_id | _ => True end.
Lemma cfgf_reachable : forall s, reachable s -> forall t, Forall cfgf (stk s t).
Proof.
  apply (frame_rule reachable (fun _ _ f => cfgf f)); try exact Logic.I; auto.
  intros s t pre rest h n R E L Fp _. pose proof (reg_inv_reachable s R) as RI.
  lstep_cases L; (split; [|try exact Logic.I; cbn [spawned]; try (fl_; exact Logic.I)]); cbn [next_frames]; fl_; try exact Logic.I.
  cbn [atom] in A. cbn [cfgf]. destruct (do_reg (hp s) t n0) as [h1 i] eqn:D. inversion A; subst; clear A. unfold invalid_id.
  destruct (do_reg_cases (hp s) t n0 RI) as [(i & X & I & D')|(X & D')]; rewrite D' in D; cbn zeta in D; inversion D; subst; [|lia].
  apply (ri_range _ RI) in I. lia.
Qed.
Definition nocfg (f : frame) : Prop := f <> FRun TConfig.
Lemma cfg_below : forall s, reachable s -> forall t, Forall nocfg (tl (stk s t)).
Proof.
  apply (reachable_ind'' (fun s => forall t, Forall nocfg (tl (stk s t)))).
  - intros []; cbn; repeat constructor; discriminate.
  - intros s s' R R' IH U Tr. destruct Tr as [d|t pre rest u E L|t pre rest h n E L]; auto.
    assert (Rr : Forall nocfg rest).
    { specialize (IH t). rewrite E in IH. destruct (lstep_pre _ _ _ _ _ L) as (P1 & _). destruct pre as [|p0 pre]; [congruence|]. cbn in IH. now apply Forall_app in IH. }
    assert (Nn : Forall nocfg (tl (next_frames n))).
    { clear Rr. assert (Ft : forall l, Forall nocfg l -> Forall nocfg (tl l)) by (intros ? []; cbn; auto). unfold nocfg in *. lstep_cases L; cbn [next_frames].
      all: try (cbn [tl app]; fl_; discriminate).
      all: try (apply Ft; fl_; discriminate).
      all: unfold run_one; try (repeat match goal with |- context [match ?x with _ => _ end] => destruct x end; cbn [tl app]; fl_; discriminate).
      1: destruct x; cbn [tl app]; [fl_; discriminate|apply Ft; fl_; discriminate|constructor].
      1: destruct (snd x); cbn [tl app]; [fl_; discriminate|apply Ft; fl_; discriminate].
      cbn [atom] in A. destruct (pool_take (h_pools (hp s) pl) lv inp) as [p' y] eqn:Pt.
      assert (Y : match y with Some (_, k) => k <> TConfig | None => True end).
      { clear - R Pt. pose proof (tab_inv pl s R) as T. rewrite Forall_forall in T. unfold pool_take in Pt. brki Pt; inversion Pt; subst; auto.
        all: match goal with F : jobs_find _ _ = Some ?j |- _ => apply find_in in F; apply T in F as (? & ? & ? & ? & _ & _ & [X|(? & ? & X)]); cbn in X; rewrite X; discriminate end. }
      destruct y as [[j k]|]; brki A; inversion A; subst; cbn [snd tl]; fl_; try discriminate; intros Q; injection Q; auto. }
    assert (T : Forall nocfg (tl (next_frames n ++ rest))).
    { destruct (next_frames n); cbn [app tl] in *; [destruct rest; cbn; auto; now inversion Rr|apply Forall_app; auto]. }
    intros u. cbn [stk]. destruct n as [fs|c cfs fs]; unfold set_next; cbn [next_frames] in *; rewrite !upd_eq.
    + destruct (u =? t); auto.
    + destruct (u =? t); auto. destruct (u =? c); auto. destruct (lstep_spawned _ _ _ _ _ c cfs L eq_refl) as (_ & _ & b & ->). destruct b; cbn; repeat constructor; discriminate.
Qed.
Theorem cfg_reachable : forall s, reachable s -> forall t r, stk s t = FRun TConfig :: r ->
  h_loc (hp s) t <> None \/ exists cl, inside t cl (trace s) /\ cl_api cl = ASetConfig invalid_id.
Proof.
  apply (reachable_ind'' (fun s => forall t r, stk s t = FRun TConfig :: r -> h_loc (hp s) t <> None \/ exists cl, inside t cl (trace s) /\ cl_api cl = ASetConfig invalid_id)).
  - intros [] r E; discriminate E.
  - intros s s' R R' IH U Tr. destruct Tr as [d|t pre rest u E L|t pre rest h n E L].
    + intros t r Er. destruct (IH t r Er) as [H|(cl & (cs & H) & Ec)]; [now left|]. right. exists cl. split; auto. exists cs. rewrite <- H.
      unfold open_calls. change (trace (mkSt _ _ _)) with (trace s ++ [EvTick (Zpos d)]). rewrite rev_app_distr. reflexivity.
    + exact IH.
    + assert (Own : forall r, next_frames n ++ rest = FRun TConfig :: r -> h_loc h t <> None \/ exists cl, inside t cl (tr_of h) /\ cl_api cl = ASetConfig invalid_id).
      { intros r Er. destruct (next_frames n) as [|f fs] eqn:Nf.
        - exfalso. pose proof (cfg_below s R t) as B. rewrite E in B. destruct (lstep_pre _ _ _ _ _ L) as (P1 & _). destruct pre as [|p0 pre]; [congruence|]. cbn in B, Er. subst rest.
          apply Forall_app in B as [_ B]. inversion B as [|? ? B1 _]. now apply B1.
        - cbn in Er. injection Er as -> _. assert (Hd : hd_error (next_frames n) = Some (FRun TConfig)) by now rewrite Nf. clear Nf fs r.
          pose proof (k_inv_reachable s R) as [_ Kf]. specialize (Kf t). rewrite E in Kf. apply Forall_app in Kf as [Kf _].
          pose proof (cfgf_reachable s R t) as Cf. rewrite E in Cf. apply Forall_app in Cf as [Cf _].
          pose proof (needs_call s t) as NC. rewrite E in NC.
          lstep_cases L; cbn [next_frames] in Hd; try match type of Hd with context [match ?b with _ => _ end] => destruct b eqn:? end; hdk Hd; cbn [app] in NC; unfold run_one in Hd; cbn [app hd_error] in Hd; injection Hd as ->.
          all: inversion Kf as [|? ? K1 _]; subst; cbn [fk InvKind.tk] in K1; inversion Cf as [|? ? C1 _]; subst; cbn [cfgf] in C1.
          all: try (left; cbn [atom] in A; unfold do_proc, do_takesleep, with_local, do_wake in A; brki A; inversion A; subst; unfold take_log; hs; congruence).
          all: try (exfalso; intuition congruence).
          all: try (left; match goal with H : snd ?x = Some _ |- _ => destruct x as [x1 x2]; cbn in H; subst x2 end; cbn [atom] in A; unfold do_wake in A; brki A; inversion A; subst; unfold take_log; hs; congruence).
          destruct (h_loc (hp s) t) as [j|] eqn:Lc; cbn [atom] in A; rewrite Lc in A; [left; destruct (alive _ _); inversion A; subst; congruence|].
          injection A as <- <-. match goal with H : (_ =? _) = true |- _ => apply Nat.eqb_eq in H; subst i end.
          right. destruct c; try (now destruct C1).
          destruct (NC _ _ R eq_refl eq_refl) as (cl & H1 & _ & [_ H2]). exists cl. split; auto. }
      intros u r Er. cbn [stk hp] in *. change (trace (mkSt h _ _)) with (tr_of h).
      assert (Oth : u <> t -> stk s u = FRun TConfig :: r -> h_loc h u <> None \/ exists cl, inside u cl (tr_of h) /\ cl_api cl = ASetConfig invalid_id).
      { intros N Eu. rewrite (loc_other s t pre h n u _ r R L N Eu). destruct (IH u r Eu) as [H|(cl & (cs & H) & Ec)]; [now left|]. right. exists cl. split; auto. exists cs. rewrite <- H.
        eapply calls_other; eauto. }
      unfold set_next in Er. destruct n as [fs|c cfs fs]; cbn [next_frames] in Own; rewrite !upd_eq in Er.
      * destruct (Nat.eqb_spec u t) as [->|]; eauto.
      * destruct (Nat.eqb_spec u t) as [->|]; eauto. destruct (Nat.eqb_spec u c) as [->|]; auto.
        exfalso. destruct (lstep_spawned _ _ _ _ _ c cfs L eq_refl) as (_ & _ & b & ->). destruct b; discriminate Er.
Qed.
Lemma rok_misused : forall t cl tr l h, rok cl l -> In h l -> snd (fut_of h tr) = None -> misused t cl tr.
Proof.
  intros t cl tr l h (hs & I & Inc) Hh N. unfold misused. destruct (cl_api cl); try discriminate I; injection I as ->; exists h; auto.
Qed.
Theorem misuse_holds : forall s t u, reachable s -> goes_wrong s t u -> misuse t u (trace s).
Proof.
  intros s t u R W. destruct (wrong_lub s t u W) as (U & pre & rest & E & L).
  destruct L as [inp f u Ru|inp e g u Ru].
  2: { destruct g; cbn [catch ubruns] in Ru; try contradiction; try (cbn [atom] in Ru; try discriminate Ru; injection Ru as <-; exact I).
    all: exfalso; eapply unlock_ub; [exact R|rewrite E; right; left; reflexivity|reflexivity|reflexivity|exact Ru]. }
  destruct f; cbn [code ubruns] in Ru.
  all: repeat match type of Ru with context [match ?x with _ => _ end] => destruct x eqn:?; cbn [ubruns] in Ru end; try contradiction.
  all: try (cbn [atom] in Ru; discriminate Ru).
  all: try (exfalso; eapply unlock_ub; [exact R|rewrite E; left; reflexivity|reflexivity|reflexivity|exact Ru]).
  all: pose proof (needs_call _ _ _ _ R E) as NC; pose proof Ru as Ru'; cbn [atom] in Ru; op_unfold Ru.
  all: brki Ru; try discriminate Ru; injection Ru as <-; try exact I.
  all: try (destruct (NC eq_refl) as (cl & Ins & IC & Ok); cbn [uok] in Ok).
  - (* FUb *) destruct u0; cbn [ubok] in Ok; try contradiction; cbn [misuse].
    + destruct Ok as (h & E1 & E2). exists h, cl. auto.
    + destruct Ok. exists cl. auto.
    + exists cl. split; auto. unfold misused. destruct (cl_api cl); try contradiction; exact Ok.
  - (* FRun *) destruct (cfg_reachable s R t rest E) as [H|(cl & H1 & H2)]; [congruence|]. exists cl. split; auto. split; auto. rewrite <- (rd_loc s R t). assumption.
  - (* FProc *) exists cl. split; auto. destruct Ok as [P S]. unfold procs in P. unfold misused.
    rewrite (rd_loc s R) in *. 
    match goal with H : attached t _ = Some ?j |- _ => assert (X : exists i j, sometime cl (trace s) (fun m => attached t m = Some i) /\ attached t (trace s) = Some j /\ j <> i) by (exists c, j; repeat split; auto; now apply Nat.eqb_neq) end.
    destruct (cl_api cl); try contradiction; exact X.
  - (* FPf *) exists cl. split; auto. destruct Ok as [P S]. unfold procs in P. unfold misused.
    rewrite (rd_loc s R) in *. 
    match goal with H : attached t _ = Some ?j |- _ => assert (X : exists i j, sometime cl (trace s) (fun m => attached t m = Some i) /\ attached t (trace s) = Some j /\ j <> i) by (exists c, j; repeat split; auto; now apply Nat.eqb_neq) end.
    destruct (cl_api cl); try contradiction; exact X.
  - (* FWait1 *) exfalso. pose proof (wait_loc s R t _ _ E) as X. cbn in X. rewrite X in *. 
    match goal with H : Some _ = Some _ |- _ => injection H as -> end. rewrite Nat.eqb_refl in *. discriminate.
  - (* FSleep *) exfalso. pose proof (sleep_woken s R t _ _ E) as X. destruct X as [X _]. rewrite X in *.
    match goal with H : Some _ = Some _ |- _ => injection H as -> end. rewrite Nat.eqb_refl in *. discriminate.
  - exfalso. pose proof (sleep_woken s R t _ _ E) as X. destruct X as [X _]. rewrite X in *.
    match goal with H : Some _ = Some _ |- _ => injection H as -> end. rewrite Nat.eqb_refl in *. discriminate.
  - (* FSemGo *) subst. destruct l0 as [m| | |]; try (exfalso; eapply unlock_ub; [exact R|rewrite E; left; reflexivity|reflexivity|reflexivity|exact Ru']).
    destruct Ok as [Ok _]. specialize (Ok m eq_refl). exists m, cl. repeat split; auto; [unfold releases; destruct (cl_api cl); auto; contradiction|]. eapply unlock_not; eauto.
  - subst. destruct l0 as [m| | |]; try (exfalso; eapply unlock_ub; [exact R|rewrite E; left; reflexivity|reflexivity|reflexivity|exact Ru']).
    destruct Ok as [Ok _]. specialize (Ok m eq_refl). exists m, cl. repeat split; auto; [unfold releases; destruct (cl_api cl); auto; contradiction|]. eapply unlock_not; eauto.
  - (* FUUnlock *) exists m, cl. rewrite Ok. repeat split; auto. eapply unlock_not; eauto.
  - exists m, cl. rewrite Ok. repeat split; auto. eapply unlock_not; eauto.
  - (* FPAssign1 *) destruct Ok as [x' Ok]. exists cl. split; auto. unfold misused. rewrite Ok. intros (v & p & X). apply (prm_bound s R) in X.
    match goal with H : (_ <? _) = false |- _ => apply Nat.ltb_ge in H end. lia.
  - (* FHFrom *) exists cl. split; auto. unfold misused. rewrite Ok.
    match goal with H : (_ <? _) = false |- _ => apply Nat.ltb_ge in H; rename H into HB end.
    pose proof (nfs_created p s R) as NCr. unfold created in NCr. split; intros X; assert (p < h_nfs (hp s)) by (apply NCr; tauto); lia.
  - (* FWhen *) exists cl. split; auto.
    match goal with H : all_some _ = None |- _ => apply all_some_none in H; apply in_map_iff in H as (h & N & Hh) end.
    rewrite (replay_hnds h s R) in N. eapply rok_misused; eauto.
  - exists cl. split; auto. eapply rok_misused; [exact Ok|left; reflexivity|]. rewrite <- (replay_hnds _ s R).
    match goal with H : h_hnds _ _ = _ |- _ => now rewrite H end.
  - exists cl. split; auto. eapply rok_misused; [exact Ok|left; reflexivity|]. rewrite <- (replay_hnds _ s R).
    match goal with H : h_hnds _ _ = _ |- _ => now rewrite H end.
  - (* FPool *) exists cl. split; auto. unfold misused. rewrite Ok. right. rewrite <- (replay_pobj s R). destruct (fst (h_pobj (hp s) o)); discriminate.
  - exists cl. split; auto. unfold misused. rewrite Ok. left. now apply strict_asc.
  - destruct Ok as [lvs Ok]. exists cl. split; auto. unfold misused. rewrite Ok. right. rewrite <- (replay_pobj s R). destruct (fst (h_pobj (hp s) o)); discriminate.
Qed.

(** A state that has gone wrong was left by a step that went wrong. *)
Theorem wrong_state : forall s u, reachable s -> ubs s = Some u -> exists t s0, reachable s0 /\ goes_wrong s0 t u /\ trace s = trace s0.
Proof.
  intros s u [ls R] U. destruct ls as [|l ls _] using rev_ind; [injection R as <-; discriminate U|].
  apply run_snoc in R as (s0 & R0 & St). pose proof St as S0. unfold step in St. destruct (ubs s0) eqn:U0; [discriminate|]. destruct l as [t inp|t c|t v|t e|d].
  2-4: destruct (stk s0 t) as [|f r]; [discriminate|]; destruct f; try discriminate; injection St as <-; discriminate U.
  2: { injection St as <-. discriminate U. }
  - exists t, s0. split; [now exists ls|]. split; [exists inp, s; auto|]. destruct (focus (stk s0 t)) as [[a r]|]; [|discriminate].
    destruct a as [T o k|]; cbn in St; [|discriminate]. destruct (atom (hp s0) t o inp); [discriminate|injection St as <-; reflexivity|injection St as <-; discriminate U].
Qed.
