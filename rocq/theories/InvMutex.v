(** * InvMutex: a mutex knows its owner. *)
From Verif Require Import Types Core State Ops Code Machine Base Spec SpecApi SpecWait SpecSync SpecMutex Rules Events InvCtx InvQueue InvStack InvAff InvTop InvSleep
  Calls Contract ContractLib Replay ReplayObj ThmObj InvCv.

(** ** Frames of mutex calls *)
Definition mxk (k : semk) : option (nat * option id) := match k with KMx m i => Some (m, Some i) | _ => None end.
Definition mxf (f : frame) : option (nat * option id) :=
  match f with
  | FMLock m | FMTry m | FMTry1 m | FMUnlock m | FMUn2 m | FMUn3 m => Some (m, None)
  | FMTas m i | FMOwnQ m i | FMOwn m i | FMUn1 m i => Some (m, Some i)
  | FSem _ _ _ k | FSemId _ _ _ k | FSemAdd _ _ _ _ k | FSemTok _ _ _ _ _ _ k | FSemExit _ _ _ _ _ _ k | FSemGo _ _ _ _ _ k
  | FSemRe _ _ _ _ _ _ k | FSemNow _ _ _ _ _ _ k | FSemRem _ _ _ _ k
  | FWaitFor _ (WSem _ _ _ _ _ k) | FWait _ (WSem _ _ _ _ _ k) | FWait1 _ _ (WSem _ _ _ _ _ k) | FSleep _ _ (WSem _ _ _ _ _ k) => mxk k
  | _ => None
  end.
Definition mxn (m : nat) (f : frame) : bool := match mxf f with Some (x, _) => x =? m | None => false end.

Fixpoint covered (m : nat) (fs : list frame) : Prop :=
  match fs with
  | [] => True
  | f :: r => (mxn m f = true -> exists c, In (FApi c) r /\ mx_call m c = true) /\ covered m r
  end.
Lemma covered_app : forall m a b, covered m b -> Forall (fun f => mxn m f = true -> exists c, In (FApi c) b /\ mx_call m c = true) a -> covered m (a ++ b).
Proof.
  intros m a b Cb. induction a as [|f a IH]; intros F; [exact Cb|]. inversion F; subst. split; auto.
  intros X. destruct (H1 X) as (c & I & M). exists c. split; auto. apply in_or_app. now right.
Qed.
Lemma covered_r : forall m a b, covered m (a ++ b) -> covered m b.
Proof. intros m a b. induction a as [|f a IH]; auto. intros [_ H]. auto. Qed.
Lemma mxn_user : forall m u fin, mxn m (FUser u fin) = false. Proof. reflexivity. Qed.

Lemma lstep_mxn : forall m h t pre h' n, lstep h t pre h' n ->
  (exists c u fin, pre = [FUser u fin] /\ n = Go (api_frames c ++ [FApi c; FUser u fin])) \/
  (Forall (fun g => mxn m g = true -> exists f a, pre = a ++ [f] /\ mxn m f = true) (next_frames n) /\
   match spawned n with Some (_, cfs) => Forall (fun g => mxn m g = false) cfs | None => True end).
Proof.
  intros m h t pre h' n L. lstep_cases L.
  1: left; eauto.
  all: right; split; [|try exact I; cbn [spawned]; try (fl_; reflexivity)]; cbn [next_frames].
  all: fl_; try (intros X; discriminate X); try (intros X; exists f, []; auto; fail).
  all: try (intros X; eexists _, []; split; [reflexivity|exact X]).
  all: try (intros X; eexists _, [_]; split; [reflexivity|exact X]).
Qed.
Lemma api_mxn : forall m c, Forall (fun g => mxn m g = true -> mx_call m c = true) (api_frames c).
Proof. intros m []; cbn [api_frames]; repeat constructor; try (intros X; discriminate X); intros X; exact X. Qed.

Theorem covered_reachable : forall m s, reachable s -> forall t, covered m (stk s t).
Proof.
  intros m. apply (reachable_ind' (fun s => forall t, covered m (stk s t))).
  - intros t. cbn. destruct (t =? 0); cbn; intuition discriminate.
  - intros s s' R IH _ Tr. destruct Tr as [d|t pre rest u E L|t pre rest h n E L]; auto.
    assert (Own : covered m (next_frames n ++ rest) /\ match spawned n with Some (_, cfs) => covered m cfs | None => True end).
    { specialize (IH t). rewrite E in IH. pose proof (covered_r _ _ _ IH) as Cr.
      destruct (lstep_mxn m _ _ _ _ _ L) as [(c & u & fin & -> & ->)|[N1 N2]].
      - cbn [next_frames spawned]. split; auto. rewrite <- app_assoc. cbn [app]. apply covered_app.
        + split; [intros X; discriminate X|]. split; auto. intros X; discriminate X.
        + eapply Forall_impl; [|apply api_mxn]. intros g H X. exists c. split; [now left|auto].
      - split.
        + apply covered_app; auto. eapply Forall_impl; [|exact N1]. cbn. intros g H X. destruct (H X) as (f & a & -> & Mf).
          rewrite <- app_assoc in IH. apply covered_r in IH. now apply IH.
        + destruct (spawned n) as [[c cfs]|]; auto. rewrite <- (app_nil_r cfs). apply covered_app; [exact I|].
          eapply Forall_impl; [|exact N2]. cbn. congruence. }
    destruct Own as [O1 O2]. intros u. cbn [stk]. unfold set_next. destruct n as [fs|c cfs fs]; cbn [next_frames spawned] in *; rewrite !upd_eq.
    + destruct (u =? t); auto.
    + destruct (u =? t); auto. destruct (u =? c); auto.
Qed.

Lemma lnk_in : forall S fs cs c, lnk S fs cs -> In (FApi c) fs -> exists cl, In cl cs /\ cl_api cl = c.
Proof.
  intros S fs cs c L. induction L as [fs N|seg cl u fin below cs N Sc L IH]; intros I.
  - unfold no_api in N. rewrite forallb_forall in N. specialize (N _ I). discriminate N.
  - apply in_app_iff in I as [I|[I|I]].
    + unfold no_api in N. rewrite forallb_forall in N. specialize (N _ I). discriminate N.
    + injection I as <-. exists cl. split; [now left|auto].
    + destruct (IH I) as (cl' & I' & E). exists cl'. split; [now right|auto].
Qed.
Lemma open_api : forall s t c, reachable s -> In (FApi c) (stk s t) -> exists cl, In cl (open_calls t (trace s)) /\ cl_api cl = c.
Proof.
  intros s t c R I. eapply lnk_in; [|exact I].
  apply (seg_rule (fun _ => True) (fun _ _ _ _ => True)); auto.
Qed.
Lemma mx_engaged : forall m s t f, reachable s -> In f (stk s t) -> mxn m f = true -> engaged m t (trace s).
Proof.
  intros m s t f R I M. right. apply in_split in I as (a & b & E). pose proof (covered_reachable m s R t) as C.
  rewrite E in C. apply covered_r in C as [C _]. destruct (C M) as (c & Ic & Mc).
  destruct (open_api s t c R) as (cl & Icl & <-); [rewrite E; apply in_or_app; right; now right|]. eauto.
Qed.
Lemma steady_app : forall m a b, steady m (a ++ b) -> steady m a.
Proof.
  intros m a b H x y t -> G. destruct (H x (y ++ b) t) as [A B]; [now rewrite app_assoc|exact G|]. split; auto.
  intros e b' ->. eapply B. reflexivity.
Qed.
Lemma steady_keep : forall m tr e t, steady m (tr ++ [e]) -> engaged m t tr -> attached t (tr ++ [e]) = attached t tr.
Proof. intros m tr e t H G. destruct (H tr [e] t eq_refl G) as [_ B]. now apply (B e []). Qed.
Lemma steady_att : forall m tr t, steady m tr -> engaged m t tr -> attached t tr <> None.
Proof. intros m tr t H G. destruct (H tr [] t) as [B _]; auto. now rewrite app_nil_r. Qed.

(** ** The ids in these frames *)
Definition mxatt (m : nat) (h : heap) (t : tid) (f : frame) : Prop :=
  forall i, steady m (tr_of h) -> mxf f = Some (m, Some i) -> attached t (tr_of h) = Some i.
Lemma tr_step : forall s t pre h n, lstep (hp s) t pre h n -> tr_of h = trace s \/ exists e, tr_of h = trace s ++ [e].
Proof. intros s t pre h n L. unfold tr_of, trace. destruct (lstep_tr _ _ _ _ _ L) as [->|[e ->]]; [now left|right; now exists e]. Qed.
Lemma att_keep : forall m s t f h, reachable s -> In f (stk s t) -> mxn m f = true -> tr_of h = trace s \/ (exists e, tr_of h = trace s ++ [e]) ->
  steady m (tr_of h) -> attached t (tr_of h) = attached t (trace s).
Proof.
  intros m s t f h R I M [->|[e E]] S; auto. rewrite E in *. eapply steady_keep; eauto. eapply mx_engaged; eauto.
Qed.
Lemma myid_att : forall m s t f inp h x, reachable s -> In f (stk s t) -> mxn m f = true -> steady m (trace s) ->
  atom (hp s) t OMyId inp = AOk h x -> attached t (trace s) = Some x /\ tr_of h = trace s.
Proof.
  intros m s t f inp h x R I M S A. pose proof (steady_att m _ t S (mx_engaged m s t f R I M)) as N.
  rewrite <- (rd_loc s R) in *. cbn [atom] in A. destruct (h_loc (hp s) t) as [c|] eqn:E; [|congruence].
  brki A; try discriminate A; inversion A; subst; auto.
Qed.
Theorem mxatt_reachable : forall m s, reachable s -> forall t, Forall (mxatt m (hp s) t) (stk s t).
Proof.
  intros m. apply (frame_rule reachable); auto.
  - intros i _ X. discriminate X.
  - intros i _ X. discriminate X.
  - intros s d u f R I H i S X. set (h' := emit _ _) in *.
    assert (E : tr_of h' = trace s ++ [EvTick (Zpos d)]) by reflexivity.
    assert (M : mxn m f = true) by (unfold mxn; rewrite X; apply Nat.eqb_refl).
    rewrite (att_keep m s u f h'); eauto. apply H; auto. rewrite E in S. now apply steady_app in S.
  - intros s t pre rest h n u f R _ E L _ I H i S X.
    assert (M : mxn m f = true) by (unfold mxn; rewrite X; apply Nat.eqb_refl).
    pose proof (tr_step _ _ _ _ _ L) as T.
    rewrite (att_keep m s u f h); auto. apply H; auto. destruct T as [T|[e T]]; rewrite T in S; auto. now apply steady_app in S.
  - intros s t pre rest h n R E L Fp _.
    assert (I0 : forall f, In f pre -> In f (stk s t)) by (intros f I; rewrite E; apply in_or_app; now left).
    pose proof (tr_step _ _ _ _ _ L) as T.
    assert (S0 : steady m (tr_of h) -> steady m (trace s)) by (intros S; destruct T as [T|[e T]]; [now rewrite <- T|rewrite T in S; now apply steady_app in S]).
    assert (Fp' : Forall (mxatt m h t) pre).
    { rewrite Forall_forall in *. intros f I i S X. assert (M : mxn m f = true) by (unfold mxn; rewrite X; apply Nat.eqb_refl).
      rewrite (att_keep m s t f h); auto. exact (Fp f I i (S0 S) X). }
    assert (ID : forall f inp x, In f pre -> mxn m f = true -> atom (hp s) t OMyId inp = AOk h x -> steady m (tr_of h) -> attached t (tr_of h) = Some x).
    { intros f inp x I M A S. destruct (myid_att m s t f inp h x R) as [B C]; auto. now rewrite C. }
    clear S0 I0 E T R.
    lstep_cases L; (split; [|try exact I; cbn [spawned]; try (fl_; intros iz _ X; discriminate X)]); cbn [next_frames];
      inversion Fp' as [|? ? Fp1 Fp2]; subst; fl_; try (intros iz S X; discriminate X);
      try (intros iz S X; exact (Fp1 iz S X)); try (inversion Fp2 as [|? ? Fp3 Fp4]; subst; intros iz S X; exact (Fp3 iz S X)).
    all: intros iz S X; cbn [mxf] in X; inversion X; subst; eapply ID; eauto; [now left|unfold mxn; cbn; apply Nat.eqb_refl].
Qed.
Lemma frame_att : forall m s t f i, reachable s -> steady m (trace s) -> In f (stk s t) -> mxf f = Some (m, Some i) -> attached t (trace s) = Some i.
Proof. intros m s t f i R S I X. pose proof (mxatt_reachable m s R t) as F. rewrite Forall_forall in F. exact (F f I i S X). Qed.

(** ** Moves on the mutex *)
Definition claims (m : nat) (f : frame) : bool := match f with FMOwn x _ | FMTry1 x | FMUn3 x => x =? m | _ => false end.
Definition un2 (m : nat) (f : frame) : bool := match f with FMUn2 x => x =? m | _ => false end.
Definition hdf (P : frame -> bool) (fs : list frame) : bool := match fs with f :: _ => P f | [] => false end.

Inductive mxstep (m : nat) (h : heap) (t : tid) (pre : list frame) (h' : heap) (n : next) : Prop :=
| x_acq : forall f g, pre = [f] -> mxn m f = true -> n = Go [g] -> claims m g = true -> (forall i, mxf g = Some (m, Some i) -> mxf f = Some (m, Some i)) ->
    fst (h_mxs h m) = false -> h_mxs h' m = (true, snd (h_mxs h m)) -> h_tr h' = EvMxAcq t m :: h_tr h -> mxstep m h t pre h' n
| x_own : forall i, pre = [FMTry1 m] -> n = Go [FMOwn m i; FRes (RBool true)] -> h_mxs h' m = h_mxs h m -> h_tr h' = h_tr h -> mxstep m h t pre h' n
| x_set : forall i, pre = [FMOwn m i] -> n = Go [] -> h_mxs h' m = (fst (h_mxs h m), i) -> h_tr h' = h_tr h -> mxstep m h t pre h' n
| x_chk : forall i, pre = [FMUn1 m i] -> n = Go [FMUn2 m] -> snd (h_mxs h m) = i -> h_mxs h' m = h_mxs h m -> h_tr h' = h_tr h -> mxstep m h t pre h' n
| x_un2 : pre = [FMUn2 m] -> n = Go [FMUn3 m] -> h_mxs h' m = (fst (h_mxs h m), invalid_id) -> h_tr h' = h_tr h -> mxstep m h t pre h' n
| x_rel : pre = [FMUn3 m] -> n = Go [FNotify (SMx m) true] -> h_mxs h' m = (false, snd (h_mxs h m)) -> h_tr h' = EvMxRel t m :: h_tr h -> mxstep m h t pre h' n
| x_oth : hdf (claims m) pre = false -> hdf (un2 m) pre = false -> hdf (claims m) (next_frames n) = false -> hdf (un2 m) (next_frames n) = false -> h_mxs h' m = h_mxs h m ->
    (h_tr h' = h_tr h \/ exists e, h_tr h' = e :: h_tr h /\ on_mx m e = false) -> mxstep m h t pre h' n.

Lemma hdf_api : forall m c, hdf (claims m) (api_frames c) = false /\ hdf (un2 m) (api_frames c) = false.
Proof. intros m []; split; reflexivity. Qed.
Lemma atom_mxs : forall m h t T (o : op T) inp h' x, atom h t o inp = AOk h' x -> op_ok o ->
  match o with OTas a | OSetOwn a _ | OClear a => a <> m | _ => True end ->
  h_mxs h' m = h_mxs h m /\ (h_tr h' = h_tr h \/ exists e, h_tr h' = e :: h_tr h /\ on_mx m e = false).
Proof.
  intros m h t T o inp h' x A Ok N. split.
  - destruct o; try solve [atom_split A; try reflexivity; unfold upd; match goal with |- context [?a =? ?b] => destruct (Nat.eqb_spec a b); subst; congruence end].
  - apply atom_event in A. destruct (op_event h t o x) eqn:Ev; [|now left]. right. exists e. split; auto.
    destruct o; cbn [op_event] in Ev; brki Ev; try discriminate Ev; injection Ev as <-; try reflexivity; cbn [on_mx];
      try (apply Nat.eqb_neq; assumption).
    specialize (Ok t). destruct (e0 t); cbn in Ok |- *; try contradiction; reflexivity.
Qed.
Lemma hdf_forall : forall P l, Forall (fun g => P g = false) l -> hdf P l = false.
Proof. intros P [|f l] F; [reflexivity|]. inversion F; auto. Qed.
Lemma lstep_mx : forall m h t pre h' n, lstep h t pre h' n -> mxstep m h t pre h' n.
Proof.
  intros m h t pre h' n L. destruct L as [c u fin|v u fin|e u fin|inp f h' n R|inp e g h' n R|x c].
  1: { apply x_oth; auto; cbn [next_frames].
       all: try (right; eexists; split; reflexivity).
       all: destruct c; reflexivity. }
  1,2: apply x_oth; auto; cbn [next_frames]; try (apply hdf_forall; fl_; reflexivity); right; eexists; split; reflexivity.
  - pose proof (code_ok f) as Ok. 
    assert (D : (exists a, mxf f = Some (m, a) /\ match f with FMTas _ _ | FMTry _ | FMTry1 _ | FMOwn _ _ | FMUn1 _ _ | FMUn2 _ | FMUn3 _ => True | _ => False end) \/
      (hdf (claims m) [f] = false /\ hdf (un2 m) [f] = false /\ hdf (claims m) (next_frames n) = false /\ hdf (un2 m) (next_frames n) = false /\
       match f with FMTas a _ | FMTry a | FMOwn a _ | FMUn2 a | FMUn3 a => a <> m | _ => True end)).
    { destruct f.
      all: try (right; split; [reflexivity|]; split; [reflexivity|]; clear Ok; code_cases R; cbn [next_frames]; (split; [|split; [|exact I]]; apply hdf_forall; fl_; reflexivity)).
      all: cbn [mxf]; match goal with |- (exists _, Some (?a, _) = _ /\ _) \/ _ => destruct (Nat.eqb_spec a m) as [->|Na]; [left; eauto|right] end.
      all: pose proof Na as Na'; apply Nat.eqb_neq in Na; code_cases R; cbn [next_frames]; repeat split; cbn [hdf claims un2]; auto; apply hdf_forall; fl_; auto. }
    destruct D as [(a & Mf & D)|(D1 & D2 & D3 & D4 & D5)].
    + destruct f; try contradiction; cbn [mxf] in Mf; injection Mf as -> Ea; code_cases R; cbn [atom] in A.
      * destruct (h_mxs h m) as [[] o] eqn:Em; inversion A; subst.
        -- apply x_oth; auto.
        -- eapply (x_acq _ _ _ _ _ _ (FMTas m i) (FMOwn m i)); auto; try (cbn; apply Nat.eqb_refl); try (now rewrite Em).
           all: hs; unfold upd; rewrite Nat.eqb_refl; now rewrite Em.
      * inversion A; subst. eapply x_set; eauto. hs. unfold upd. now rewrite Nat.eqb_refl.
      * destruct (h_mxs h m) as [[] o] eqn:Em; inversion A; subst.
        -- apply x_oth; auto.
        -- eapply (x_acq _ _ _ _ _ _ (FMTry m) (FMTry1 m)); auto; try (cbn; apply Nat.eqb_refl); try (now rewrite Em).
           all: try (intros iz X; discriminate X).
           all: hs; unfold upd; rewrite Nat.eqb_refl; now rewrite Em.
      * eapply x_own; eauto; brki A; try discriminate A; inversion A; subst; reflexivity.
      * inversion A; subst. destruct (snd (h_mxs h' m) =? i) eqn:Ei.
        -- eapply x_chk; eauto. now apply Nat.eqb_eq.
        -- apply x_oth; auto.
      * inversion A; subst. eapply x_un2; eauto. hs. unfold upd. now rewrite Nat.eqb_refl.
      * inversion A; subst. eapply x_rel; eauto. hs. unfold upd. now rewrite Nat.eqb_refl.
    + assert (H : h_mxs h' m = h_mxs h m /\ (h_tr h' = h_tr h \/ exists e, h_tr h' = e :: h_tr h /\ on_mx m e = false)).
      { destruct f; cbn [code] in Ok, R; code_cases R; eapply atom_mxs; eauto; try exact I. }
      destruct H. apply x_oth; auto.
  - pose proof (catch_ok g e) as Ok.
    assert (H : h_mxs h' m = h_mxs h m /\ (h_tr h' = h_tr h \/ exists e, h_tr h' = e :: h_tr h /\ on_mx m e = false)).
    { destruct g; cbn [catch] in Ok, R; code_cases R; eapply atom_mxs; eauto; exact I. }
    destruct H. apply x_oth; auto; clear Ok; destruct g; code_cases R; cbn [next_frames]; apply hdf_forall; fl_; reflexivity.
  - apply x_oth; auto. right. eexists; split; reflexivity.
Qed.

(** ** The owner field *)
Definition mxinv (m : nat) (s : st) : Prop := steady m (trace s) ->
  match mx_holder m (trace s) with
  | None => snd (h_mxs (hp s) m) = invalid_id
  | Some t => attached t (trace s) = Some (snd (h_mxs (hp s) m)) \/
      (snd (h_mxs (hp s) m) = invalid_id /\ hdf (claims m) (stk s t) = true)
  end /\
  (forall t, hdf (claims m) (stk s t) = true -> mx_holder m (trace s) = Some t /\ snd (h_mxs (hp s) m) = invalid_id) /\
  (forall t, hdf (un2 m) (stk s t) = true -> mx_holder m (trace s) = Some t /\ attached t (trace s) = Some (snd (h_mxs (hp s) m))).

Lemma mxh_snoc : forall m tr e, mx_holder m (tr ++ [e]) =
  match e with
  | EvMxAcq t x => if x =? m then Some t else mx_holder m tr
  | EvMxRel _ x => if x =? m then None else mx_holder m tr
  | _ => mx_holder m tr
  end.
Proof. intros. unfold mx_holder. rewrite latest_snoc. destruct e; auto; destruct (_ =? _); auto. Qed.
Lemma mxh_off : forall m tr e, on_mx m e = false -> mx_holder m (tr ++ [e]) = mx_holder m tr.
Proof. intros m tr e H. rewrite mxh_snoc. destruct e; auto; cbn in H; now rewrite H. Qed.
Lemma att_unique : forall s t u i, reachable s -> attached t (trace s) = Some i -> attached u (trace s) = Some i -> t = u /\ i <> invalid_id.
Proof.
  intros s t u i R A B. rewrite <- (rd_loc s R) in A, B. apply (loc_own_reachable s R) in A as [P A], B as [_ B]. 
  split; [congruence|]. unfold invalid_id. lia.
Qed.
Lemma stk_next : forall s t pre rest h n u, reachable s -> stk s t = pre ++ rest -> lstep (hp s) t pre h n -> u <> t ->
  set_next (stk s) t n rest u = stk s u \/ (stk s u = [] /\ exists b, set_next (stk s) t n rest u = tframes b).
Proof.
  intros s t pre rest h n u R E L N. destruct n as [fs|c cfs fs]; cbn [set_next]; rewrite !upd_eq; destruct (Nat.eqb_spec u t); try congruence; auto.
  destruct (Nat.eqb_spec u c); auto. subst c. right.
  apply lstep_tst in L as [(b & k & inp & _ & F & _ & _ & Y)|[(_ & X & _)|((fs' & X) & _)]]; try discriminate.
  injection Y as Y1 Y2 Y3. subst. split; [now apply fresh_empty|now exists b].
Qed.
Lemma set_next_own : forall (k : tid -> list frame) t rest n, set_next k t n rest t = next_frames n ++ rest.
Proof. intros k t rest [fs|c cfs fs]; cbn [set_next next_frames]; now rewrite upd_same. Qed.
Lemma hdf_under : forall s t pre rest h n P, reachable s -> stk s t = pre ++ rest -> lstep (hp s) t pre h n ->
  (forall f, under f = true -> P f = false) -> hdf P (next_frames n) = false -> hdf P (next_frames n ++ rest) = false.
Proof.
  intros s t pre rest h n P R E L HP H. destruct (next_frames n) as [|f fs]; [cbn|exact H].
  destruct rest as [|f r]; [reflexivity|]. apply HP. pose proof (under_reachable s R t) as U. destruct (lstep_pre _ _ _ _ _ L) as (P1 & _).
  destruct pre as [|p pre]; [congruence|]. rewrite E in U. cbn [tl app] in U. rewrite unders_app in U. apply andb_true_iff in U as [_ U].
  cbn in U. now apply andb_true_iff in U.
Qed.

Theorem mxinv_reachable : forall m s, reachable s -> mxinv m s.
Proof.
  intros m. apply (reachable_ind'' (mxinv m)).
  - intros _. cbn. split; auto. split; intros [|t] H; discriminate H.
  - intros s s' R R' IH U Tr. destruct Tr as [d|t pre rest u E L|t pre rest h n E L]; [|exact IH|].
    + intros S. change (trace _) with (trace s ++ [EvTick (Zpos d)]) in *. cbn [hp stk] in *. hs.
      destruct (IH (steady_app _ _ _ S)) as (I1 & I2 & I3). rewrite mxh_snoc.
      assert (K : forall u, mx_holder m (trace s) = Some u -> attached u (trace s ++ [EvTick (Zpos d)]) = attached u (trace s)) by (intros u Hu; eapply steady_keep; eauto; now left).
      split; [|split; auto].
      * destruct (mx_holder m (trace s)) eqn:Hm; auto. rewrite K by auto. exact I1.
      * intros t Ht. destruct (I3 t Ht) as [A B]. rewrite K; auto.
    + intros S. change (trace _) with (tr_of h) in *. cbn [hp stk] in *.
      pose proof (tr_step _ _ _ _ _ L) as T.
      assert (S0 : steady m (trace s)) by (destruct T as [T|[e T]]; rewrite T in S; [exact S|now apply steady_app in S]).
      destruct (IH S0) as (I1 & I2 & I3). clear IH.
      assert (K : forall u, mx_holder m (trace s) = Some u -> attached u (tr_of h) = attached u (trace s)).
      { intros u Hu. destruct T as [->|[e T]]; auto. rewrite T in *. eapply steady_keep; eauto. now left. }
      assert (OC : forall u, u <> t -> hdf (claims m) (set_next (stk s) t n rest u) = true -> hdf (claims m) (stk s u) = true).
      { intros u N H. destruct (stk_next _ _ _ _ _ _ u R E L N) as [X|(X & b & Y)]; [now rewrite X in H|]. rewrite Y in H. destruct b; discriminate H. }
      assert (OU : forall u, u <> t -> hdf (un2 m) (set_next (stk s) t n rest u) = true -> hdf (un2 m) (stk s u) = true).
      { intros u N H. destruct (stk_next _ _ _ _ _ _ u R E L N) as [X|(X & b & Y)]; [now rewrite X in H|]. rewrite Y in H. destruct b; discriminate H. }
      assert (OR : forall u, u <> t -> hdf (claims m) (stk s u) = true -> hdf (claims m) (set_next (stk s) t n rest u) = true).
      { intros u N H. destruct (stk_next _ _ _ _ _ _ u R E L N) as [X|(X & b & Y)]; [now rewrite X|]. rewrite X in H. discriminate H. }
      assert (TR : forall e, h_tr h = e :: h_tr (hp s) -> tr_of h = trace s ++ [e]) by (intros e X; unfold tr_of; rewrite X; reflexivity).
      assert (TR0 : h_tr h = h_tr (hp s) -> tr_of h = trace s) by (intros X; unfold tr_of; now rewrite X).
      assert (UC : hdf (claims m) (next_frames n) = false -> hdf (claims m) (set_next (stk s) t n rest t) = false).
      { rewrite set_next_own. apply (hdf_under s t pre rest h n); auto. intros [] X; try reflexivity; discriminate X. }
      assert (UU : hdf (un2 m) (next_frames n) = false -> hdf (un2 m) (set_next (stk s) t n rest t) = false).
      { rewrite set_next_own. apply (hdf_under s t pre rest h n); auto. intros [] X; try reflexivity; discriminate X. }
      pose proof (replay_mxs m s R) as RP.
      destruct (lstep_mx m _ _ _ _ _ L) as [f g Ep Mf En Cg Ig Fl Ex X|i Ep En Ex X|i Ep En Ex X|i Ep En Ow Ex X|Ep En Ex X|Ep En Ex X|C1 C2 C3 C4 Ex X]; rewrite Ex; cbn [fst snd].
      * (* acquired *)
        rewrite Fl in RP. destruct (mx_holder m (trace s)) eqn:Hm; [discriminate RP|].
        rewrite (TR _ X), mxh_snoc, Nat.eqb_refl.
        assert (Tg : set_next (stk s) t n rest t = g :: rest) by (rewrite set_next_own, En; reflexivity).
        split; [right; split; auto; rewrite Tg; exact Cg|]. split.
        -- intros u H. destruct (Nat.eq_dec u t) as [->|N]; auto. apply (OC u N) in H. destruct (I2 u H); discriminate.
        -- intros u H. destruct (Nat.eq_dec u t) as [->|N].
           ++ rewrite Tg in H. cbn in H. destruct g; discriminate.
           ++ apply (OU u N) in H. destruct (I3 u H); discriminate.
      * (* about to become owner *)
        rewrite (TR0 X). assert (Hc : hdf (claims m) (stk s t) = true) by (rewrite E, Ep; cbn; apply Nat.eqb_refl).
        assert (Hc' : hdf (claims m) (set_next (stk s) t n rest t) = true) by (rewrite set_next_own, En; cbn; apply Nat.eqb_refl).
        destruct (I2 t Hc) as [A B]. rewrite A in *. split; [right; auto|]. split.
        -- intros u H. destruct (Nat.eq_dec u t) as [->|N]; auto.
        -- intros u H. destruct (Nat.eq_dec u t) as [->|N]; auto. rewrite set_next_own, En in H. discriminate H.
      * (* owner set *)
        rewrite (TR0 X). assert (Hc : hdf (claims m) (stk s t) = true) by (rewrite E, Ep; cbn; apply Nat.eqb_refl).
        destruct (I2 t Hc) as [A B]. rewrite A in *.
        assert (At : attached t (trace s) = Some i) by (eapply frame_att; eauto; [rewrite E, Ep; now left|reflexivity]).
        split; [now left|]. split.
        -- intros u H. destruct (Nat.eq_dec u t) as [->|N]; [rewrite UC in H; [discriminate H|now rewrite En]|].
           apply (OC u N) in H. destruct (I2 u H). congruence.
        -- intros u H. destruct (Nat.eq_dec u t) as [->|N]; [rewrite UU in H; [discriminate H|now rewrite En]|].
           apply (OU u N) in H. destruct (I3 u H). congruence.
      * (* owner checked *)
        rewrite (TR0 X). assert (At : attached t (trace s) = Some i) by (eapply frame_att; eauto; [rewrite E, Ep; now left|reflexivity]).
        destruct (att_unique s t t i R At At) as [_ Ni].
        assert (Hm : mx_holder m (trace s) = Some t).
        { destruct (mx_holder m (trace s)) as [u|]; [|congruence]. destruct I1 as [I1|[I1 _]]; [|congruence]. rewrite Ow in I1.
          destruct (att_unique s t u i R At I1) as [-> _]. reflexivity. }
        rewrite Hm in *. rewrite Ow in *. split; [now left|]. split.
        -- intros u H. destruct (Nat.eq_dec u t) as [->|N]; [rewrite UC in H; [discriminate H|now rewrite En]|]. apply (OC u N) in H. auto.
        -- intros u H. destruct (Nat.eq_dec u t) as [->|N]; auto.
      * (* owner cleared *)
        rewrite (TR0 X). assert (Hc : hdf (un2 m) (stk s t) = true) by (rewrite E, Ep; cbn; apply Nat.eqb_refl).
        destruct (I3 t Hc) as [A B]. rewrite A in *.
        assert (Hc' : hdf (claims m) (set_next (stk s) t n rest t) = true) by (rewrite set_next_own, En; cbn; apply Nat.eqb_refl).
        split; [right; auto|]. split.
        -- intros u H. destruct (Nat.eq_dec u t) as [->|N]; auto. apply (OC u N) in H. destruct (I2 u H). auto.
        -- intros u H. destruct (Nat.eq_dec u t) as [->|N]; [rewrite UU in H; [discriminate H|now rewrite En]|].
           apply (OU u N) in H. destruct (I3 u H). congruence.
      * (* released *)
        rewrite (TR _ X), mxh_snoc, Nat.eqb_refl.
        assert (Hc : hdf (claims m) (stk s t) = true) by (rewrite E, Ep; cbn; apply Nat.eqb_refl).
        destruct (I2 t Hc) as [A B]. split; auto. split.
        -- intros u H. destruct (Nat.eq_dec u t) as [->|N]; [rewrite UC in H; [discriminate H|now rewrite En]|].
           apply (OC u N) in H. destruct (I2 u H). congruence.
        -- intros u H. destruct (Nat.eq_dec u t) as [->|N]; [rewrite UU in H; [discriminate H|now rewrite En]|].
           apply (OU u N) in H. destruct (I3 u H). congruence.
      * (* anything else *)
        assert (Hm : mx_holder m (tr_of h) = mx_holder m (trace s)).
        { destruct X as [X|(e & X & O)]; [now rewrite (TR0 X)|]. rewrite (TR _ X). now apply mxh_off. }
        rewrite Hm. 
        assert (Hp : hdf (claims m) (stk s t) = false).
        { rewrite E. destruct (lstep_pre _ _ _ _ _ L) as (P1 & _). destruct pre; [congruence|exact C1]. }
        split; [|split].
        -- destruct (mx_holder m (trace s)) as [u|]; auto. rewrite K by auto. destruct I1 as [I1|[I1 J1]]; [now left|right].
           split; auto. apply OR; auto. intros ->. congruence.
        -- intros u H. destruct (Nat.eq_dec u t) as [->|N]; [rewrite UC in H; [discriminate H|auto]|]. apply (OC u N) in H. auto.
        -- intros u H. destruct (Nat.eq_dec u t) as [->|N]; [rewrite UU in H; [discriminate H|auto]|]. apply (OU u N) in H.
           destruct (I3 u H) as [A B]. rewrite K; auto.
Qed.

(** Only the holder releases a mutex. *)
Theorem rel_holder : forall m s, reachable s -> steady m (trace s) -> at_each (fun tr e => match e with
  | EvMxRel t x => x = m -> mx_holder m tr = Some t
  | _ => True end) (trace s).
Proof.
  intros m. assert (H : forall s, reachable s -> at_each (fun tr e => steady m tr -> match e with EvMxRel t x => x = m -> mx_holder m tr = Some t | _ => True end) (trace s)).
  2: { intros s R S a e b E. rewrite E in S. apply steady_app in S. exact (H s R a e b E S). }
  apply (event_rule reachable); auto.
  - intros s t pre rest h n e R U E L X. destruct e; auto. intros S ->.
    destruct (mxinv_reachable m s R S) as (_ & I2 & _).
    destruct (lstep_mx m _ _ _ _ _ L) as [f g Ep Mf En Cg Ig Fl Ex Y|i Ep En Ex Y|i Ep En Ex Y|i Ep En Ow Ex Y|Ep En Ex Y|Ep En Ex Y|C1 C2 C3 C4 Ex Y].
    all: try (rewrite Y in X; try injection X as <- ; try discriminate X).
    all: try (exfalso; now apply cons_neq in X).
    + apply I2. rewrite E, Ep. cbn. apply Nat.eqb_refl.
    + destruct Y as [Y|(e & Y & O)]; rewrite Y in X; [exfalso; now apply cons_neq in X|]. injection X as ->. cbn in O. rewrite Nat.eqb_refl in O. discriminate O.
Qed.
