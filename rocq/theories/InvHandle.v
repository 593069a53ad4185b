(** * InvHandle: job handles that outlive their pool. *)
From Verif Require Import Types Core State Ops Code Machine Base Spec SpecApi SpecUb SpecHandle Rules Events InvCtx InvStack InvRefs
  Calls Contract ContractLib Replay ReplayObj InvTop InvUb InvFill ThmRegistry ThmObj SpecPoolApi ApiPool.

Definition had (o x : nat) (tr : list event) : Prop := exists a b, tr = a ++ b /\ sent_of o a = Some x.
Lemma sents_snoc : forall tr e, sents (tr ++ [e]) = sent_step (sents tr) e.
Proof. intros. unfold sents. now rewrite fold_left_app. Qed.
Lemma had_app : forall o x tr l, had o x tr -> had o x (tr ++ l).
Proof. intros o x tr l (a & b & -> & H). exists a, (b ++ l). now rewrite app_assoc. Qed.
Lemma had_snoc : forall o x tr e, had o x (tr ++ [e]) -> had o x tr \/ sent_of o (tr ++ [e]) = Some x.
Proof.
  intros o x tr e (a & b & E & H). destruct b as [|e' b _] using rev_ind.
  - rewrite app_nil_r in E. subst a. now right.
  - rewrite app_assoc in E. apply app_inj_tail in E as [-> <-]. left. exists a, b. auto.
Qed.
Lemma put_app : forall o tr l, stays_put o (tr ++ l) -> stays_put o tr.
Proof. intros o tr l H t d s I. apply (H t d s). destruct I; [left|right]; apply in_or_app; auto. Qed.
Lemma put_last : forall o tr e, stays_put o (tr ++ [e]) -> match e with EvPoolMove _ d s | EvPoolSent _ d s => d <> o /\ s <> o | _ => True end.
Proof. intros o tr e H. destruct e; auto; apply (H t); [left|right]; apply in_or_app; right; now left. Qed.

Definition sinv (h : heap) (tr : list event) : Prop :=
  (forall o, snd (h_pobj h o) = sent_of o tr) /\ h_nsent h = snd (sents tr) /\
  (forall o x, had o x tr -> x < h_nsent h) /\
  (forall o x, stays_put o tr -> had o x tr -> h_sents h x = true -> snd (h_pobj h o) = Some x /\ fst (h_pobj h o) <> None) /\
  (forall o x u a b, tr = a ++ EvPoolKill u o :: b -> had o x a -> stays_put o tr -> h_sents h x = false).
(** An event that concerns no pool object. *)
Lemma sinv_skip : forall h h' tr e, sent_step (sents tr) e = sents tr -> match e with EvPoolKill _ _ => False | _ => True end ->
  h_pobj h' = h_pobj h -> h_nsent h' = h_nsent h -> h_sents h' = h_sents h -> sinv h tr -> sinv h' (tr ++ [e]).
Proof.
  intros h h' tr e S K P N Z (A & B & C & D & F).
  assert (So : forall o, sent_of o (tr ++ [e]) = sent_of o tr) by (intros o; unfold sent_of; now rewrite sents_snoc, S).
  assert (Ha : forall o x, had o x (tr ++ [e]) -> had o x tr).
  { intros o x H. apply had_snoc in H as [H|H]; auto. rewrite So in H. exists tr, []. now rewrite app_nil_r. }
  unfold sinv. rewrite P, N, Z, sents_snoc, S. split; [|split; [auto|split; [|split]]].
  - intros o. rewrite So. apply A.
  - intros o x H. apply (C o). auto.
  - intros o x St H. apply (D o x); eauto using put_app.
  - intros o x u a b E H St. destruct b as [|e' b _] using rev_ind.
    + apply app_inj_tail in E as [_ ->]. contradiction.
    + rewrite app_comm_cons, app_assoc in E. apply app_inj_tail in E as [E <-]. apply (F o x u a b); eauto using put_app.
Qed.
Lemma sinv_same : forall h h' tr, h_pobj h' = h_pobj h -> h_nsent h' = h_nsent h -> h_sents h' = h_sents h -> sinv h tr -> sinv h' tr.
Proof. intros h h' tr P N Z H. unfold sinv. now rewrite P, N, Z. Qed.
Lemma sinv_ev : forall h h' tr e, sinv h tr ->
  (forall o, snd (h_pobj h' o) = sent_of o (tr ++ [e])) ->
  h_nsent h' = snd (sents (tr ++ [e])) -> h_nsent h <= h_nsent h' ->
  (forall o x, sent_of o (tr ++ [e]) = Some x -> x < h_nsent h') ->
  (forall o x, stays_put o (tr ++ [e]) -> had o x tr \/ sent_of o (tr ++ [e]) = Some x -> h_sents h' x = true -> snd (h_pobj h' o) = Some x /\ fst (h_pobj h' o) <> None) ->
  (forall x, x < h_nsent h -> h_sents h x = false -> h_sents h' x = false) ->
  (forall u o x, e = EvPoolKill u o -> stays_put o tr -> had o x tr -> h_sents h' x = false) ->
  sinv h' (tr ++ [e]).
Proof.
  intros h h' tr e (A & B & C & D & F) A' B' L C' D' M K. split; [exact A'|]. split; [exact B'|]. split; [|split].
  - intros o x H. apply had_snoc in H as [H|H]; [|eauto]. apply C in H. lia.
  - intros o x St H. apply had_snoc in H. eauto.
  - intros o x u a b E H St. destruct b as [|e' b _] using rev_ind.
    + apply app_inj_tail in E as [-> ->]. apply (K u o x); eauto using put_app.
    + rewrite app_comm_cons, app_assoc in E. apply app_inj_tail in E as [E <-]. apply M; [|apply (F o x u a b); eauto using put_app].
      apply (C o). rewrite E. apply (had_app o x a). exact H.
Qed.
Lemma sent_lt : forall h tr o x, sinv h tr -> sent_of o tr = Some x -> x < h_nsent h.
Proof. intros h tr o x (_ & _ & C & _) H. apply (C o). exists tr, []. now rewrite app_nil_r. Qed.
Theorem sinv_reachable : forall s, reachable s -> sinv (hp s) (trace s).
Proof.
  apply (replay_rule sinv).
  - split; [reflexivity|]. split; [reflexivity|]. split; [|split].
    + intros o x (a & b & E & H). destruct a; [discriminate H|discriminate E].
    + intros o x _ (a & b & E & H). destruct a; [discriminate H|discriminate E].
    + intros o x u a b E. destruct a; discriminate E.
  - intros h l d IH. apply (sinv_skip h); auto. destruct (sents l). reflexivity.
  - intros h l e IH Ok. apply (sinv_skip h); auto; destruct e; cbn in Ok; try contradiction; auto; destruct (sents l); reflexivity.
  - intros h ? ? [] ? ? ? G O IH At NN; try contradiction; atom_split At;
      try (apply (sinv_same h); [reflexivity..|exact IH]; fail);
      try (apply (sinv_skip h); [destruct (sents (tr_of h)); reflexivity|exact I|reflexivity..|exact IH]; fail).
    all: try exact IH.
    all: pose proof IH as (A & B & C & D & F).
    all: assert (So : forall o e, sent_of o (tr_of h ++ [e]) = fst (sent_step (sents (tr_of h)) e) o) by (intros; unfold sent_of; now rewrite sents_snoc).
    all: destruct (sents (tr_of h)) as [m k] eqn:Es; cbn [sent_step fst] in So.
    all: apply (sinv_ev h); auto; hs; rewrite ?sents_snoc, ?Es; cbn [sent_step snd]; auto.
    all: try (intros; discriminate).
    all: assert (Am : forall q, snd (h_pobj h q) = m q) by (intros q; rewrite A; unfold sent_of; now rewrite Es).
    all: assert (HM : forall q y, m q = Some y -> had q y (tr_of h)) by (intros q y H; exists (tr_of h), []; rewrite app_nil_r; split; auto; unfold sent_of; now rewrite Es).
    all: assert (LT : forall q y, m q = Some y -> y < h_nsent h) by (intros q y H; now apply (C q), HM).
    all: cbn [snd] in B.
    all: repeat match goal with H : (_ =? _) = true |- _ => apply Nat.eqb_eq in H | H : (_ =? _) = false |- _ => apply Nat.eqb_neq in H end; subst.
    all: try (match goal with |- forall o : nat, snd _ = _ => intros q; rewrite So; cbn [fst]; unfold upd; repeat match goal with |- context [?a =? ?b] => destruct (Nat.eqb_spec a b); subst end; cbn [fst snd]; rewrite ?Am; congruence end).
    all: try (match goal with |- forall o x : nat, sent_of _ _ = Some _ -> _ => intros q y H; rewrite So in H; cbn [fst] in H; repeat match type of H with context [?a =? ?b] => destruct (Nat.eqb_spec a b); subst end; try discriminate H; try (injection H as <-; lia); apply LT in H; lia end).
    all: try (match goal with |- forall x : nat, _ -> _ -> _ = false => intros y H1 H2; unfold upd; repeat match goal with |- context [?a =? ?b] => destruct (Nat.eqb_spec a b); subst end; auto; lia end).
    all: try (match goal with |- forall o x : nat, stays_put _ _ -> _ =>
      intros q y St H X; pose proof (put_last _ _ _ St) as Pl; cbn in Pl; apply put_app in St; rewrite So in H; cbn [fst] in H; unfold upd in *;
      assert (Hn : had q y (tr_of h) -> y < h_nsent h) by (intros; now apply (C q)); specialize (D q y St);
      repeat match goal with |- context [?a =? ?b] => destruct (Nat.eqb_spec a b); subst end; cbn [fst snd]; try tauto end).
    all: repeat match goal with H : _ \/ _ |- _ => destruct H as [H|H] | H : context [if ?a =? ?b then _ else _] |- _ => destruct (Nat.eqb_spec a b); subst end.
    all: try discriminate; try (exfalso; tauto).
    all: try (match goal with H : had ?q ?y _ |- _ /\ _ => pose proof (C _ _ H); try lia end).
    all: try (match goal with H : ?mm _ = Some _ |- _ /\ _ => pose proof (LT _ _ H); pose proof (HM _ _ H); try lia end).
    all: try (split; [reflexivity|discriminate]).
    all: try (injection H as <-; split; [reflexivity|discriminate]).
    all: try (match goal with |- _ /\ _ => apply D; auto; fail end).
    all: try (match goal with |- _ /\ _ => destruct D as [Da Db]; auto; first [contradiction | congruence | rewrite Heqp in Da; cbn in Da; congruence | tauto]  end).
    all: try (intros u q y Eq St Hd; injection Eq as Eq1 Eq2; subst; specialize (D _ _ St Hd); unfold upd;
       repeat match goal with |- context [?a =? ?b] => destruct (Nat.eqb_spec a b); subst end; auto;
       destruct (h_sents h y) eqn:X; auto; destruct D as [Da Db]; auto; rewrite Heqp in Da; cbn in Da; congruence).
Qed.

(** ** Calls through a handle *)
Definition lives (o x : nat) (m : list event) : Prop := stays_put o m -> had o x m -> pool_of o m <> None.
(** First the pool was found alive, later it was gone. *)
Definition lost (o x : nat) (cl : call) (tr : list event) : Prop :=
  exists m l, moment cl tr m /\ moment cl tr (m ++ l) /\ lives o x m /\ pool_of o (m ++ l) = None.
Definition hok (cl : call) (tr : list event) (f : frame) : Prop :=
  match f with
  | FJob s o a => (exists j, by_handle (cl_api cl) = Some (s, o, j)) /\ match a with PaStop _ | PaChange _ _ => True | _ => False end
  | FPApi o a => match a with PaSched g v u c => cl_api cl = APSched o g v u c | _ => True end /\
      forall s o' j, by_handle (cl_api cl) = Some (s, o', j) -> o' = o /\ exists x, s = Some x /\ sometime cl tr (lives o x)
  | FSched o _ _ _ _ _ | FSched1 o _ _ _ _ _ | FSched2 o _ _ _ _ _ _ | FSched3 o _ _ _ _ _ _ | FSched4 o _ _ | FSched5 o _ _ =>
      exists g v u c, cl_api cl = APSched o g v u c
  | FRes (RJob _ _ x) => exists o g v u c, cl_api cl = APSched o g v u c /\ sometime cl tr (fun m => sent_of o m = x)
  | FUb (UbNullPool o) => forall s o' j, by_handle (cl_api cl) = Some (s, o', j) -> o' = o /\ exists x, s = Some x /\ lost o x cl tr
  | _ => True
  end.
Lemma lost_mono : forall o x cl tr a l, lost o x cl tr -> lost o x (add_acts a cl) (tr ++ l).
Proof. intros o x cl tr a l (m & l' & M1 & M2 & H). exists m, l'. split; [now apply mo_mono|]. split; [now apply mo_mono|exact H]. Qed.
Lemma hok_mono : forall cl tr a l f, hok cl tr f -> hok (add_acts a cl) (tr ++ l) f.
Proof.
  intros cl tr a l f H. destruct f; auto; cbn [hok] in *.
  - destruct r; auto. destruct H as (o & g & v & u & c & E & H). exists o, g, v, u, c. split; eauto with mono.
  - destruct u; auto. intros s o' j E. destruct (H s o' j E) as (-> & x & -> & K). split; auto. exists x. split; auto. now apply lost_mono.
  - destruct H as [H1 H2]. split; auto. intros s o' j E. destruct (H2 s o' j E) as (-> & x & -> & K). split; auto. exists x. split; eauto with mono.
Qed.
Lemma hok_tr : forall cl tr l f, hok cl tr f -> hok cl (tr ++ l) f.
Proof. intros cl tr l f H. apply (hok_mono _ _ [] l) in H. destruct cl as [c p a]. unfold add_acts in H. cbn in H. now rewrite app_nil_r in H. Qed.
Lemma hok_start : forall c pre tr, Forall (hok (mkCall c pre []) tr) (api_frames c).
Proof. intros c pre tr. destruct c; cbn; repeat constructor; cbn; eauto; try discriminate. Qed.
Lemma hok_destroy : forall cl tr l, Forall (hok cl tr) (destroy l).
Proof. intros cl tr [|k l]; cbn; repeat constructor. Qed.
Lemma hok_lresume : forall cl tr k b o, Forall (hok cl tr) (lresume k b o).
Proof. intros cl tr k b o. destruct k; cbn [lresume]; try (apply Forall_app; split; [apply hok_destroy|]); fu; auto using hok_destroy. Qed.
Lemma hok_sp : forall cl tr n i k, Forall (hok cl tr) (spresume n i k).
Proof. intros cl tr n i k. destruct k; cbn [spresume]; repeat constructor. Qed.
Lemma hok_wresume : forall cl tr k b, Forall (hok cl tr) (wresume k b).
Proof. intros cl tr k b. destruct k; cbn [wresume]; fu. Qed.
Lemma hok_gresume : forall cl tr g f, Forall (hok cl tr) (gresume g f).
Proof. intros cl tr g f. destruct g; cbn [gresume]; fu. Qed.
Lemma hok_semresume : forall cl tr k b, Forall (hok cl tr) (semresume k b).
Proof. intros cl tr k b. destruct k; cbn [semresume] in *; try (destruct dur; [destruct b|]); fu. Qed.
Lemma hok_step : forall s t cl pre r h n, reachable s -> incall t cl (trace s) -> lstep (hp s) t pre h n -> (forall c, h <> emit (hp s) (EvCall t c)) ->
  Forall (hok cl (trace s)) (pre ++ r) -> Forall (hok (add_acts (new_acts t (hp s) h) cl) (tr_of h)) (next_frames n ++ r).
Proof.
  intros s t cl pre r h n R IC L NC F. destruct (lstep_trl _ _ _ _ _ L) as [l El]. change (tr_of (hp s)) with (trace s) in El.
  apply Forall_app in F as [Fp Fr]. apply Forall_app. split.
  2: { eapply Forall_impl; [|exact Fr]. intros f Hf. rewrite El. now apply hok_mono. }
  assert (Ec : cl_api (add_acts (new_acts t (hp s) h) cl) = cl_api cl) by reflexivity.
  assert (Now : forall P : list event -> Prop, P (trace s) -> sometime (add_acts (new_acts t (hp s) h) cl) (tr_of h) P).
  { intros P H. rewrite El. now apply (st_now t cl). }
  assert (Mono : forall P, sometime cl (trace s) P -> sometime (add_acts (new_acts t (hp s) h) cl) (tr_of h) P).
  { intros P H. rewrite El. now apply st_mono. }
  set (cl' := add_acts (new_acts t (hp s) h) cl) in *. pose proof (sinv_reachable s R) as (A0 & B0 & C0 & D0 & F0).
  lstep_cases L; cbn [next_frames].
  all: try (now destruct (NC c)).
  all: inversion Fp as [|? ? F1 _]; subst; clear Fp; cbn [hok] in F1.
  all: repeat match goal with |- context [match ?x with _ => _ end] => destruct x eqn:? end.
  all: unfold run_one; repeat first [apply Forall_nil|apply Forall_app; split|apply Forall_cons|apply hok_destroy|apply hok_sp|apply hok_wresume|apply hok_gresume|apply hok_semresume|apply hok_lresume].
  all: try exact I.
  all: cbn [hok]; auto.
  - destruct fin; cbn; repeat constructor.
  - exfalso. cbn [atom] in A. op_unfold A. brki A; try discriminate A; injection A as _ A; unfold fs_get in A; brki A; discriminate A.
  - destruct a; cbn [wresume_after]; fu.
  - destruct F1 as [F1 _]. destruct a; cbn [pact_frames]; repeat constructor. cbn [hok]. rewrite Ec. eauto.
  - destruct F1 as [_ F1]. intros s1 o' j Eb. destruct (F1 s1 o' j Eb) as (-> & y & -> & (m & M & Lv)). split; auto. exists y. split; auto.
    cbn [atom] in A. injection A as <- <-. pose proof M as (a1 & b1 & E1 & E2). exists m, b1. rewrite <- E2. split; [now apply moment_acts|].
    split; [apply moment_acts; eapply moment_now; eauto|]. split; auto. rewrite <- (replay_pobj s R). now destruct (h_pobj (hp s) o).
  - destruct F1 as (g & v & u & c & F1). cbn [atom] in A. injection A as <- <-. exists o, g, v, u, c. split; [exact F1|]. apply Now. now rewrite <- A0.
  - destruct F1 as [(j & F1) F2]. split; [destruct a; auto; contradiction|]. intros s1 o' j' Eb. rewrite Ec in Eb. rewrite F1 in Eb. injection Eb as <- <- <-. split; auto.
    cbn [atom] in A. injection A as <- Ex. destruct s0 as [y|]; [|discriminate Ex]. exists y. split; auto. apply Now. intros St Hd.
    destruct (D0 o y St Hd Ex) as [_ D]. now rewrite (replay_pobj s R) in D.
Qed.
Theorem hok_reachable : forall s, reachable s -> forall t,
  lnk (fun cl seg => incall t cl (trace s) /\ Forall (hok cl (trace s)) seg) (stk s t) (open_calls t (trace s)).
Proof.
  apply (bot_rule (fun t cl tr seg => Forall (hok cl tr) seg)).
  - intros s t c pre _ _. apply hok_start.
  - intros t cl tr tr' seg _ F (s & l & _ & _ & -> & _). eapply Forall_impl; [|exact F]. intros f. apply hok_tr.
  - intros t cl tr tr' l seg _ F _ ->. eapply Forall_impl; [|exact F]. intros f. apply hok_tr.
  - intros s s' t cl pre r rest h n R _ _ _ E L _ NC C _ H. now apply (hok_step s t cl pre r h n).
Qed.
Lemma hok_call : forall s t f rest, reachable s -> stk s t = f :: rest -> needs f = true ->
  exists cl, inside t cl (trace s) /\ incall t cl (trace s) /\ hok cl (trace s) f.
Proof.
  intros s t f rest R E N. pose proof (calls_reachable s R t) as C. rewrite E in C. destruct C as [C _]. specialize (C N).
  pose proof (hok_reachable s R t) as L. rewrite E in L. remember (f :: rest) as fs eqn:Ef. remember (open_calls t (trace s)) as cs0 eqn:Ecs. destruct L as [fs0 N0|seg cl u fin below cs N0 [I F] _].
  - exfalso. subst. unfold no_api in *. cbn in N0. destruct f; try discriminate N; cbn in N0; congruence.
  - exists cl. split; [exists cs; symmetry; exact Ecs|]. split; auto. destruct seg as [|g seg]; cbn in Ef; injection Ef as Eg Er.
    + subst f. discriminate N.
    + subst g. now inversion F.
Qed.

(** The sentinel in a handle is the one its pool object had. *)
Theorem issued_sent : forall s, reachable s ->
  each_return (fun t cl tr r => forall o g v u c h j x, cl_api cl = APSched o g v u c -> r = RJob h j x -> sometime cl tr (fun m => sent_of o m = x)) (trace s).
Proof.
  apply (ret_rule (fun h t cl seg => incall t cl (tr_of h) /\ Forall (hok cl (tr_of h)) seg)); [exact hok_reachable|].
  intros s t cl r top R T [C F] o g v u c h j x Ea ->. destruct T as [[T _]|[->|(e & T & _)]]; try discriminate T.
  inversion F as [|? ? F1 _]; subst. destruct F1 as (o' & g' & v' & u' & c' & E & H). rewrite Ea in E. injection E as <- <- <- <- <-. exact H.
Qed.
Lemma issued_had : forall s o x j a b, reachable s -> trace s = a ++ b -> issued o x j a -> had o x a.
Proof.
  intros s o x j a b R E (t & g & v & u & c & h & I). apply in_split in I as (a1 & a2 & ->).
  assert (E' : trace s = a1 ++ EvRet t (APSched o g v u c) (RJob h j (Some x)) :: (a2 ++ b)) by (rewrite E, <- app_assoc; reflexivity).
  destruct (issued_sent s R _ _ _ E') as (cl & rest & _ & Ea & P). destruct (P o g v u c h j (Some x) Ea eq_refl) as (m & (l1 & l2 & Em & El) & H).
  subst a1. rewrite <- app_assoc. apply had_app. exists m, []. split; auto. now rewrite app_nil_r.
Qed.
Lemma pool_none : forall o l tr, stays_put o (tr ++ l) -> pool_of o tr <> None -> pool_of o (tr ++ l) = None -> exists u, In (EvPoolKill u o) l.
Proof.
  intros o l tr St A B. induction l as [|e l IH] using rev_ind; [rewrite app_nil_r in B; congruence|].
  rewrite app_assoc in St, B. pose proof (put_last _ _ _ St) as Pl. pose proof (put_app _ _ _ St) as St'.
  assert (X : (exists u, e = EvPoolKill u o) \/ pool_of o (tr ++ l) = None).
  { unfold pool_of in *. rewrite fold_left_app in B. destruct e; auto; cbn [fold_left pool_step] in B; try destruct Pl.
    all: repeat match type of B with context [?a =? ?b] => destruct (Nat.eqb_spec a b); subst end; try discriminate B; try congruence; eauto. }
  destruct X as [[u ->]|X]; [exists u; apply in_or_app; right; now left|]. destruct (IH St' X) as [u I]. exists u. apply in_or_app. auto.
Qed.
(** A call through a handle finds no pool only if the pool was destroyed meanwhile. *)
Theorem handle_null : forall s t cl o x j o', reachable s -> inside t cl (trace s) -> by_handle (cl_api cl) = Some (Some x, o, j) ->
  issued o x j (cl_pre cl) -> stays_put o (trace s) -> goes_wrong s t (UbNullPool o') ->
  o' = o /\ exists l u, trace s = cl_pre cl ++ l /\ In (EvPoolKill u o) l.
Proof.
  intros s t cl o x j o' R [cs Ins] Eb Is St W. destruct (wrong_lub s t _ W) as (U & pre & rest & E & L).
  assert (K : pre = [FUb (UbNullPool o')]).
  { clear - L. remember (UbNullPool o') as u eqn:Eu. destruct L as [inp f u Ru|inp e g u Ru].
    2: { destruct g; cbn [catch ubruns] in Ru; try contradiction; cbn [atom] in Ru; try discriminate Ru; op_unfold Ru; brki Ru; try discriminate Ru; injection Ru as <-; discriminate Eu. }
    destruct f; cbn [code ubruns] in Ru.
    all: repeat match type of Ru with context [match ?x with _ => _ end] => destruct x eqn:?; cbn [ubruns] in Ru end; try contradiction.
    all: cbn [atom] in Ru; try discriminate Ru; op_unfold Ru; brki Ru; try discriminate Ru; injection Ru as Ru; subst; try discriminate Eu; try (injection Eu as ->); auto; try discriminate; try congruence. }
  subst pre. destruct (hok_call s t _ rest R E eq_refl) as (cl' & [cs' Ins'] & _ & Ok). rewrite Ins in Ins'. injection Ins' as <- <-. cbn [hok] in Ok.
  destruct (Ok _ _ _ Eb) as (<- & y & Ey & (m & l & (a1 & b1 & Em & Ea) & (a2 & b2 & Em2 & Ea2) & Lv & Nn)). injection Ey as <-. split; auto.
  assert (Hd : had o x (cl_pre cl)) by (apply (issued_had s o x j (cl_pre cl) (a1 ++ b1)); auto; rewrite app_assoc, <- Em; exact Ea).
  rewrite Ea2 in St. pose proof (put_app _ _ _ St) as St2. destruct (pool_none o l m St2) as [u I]; auto.
  - apply Lv; [exact (put_app _ _ _ St2)|]. rewrite Em. now apply had_app.
  - exists ((a1 ++ l) ++ b2), u. split; [now rewrite Ea2, Em, !app_assoc|]. apply in_or_app. left. apply in_or_app. now right.
Qed.

(** ** Calls after the pool is gone *)
Definition after (o x : nat) (tr : list event) : Prop := exists a u b, tr = a ++ EvPoolKill u o :: b /\ had o x a.
Definition idle (cl : call) (tr : list event) (seg : list frame) : Prop :=
  forall x o j, by_handle (cl_api cl) = Some (Some x, o, j) -> after o x (cl_pre cl) -> stays_put o tr ->
    cl_acts cl = [] /\ (seg = [] \/ exists a, seg = [FJob (Some x) o a]).
Theorem idle_reachable : forall s, reachable s -> forall t,
  lnk (fun cl seg => incall t cl (trace s) /\ idle cl (trace s) seg) (stk s t) (open_calls t (trace s)).
Proof.
  apply (bot_rule (fun t cl tr seg => idle cl tr seg)).
  - intros s t c pre _ _ x o j E _ _. split; auto. right. destruct c; try discriminate E; injection E as -> -> ->; cbn; eauto.
  - intros t cl tr tr' seg _ H (s & l & _ & _ & -> & _) x o j E A St. apply (H x o j); eauto using put_app.
  - intros t cl tr tr' l seg _ H _ -> x o j E A St. apply (H x o j); eauto using put_app.
  - intros s s' t cl pre r rest h n R _ _ _ E L _ NC C _ H x o j Eb Af St.
    destruct (lstep_trl _ _ _ _ _ L) as [l El]. rewrite El in St. change (tr_of (hp s)) with (trace s) in *. apply put_app in St.
    destruct (H x o j Eb Af St) as [Ha Hs]. destruct (lstep_pre _ _ _ _ _ L) as (P1 & _).
    destruct Hs as [Hs|(a & Hs)]; [destruct pre; [now destruct P1|discriminate Hs]|]. destruct pre as [|f pre]; [now destruct P1|].
    cbn in Hs. injection Hs as -> Hs. apply app_eq_nil in Hs as [-> ->].
    destruct Af as (a1 & u & b1 & Ep & Hd). destruct C as [l0 C]. cbn in Ep.
    assert (Dead : h_sents (hp s) x = false).
    { pose proof (sinv_reachable s R) as (_ & _ & _ & _ & F0). eapply (F0 o x u a1); [|exact Hd|exact St]. change (tr_of (hp s)) with (trace s). rewrite C, Ep, <- !app_assoc. cbn. reflexivity. }
    inversion L as [| | |inp f' h' n' Ru|inp e g h' n' Ru|]; subst. code_cases Ru. cbn [atom] in A. rewrite Dead in A. injection A as <- <-.
    cbn [next_frames app]. split; auto. cbn. rewrite Ha. apply new_acts_none. reflexivity.
Qed.
(** A call through a handle that outlived its pool does nothing. *)
Theorem handle_idle : forall s, reachable s ->
  each_return (fun t cl tr r => forall x o j, by_handle (cl_api cl) = Some (Some x, o, j) -> outlived o x j (cl_pre cl) -> stays_put o tr ->
    cl_acts cl = [] /\ r = RUnit) (trace s).
Proof.
  apply (ret_rule (fun h t cl seg => incall t cl (tr_of h) /\ idle cl (tr_of h) seg)); [exact idle_reachable|].
  intros s t cl r top R T [[l0 C] F] x o j Eb (a & u & b & Ep & Is) St.
  assert (Hd : had o x a).
  { apply (issued_had s o x j a (EvPoolKill u o :: b ++ EvCall t (cl_api cl) :: l0)); auto. change (trace s) with (tr_of (hp s)). rewrite C, Ep, <- app_assoc. reflexivity. }
  destruct (F x o j Eb) as [Ha Hs]; auto; [exists a, u, b; auto|]. split; auto.
  destruct T as [[-> _]|[->|(e & _ & ->)]]; auto; destruct Hs as [Hs|(y & Hs)]; discriminate Hs.
Qed.

(** ** Calls while the pool is there *)
Definition linv (h : heap) (tr : list event) : Prop :=
  forall o x, snd (h_pobj h o) = Some x -> h_sents h x = true /\ x < h_nsent h /\ forall o', snd (h_pobj h o') = Some x -> o' = o.
Theorem linv_reachable : forall s, reachable s -> linv (hp s) (trace s).
Proof.
  apply (replay_rule linv); unfold linv.
  - discriminate.
  - auto.
  - auto.
  - intros h ? ? [] ? ? ? G O IH At NN; try contradiction; atom_split At; hs; auto.
    all: repeat match goal with H : (_ =? _) = true |- _ => apply Nat.eqb_eq in H | H : (_ =? _) = false |- _ => apply Nat.eqb_neq in H end; subst.
    all: intros q y; unfold upd; repeat match goal with |- context [?a =? ?b] => destruct (Nat.eqb_spec a b); subst end; cbn [fst snd]; intros H; try discriminate H.
    all: try (injection H as <-).
    all: try match goal with P : h_pobj ?hh ?n = (_, Some ?b) |- _ => assert (snd (h_pobj hh n) = Some b) by now rewrite P end.
    all: repeat match goal with K : snd (h_pobj ?hh ?a) = Some ?b |- _ => lazymatch goal with _ : h_sents _ b = true /\ b < _ /\ (forall z, snd (h_pobj _ z) = Some b -> z = a) |- _ => fail | _ => pose proof (IH a b K) end end.
    all: repeat match goal with K : _ /\ _ /\ (forall _ : nat, _) |- _ => let a := fresh "Y" in let b := fresh "L" in let c := fresh "W" in destruct K as (a & b & c) end.
    all: try (exfalso; match goal with W : forall z, _ -> z = _ |- _ => match goal with K : snd _ = Some _ |- _ => apply W in K; congruence end end).
    all: split; [first [reflexivity|assumption|exfalso; lia]|]; split; [lia|].
    all: intros o' H'; repeat match type of H' with context [?a =? ?b] => destruct (Nat.eqb_spec a b); subst end; cbn [fst snd] in H'; auto; try discriminate H'; try (injection H' as H'; exfalso; lia).
    all: try (apply IH in H' as (Y' & L' & W'); lia).
    all: try (match goal with W : forall z, _ -> z = _ |- _ => apply W in H'; congruence end).
    exfalso. lia.
Qed.
(** The object has the sentinel during the whole call. *)
Inductive heads (o x : nat) : list frame -> Prop :=
| hd_job : forall a, match a with PaStop _ | PaChange _ _ => True | _ => False end -> heads o x [FJob (Some x) o a]
| hd_api : forall a, match a with PaStop _ | PaChange _ _ => True | _ => False end -> heads o x [FPApi o a]
| hd_clr : forall pl j, heads o x [FPClr pl j true]
| hd_chg : forall pl j g, heads o x [FPChg pl j g]
| hd_ub : forall u, heads o x [FUb u].
Definition busy (cl : call) (tr : list event) (seg : list frame) : Prop :=
  forall x o j, by_handle (cl_api cl) = Some (Some x, o, j) -> (forall m, moment cl tr m -> sent_of o m = Some x) ->
    cl_acts cl <> [] \/ heads o x seg.
Theorem busy_reachable : forall s, reachable s -> forall t,
  lnk (fun cl seg => incall t cl (trace s) /\ busy cl (trace s) seg) (stk s t) (open_calls t (trace s)).
Proof.
  apply (bot_rule (fun t cl tr seg => busy cl tr seg)).
  - intros s t c pre _ _ x o j E _. right. destruct c; try discriminate E; injection E as -> -> ->; cbn; now constructor.
  - intros t cl tr tr' seg _ H (s & l & _ & _ & -> & _) x o j E A. apply (H x o j); auto. intros m M. apply A. now apply moment_app.
  - intros t cl tr tr' l seg _ H _ -> x o j E A. apply (H x o j); auto. intros m M. apply A. now apply moment_app.
  - intros s s' t cl pre r rest h n R _ _ _ E L _ NC C _ H x o j Eb Af.
    destruct (lstep_trl _ _ _ _ _ L) as [l El]. change (tr_of (hp s)) with (trace s) in *. rewrite El in Af.
    destruct (H x o j Eb) as [Ha|Hs].
    { intros m M. apply Af. now apply moment_app, moment_acts. }
    { left. cbn. intros X. apply app_eq_nil in X as [X _]. contradiction. }
    assert (Al : h_sents (hp s) x = true).
    { apply (linv_reachable s R o x). pose proof (sinv_reachable s R) as (A0 & _). rewrite A0. change (tr_of (hp s)) with (trace s). apply Af.
      apply moment_app, moment_acts. eapply moment_now; eauto. }
    destruct (lstep_pre _ _ _ _ _ L) as (P1 & _). remember (pre ++ r) as seg eqn:Es.
    destruct Hs; destruct pre as [|f pre]; try (now destruct P1); cbn in Es; injection Es as <- Es; symmetry in Es; apply app_eq_nil in Es as [-> ->].
    all: inversion L as [| | |inp f' h' n' Ru|inp e g' h' n' Ru|]; subst; code_cases Ru; cbn [atom] in A.
    + rewrite Al in A. injection A as <- <-. cbn. right. now constructor.
    + injection A as <- <-. cbn. right. destruct (h_pobj (hp s) o) as [[pl|] se]; cbn; [|constructor]. destruct a; try contradiction; cbn; constructor.
    + left. cbn. op_unfold A. brki A; try discriminate A. injection A as <- _. erewrite new_acts_one by reflexivity. cbn. rewrite Nat.eqb_refl. destruct (cl_acts cl); discriminate.
    + left. cbn. op_unfold A. brki A; try discriminate A. injection A as <- _. erewrite new_acts_one by reflexivity. cbn. rewrite Nat.eqb_refl. destruct (cl_acts cl); discriminate.
    + discriminate A.
Qed.
Theorem handle_busy : forall s, reachable s ->
  each_return (fun t cl tr r => forall x o j, by_handle (cl_api cl) = Some (Some x, o, j) -> (forall m, moment cl tr m -> sent_of o m = Some x) ->
    r = RUnit /\ on_pool o cl tr (fun pl => match cl_api cl with AJChange _ _ j g => change_spec t pl j g cl tr | _ => stop_spec t pl j cl tr end)) (trace s).
Proof.
  intros s R. assert (X : each_return (fun t cl tr r => forall x o j, by_handle (cl_api cl) = Some (Some x, o, j) -> (forall m, moment cl tr m -> sent_of o m = Some x) -> cl_acts cl <> []) (trace s)).
  { revert s R. apply (ret_rule (fun h t cl seg => incall t cl (tr_of h) /\ busy cl (tr_of h) seg)); [exact busy_reachable|].
    intros s t cl r top R T [_ B] x o j Eb Al. destruct (B x o j Eb Al) as [H|H]; auto. exfalso. destruct T as [[_ ->]|[->|(e & _ & ->)]]; inversion H. }
  assert (Y := pool_calls s R). intros a e b E. specialize (Y a e b E). destruct e; auto. destruct Y as (cl & rest & O & Ea & Y).
  exists cl, rest. split; auto. split; auto. intros x o j Eb Al.
  assert (Z : cl_acts cl <> []).
  { destruct (X _ _ _ E) as (cl' & rest' & O' & _ & Q). rewrite O in O'. injection O' as <- <-. eauto. }
  assert (Sel : pool_sel (cl_api cl) = true) by (destruct (cl_api cl); try discriminate Eb; reflexivity).
  specialize (Y Sel). unfold pool_contract in Y. destruct (cl_api cl) eqn:Eq; try discriminate Eb; injection Eb as -> -> ->; destruct Y as [-> [Y|Y]]; try contradiction; auto.
Qed.
