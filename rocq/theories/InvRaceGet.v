(** * InvRaceGet: get reads a state that is not ready only on a thread that was asked to exit. *)
From Verif Require Import Types Core State Ops Code Machine Base Spec SpecApi SpecWait SpecFut Rules Events InvCtx InvQueue InvStack InvAff InvTop InvSleep
  Calls Contract ContractLib Replay ReplayObj ThmObj Calm ApiWait SemWait ReplayFut.
From Verif Require Import Adj InvRefs InvCv InvPack Count SpecRace InvRace OwnProm ApiFut.

(** ** The read of get is next to the API call *)
Definition gg (g : gk) : bool := match g with GGet _ => true | _ => false end.
Definition sg (k : semk) : bool := match k with KState _ _ g => gg g | _ => false end.
Definition wg (k : wk) : bool := match k with WSem _ _ _ _ _ k => sg k | _ => false end.
Definition gframe (f : frame) : bool :=
  match f with
  | FGet _ | FGet2 _ | FGet3 _ _ => true
  | FSt _ _ g | FStW1 _ _ g | FStW2 _ _ g | FStEnd _ _ g => gg g
  | FSem _ _ _ k | FSemId _ _ _ k | FSemAdd _ _ _ _ k | FSemTok _ _ _ _ _ _ k | FSemExit _ _ _ _ _ _ k | FSemGo _ _ _ _ _ k
  | FSemRe _ _ _ _ _ _ k | FSemNow _ _ _ _ _ _ k | FSemRem _ _ _ _ k => sg k
  | FWaitFor _ k | FWait _ k | FWait1 _ _ k | FSleep _ _ k => wg k
  | _ => false
  end.
Definition api_below (a : option frame) (f : frame) (r : list frame) : Prop := gframe f = true -> exists n b, r = FApi (AFGet n) :: b.
Lemma no_gframe : forall l a r, forallb (fun f => negb (gframe f)) l = true -> adj (fun a f x => api_below a f (x ++ r)) a l.
Proof.
  induction l as [|f l IH]; intros a r H; [exact I|]. cbn [forallb] in H. apply andb_prop in H as [H1 H2]. split; [|now apply IH].
  intros G. rewrite G in H1. discriminate H1.
Qed.
Lemma one_gframe : forall l f a r, forallb (fun f => negb (gframe f)) l = true -> (gframe f = true -> exists n b, r = FApi (AFGet n) :: b) ->
  adj (fun a f x => api_below a f (x ++ r)) a (l ++ [f]).
Proof.
  induction l as [|g l IH]; intros f a r H K; cbn [app adj].
  - split; [exact K|exact I].
  - cbn [forallb] in H. apply andb_prop in H as [H1 H2]. split; [|now apply IH]. intros G. rewrite G in H1. discriminate H1.
Qed.
Lemma g_destroy : forall ks, forallb (fun f => negb (gframe f)) (destroy ks) = true.
Proof. destruct ks; reflexivity. Qed.
Lemma g_lresume : forall c ok b, forallb (fun f => negb (gframe f)) (lresume c ok b) = true.
Proof. intros [] ok []; reflexivity. Qed.
(** What a step leaves on the stack: frames that are not of this kind, and then at most one that stands
    where one stood. *)
Definition last_g (pre : list frame) (l : list frame) : Prop :=
  forallb (fun f => negb (gframe f)) l = true \/ exists a f g, l = a ++ [f] /\ forallb (fun f => negb (gframe f)) a = true /\ pre = [g] /\ (gframe f = true -> gframe g = true).
Lemma lg_none : forall pre l, forallb (fun f => negb (gframe f)) l = true -> last_g pre l.
Proof. now left. Qed.
Lemma lg_one : forall g a f, forallb (fun f => negb (gframe f)) a = true -> (gframe f = true -> gframe g = true) -> last_g [g] (a ++ [f]).
Proof. intros g a f A F. right. now exists a, f, g. Qed.
Lemma lg_one0 : forall g f, (gframe f = true -> gframe g = true) -> last_g [g] [f].
Proof. intros g f. exact (lg_one g [] f eq_refl). Qed.
Lemma lg_one1 : forall g a f, gframe a = false -> (gframe f = true -> gframe g = true) -> last_g [g] [a; f].
Proof. intros g a f A. apply (lg_one g [a] f). cbn [forallb]. now rewrite A. Qed.
Lemma lg_w : forall g a k b, forallb (fun f => negb (gframe f)) a = true -> (wg k = true -> gframe g = true) -> last_g [g] (a ++ wresume k b).
Proof.
  intros g a k b A K. destruct k; cbn [wresume wg] in *; try (apply lg_none; rewrite forallb_app, A; reflexivity).
  apply lg_one; auto.
Qed.
Lemma step_g : forall h t pre h' n, lstep h t pre h' n -> (exists c u fin, pre = [FUser u fin] /\ next_frames n = api_frames c ++ [FApi c; FUser u fin]) \/ last_g pre (next_frames n).
Proof.
  intros h t pre h' n L. lstep_cases L; cbn [next_frames]; try (left; eauto 6; fail); right.
  all: try (apply lg_none; rewrite ?forallb_app, ?g_destroy, ?g_lresume; reflexivity).
  all: repeat match goal with |- last_g _ ?l => match l with context [match ?x with _ => _ end] =>
      lazymatch x with context [match _ with _ => _ end] => fail | _ => destruct x end end end; cbn [snd fst].
  all: try (apply lg_none; cbn [forallb]; rewrite ?forallb_app, ?g_destroy, ?g_lresume; reflexivity).
  all: try (apply lg_one0; cbn [gframe wg sg gg]; auto; fail).
  all: try (apply lg_one1; cbn [gframe]; auto; fail).
  all: try (apply lg_w; [reflexivity|auto]; fail).
  all: try (apply (lg_w _ []); [reflexivity|auto]; fail).
  all: try match goal with |- context [ufin_ret ?x _] => destruct x end.
  all: try match goal with |- context [spresume _ _ ?x] => destruct x end.
  all: try match goal with |- context [wresume_after _ ?x] => destruct x end.
  all: try match goal with |- context [pact_frames _ _ ?x] => destruct x end.
  all: try (apply lg_none; reflexivity).
  - destruct k as [| |q d g|m j]; cbn [semresume]; try (apply lg_none; reflexivity). destruct d, st; apply lg_one0; auto.
  - destruct g; cbn [gresume]; try (apply lg_none; reflexivity). apply lg_one0; auto.
Qed.
Theorem api_reachable : forall s, reachable s -> forall t, adj api_below None (stk s t).
Proof.
  apply (adj_rule (fun _ _ => api_below)); auto.
  - intros t. cbn. destruct (t =? 0)%nat; cbn; auto. repeat split; intros H; discriminate H.
  - intros s t pre rest h n R R' E L A. split; [|split].
    + destruct (step_g _ _ _ _ _ L) as [(c & u & fin & -> & ->)|[H|(a & f & g & -> & Ha & -> & Hf)]].
      * destruct c; cbn [api_frames app]; try (apply no_gframe; reflexivity).
        all: cbn [adj app]; unfold api_below; cbn [gframe]; repeat split; intros H; try discriminate H; eauto.
      * now apply no_gframe.
      * apply one_gframe; auto. intros G. apply Hf in G. destruct A as [A _]. exact (A G).
    + destruct rest as [|g r]; auto.
    + destruct (spawned n) as [[c cfs]|] eqn:Sp; auto. destruct (lstep_spawned _ _ _ _ _ _ _ L Sp) as (_ & _ & b & ->).
      destruct b; cbn; unfold api_below; cbn; repeat split; intros H; discriminate H.
Qed.

(** ** The call of get *)
Lemma fwait_lnk : forall s, reachable s -> forall t,
  lnk (fun cl seg => incall t cl (trace s) /\ resP fwait_sel fwait_contract fmid t cl (trace s) seg) (stk s t) (open_calls t (trace s)).
Proof.
  apply (res_lnk fwait_sel fwait_contract fmid).
  - intros s t c pre R E S. destruct c; try discriminate S; unfold newbot; cbn [api_frames rev app]; left.
    + now apply w_hwait.
    + now apply w_hwait.
    + now apply w_get.
    + now apply (w_papi _ _ _ o (Some j)).
    + now apply (w_papi _ _ _ o None).
  - intros t cl tr tr' r H (s & x & _ & _ & -> & _). now apply fwait_tr.
  - intros t cl tr tr' f g _ M Q. pose proof Q as (s & x & _ & _ & E & _). subst tr'. apply fmid_tr; auto. intros. eapply smid_quiet; eauto using fR_mono.
  - intros t cl tr l f g C M In. destruct M; try solve [destruct In as (u' & fin & r & E); discriminate E].
    + apply w_sem. eapply smid_inner; eauto using fR_mono.
    + destruct In as (u' & fin & r & E). destruct H1; subst; discriminate E.
    + destruct In as (u' & fin & r & E). destruct H0 as [[-> _]| ->]; discriminate E.
  - apply no_throw. intros t cl tr f above []; try exact I; [eapply smid_user; eauto|destruct H1; subst; exact I].
  - apply fmid_code.
  - apply fmid_catch.
  - apply fmid_above.
Qed.
Theorem get_after_exit : forall s t p x r, reachable s -> stk s t = FGet3 p x :: r -> ~ is_ready p (trace s) ->
  exists cl cs n, open_calls t (trace s) = cl :: cs /\ cl_api cl = AFGet n /\ sometime cl (trace s) (exit_seen t).
Proof.
  intros s t p x r R E N. pose proof (api_reachable s R t) as A. rewrite E in A. destruct A as [A _]. destruct (A eq_refl) as (n & b & ->).
  pose proof (fwait_lnk s R t) as L. rewrite E in L. inversion L as [fs Na|seg cl u fin below cs Na H L2 Es Ec].
  - subst. discriminate Na.
  - destruct seg as [|f seg]; [discriminate Es|]. injection Es as Ef Es. subst f. destruct seg as [|f seg].
    + injection Es as Ea _. destruct H as [C H]. assert (S : fwait_sel (cl_api cl) = true) by (rewrite Ea; reflexivity).
      specialize (H S). change [FGet3 p x] with ([] ++ [FGet3 p x]) in H. apply newbot_snoc in H. destruct H as [H|[H _]]; [|discriminate H].
      exists cl, cs, n. split; [auto|]. split; [auto|].
      remember (FGet3 p x) as f eqn:Ef. destruct H; try discriminate Ef.
      * exfalso. subst. inversion H; subst. match goal with P : pt _ _ _ _ _ _ _ _ _ _ |- _ => inversion P end.
      * exfalso. destruct H1; subst; discriminate.
      * injection Ef as -> ->. destruct H as (_ & _ & _ & [W|W]); [contradiction|exact W].
    + injection Es as -> _. discriminate Na.
Qed.
Theorem race_after_exit : forall s t u p, reachable s -> race s t u (CExn p) ->
  exists v cl cs n, (v = t \/ v = u) /\ open_calls v (trace s) = cl :: cs /\ cl_api cl = AFGet n /\ sometime cl (trace s) (exit_seen v).
Proof.
  intros s t u p R Rc.
  assert (K : forall v, at_get s v p -> fs_ready (h_fsts (hp s) p) = false -> exists cl cs n, open_calls v (trace s) = cl :: cs /\ cl_api cl = AFGet n /\ sometime cl (trace s) (exit_seen v)).
  { intros v (x & r & E) F. apply (get_after_exit s v p x r R E). intros H. apply (ready_iff s p R) in H. congruence. }
  destruct (only_known s t u _ R Rc) as [(G & _ & _ & F)|(G & _ & _ & F)]; destruct (K _ G F) as (cl & cs & n & H); eauto 8.
Qed.
