(** * InvWhen: the combinators: who fills them and which continuations exist. *)
From Verif Require Import Types Core State Ops Code Machine Base Spec SpecKind SpecOwn SpecWhen Rules Events Calls InvCtx InvBound InvStack InvRefs Contract Count Replay ReplayObj InvCv InvKind Adj.
Local Open Scope Z_scope.

Definition b2z (b : bool) : Z := if b then 1 else 0.
Lemma b2z_nn : forall b, 0 <= b2z b.
Proof. intros []; cbn; lia. Qed.

(** ** One creation per combinator *)
Definition is_w (w : nat) (e : event) : bool := match e with EvWhen _ _ w' _ _ => (w' =? w)%nat | _ => false end.
Definition whens (w : nat) (tr : list event) : Z := sumf (fun e => b2z (is_w w e)) tr.
Lemma all_some_length : forall A (l : list (option A)) r, all_some l = Some r -> length r = length l.
Proof.
  induction l as [|[x|] l IH]; cbn; intros r H; try discriminate H; [now injection H as <-|].
  destruct (all_some l) as [r'|]; [|discriminate H]. injection H as <-. cbn. f_equal. now apply IH.
Qed.
Lemma whens_snoc : forall w tr e, whens w (tr ++ [e]) = whens w tr + b2z (is_w w e).
Proof. intros. unfold whens. rewrite sumf_app. cbn [sumf]. lia. Qed.
Lemma w_total_all : forall w i p w' v, wall_step w i p = (w', v) -> w_total w' = w_total w /\ w_prom w' = w_prom w.
Proof. intros w i p w' v E. unfold wall_step in E. brki E; inversion E; auto. Qed.
Lemma w_total_any : forall w i p w' v, wany_step w i p = (w', v) -> w_total w' = w_total w /\ w_prom w' = w_prom w.
Proof. intros w i p w' v E. unfold wany_step in E. brki E; inversion E; auto. Qed.
Lemma w_total_fin : forall w w' v, wany_final w = (w', v) -> w_total w' = w_total w /\ w_prom w' = w_prom w.
Proof. intros w w' v E. unfold wany_final in E. brki E; inversion E; auto. Qed.
(** What an operation does to the contexts. *)
Lemma atom_wcs : forall h t T (o : op T) inp h' x, atom h t o inp = AOk h' x -> match o with OLog _ => False | _ => True end ->
  match o with OWNew _ _ | OWFill _ _ | OWThen _ _ _ | OWProcess _ | OWAll _ _ _ _ | OWAny _ _ _ _ | OWFinal _ | OWMark _ | OWRel _ => False | _ => True end ->
  h_wcs h' = h_wcs h /\ h_nw h' = h_nw h.
Proof. intros h t T o inp h' x A N M. destruct o; try contradiction; atom_split A; auto; split; reflexivity. Qed.
Definition when_heap (h : heap) (tr : list event) : Prop :=
  (forall w, whens w tr <= b2z (w <? h_nw h)%nat) /\
  forall t a w p ins, In (EvWhen t a w p ins) tr -> (w < h_nw h)%nat /\ w_total (h_wcs h w) = length ins /\ w_prom (h_wcs h w) = p.
Theorem when_heap_reachable : forall s, reachable s -> when_heap (hp s) (trace s).
Proof.
  apply (replay_rule when_heap); unfold when_heap.
  - split; [intros w; cbn; lia|intros t a w p ins []].
  - intros h l d [H1 H2]. hs. split; [intros w; rewrite whens_snoc; cbn [is_w b2z]; specialize (H1 w); lia|].
    intros t a w p ins J. apply in_app_or in J as [J|[J|[]]]; [eauto|discriminate J].
  - intros h l e [H1 H2] Ok. hs. split; [intros w; rewrite whens_snoc; destruct e; cbn in Ok; try contradiction; cbn [is_w b2z]; specialize (H1 w); lia|].
    intros t a w p ins J. apply in_app_or in J as [J|[J|[]]]; [eauto|subst; contradiction].
  - intros h t T o inp h' x G O [H1 H2] At N.
    destruct o; try contradiction.
    all: try (destruct (atom_wcs _ _ _ _ _ _ _ At N Logic.I) as [E1 E2]; rewrite E1, E2;
      match goal with |- context [op_event ?h ?t ?o ?x] => destruct (op_event h t o x) as [e|] eqn:Oe; [|split; assumption] end;
      assert (Ne : forall t a w p ins, e <> EvWhen t a w p ins) by (intros; intros ->; cbn in Oe; brki Oe; discriminate Oe);
      split; [intros w0; rewrite whens_snoc; destruct e; try (cbn [is_w b2z]; specialize (H1 w0); lia); exfalso; eapply Ne; eauto
             |intros ? ? ? ? ? J; apply in_app_or in J as [J|[J|[]]]; [eauto|exfalso; eapply Ne; eauto]]; fail).
    1: { cbn [op_event]. cbn [atom] in At. destruct (all_some _) as [ins|] eqn:As; [|discriminate At]. inversion At; subst; clear At. hs.
      apply all_some_length in As. rewrite map_length in As. split.
      + intros w. rewrite whens_snoc. cbn [is_w]. specialize (H1 w). unfold b2z in *.
        destruct (Nat.eqb_spec (h_nw h) w); destruct (Nat.ltb_spec w (h_nw h)); destruct (Nat.ltb_spec w (S (h_nw h))); lia.
      + intros t0 a w p ins0 J. apply in_app_or in J as [J|[J|[]]].
        * destruct (H2 _ _ _ _ _ J) as (Q1 & Q2 & Q3). rewrite upd_other by lia. auto with arith.
        * injection J as <- <- <- <- <-. rewrite upd_same. cbn. auto. }
    all: atom_split At;
      repeat match goal with
        | E : wall_step _ _ _ = _ |- _ => apply w_total_all in E as [? ?]
        | E : wany_step _ _ _ = _ |- _ => apply w_total_any in E as [? ?]
        | E : wany_final _ = _ |- _ => apply w_total_fin in E as [? ?]
        end;
      (split; [intros w0; rewrite ?whens_snoc; cbn [is_w b2z]; specialize (H1 w0); lia|]);
      intros t0 a w0 p0 ins J; try (apply in_app_or in J as [J|[J|[]]]; [|discriminate J]); destruct (H2 _ _ _ _ _ J) as (Q1 & Q2 & Q3);
      rewrite upd_eq; match goal with |- context [(?a =? ?b)%nat] => destruct (Nat.eqb_spec a b) end; subst; cbn; intuition congruence.
Qed.

(** ** The frames that build a combinator *)
(** A total over all threads. *)
Lemma NoDup_app_intro : forall A (a b : list A), NoDup a -> NoDup b -> (forall x, In x a -> In x b -> False) -> NoDup (a ++ b).
Proof.
  induction a as [|x a IH]; intros b Na Nb D; cbn; auto. apply NoDup_cons_iff in Na as [N Na]. constructor.
  - rewrite in_app_iff. intros [J|J]; [auto|]. apply (D x); cbn; auto.
  - apply IH; auto. intros y Y1 Y2. apply (D y); cbn; auto.
Qed.
Theorem count_total : forall (w : frame -> Z) (d : event -> Z) s, reachable s ->
  (forall f, 0 <= w f) -> (forall e, actor e = None -> d e = 0) ->
  (forall t, sumf w (stk s t) <= balance d t (trace s)) ->
  forall l, NoDup l -> sumf (fun t => sumf w (stk s t)) l <= sumf d (trace s).
Proof.
  intros w d s R W D H l N.
  set (l' := l ++ filter (fun t => negb (mem t l)) (nodup Nat.eq_dec (actors (trace s)))).
  assert (N' : NoDup l').
  { apply NoDup_app_intro; auto; [apply NoDup_filter, NoDup_nodup|]. intros x X Y. apply filter_In in Y as [_ Y].
    apply negb_true_iff in Y. apply mem_In in X. congruence. }
  assert (I' : incl (actors (trace s)) l').
  { intros x X. apply in_or_app. destruct (mem x l) eqn:M; [left; now apply mem_In|]. right. apply filter_In. split; [now apply nodup_In|]. now rewrite M. }
  rewrite (balance_total d (trace s) D l' N' I').
  apply Z.le_trans with (sumf (fun t => sumf w (stk s t)) l').
  - unfold l'. rewrite sumf_app. pose proof (sumf_nonneg _ (fun t => sumf w (stk s t)) (filter (fun t => negb (mem t l)) (nodup Nat.eq_dec (actors (trace s)))) (fun t => sumf_nonneg _ w (stk s t) W)). lia.
  - clear -H. induction l' as [|t l' IH]; cbn [sumf]; [lia|]. specialize (H t). lia.
Qed.
Lemma sumf_in : forall A (w : A -> Z) l x, (forall y, 0 <= w y) -> In x l -> w x <= sumf w l.
Proof.
  intros A w l x W J. apply in_split in J as (a & b & ->). rewrite sumf_app. cbn [sumf].
  pose proof (sumf_nonneg _ w a W). pose proof (sumf_nonneg _ w b W). lia.
Qed.
(** The combinator a frame builds and the first input it has not packaged yet. *)
Definition lk_stage (c : lk) : option (nat * nat) := match c with LkWhen w _ _ idx _ => Some (w, S idx) | _ => None end.
Definition stage (f : frame) : option (nat * nat) :=
  match f with
  | FWId w _ _ | FWFillAll w _ _ _ _ => Some (w, 0%nat)
  | FWEach w _ _ idx _ | FWThen w _ _ idx _ _ _ | FWPack w _ _ idx _ _ => Some (w, idx)
  | FWAtt w _ _ idx _ _ _ | FWProc w _ _ idx _ => Some (w, S idx)
  | FInvoke _ _ c | FPush _ _ c | FDisp _ _ c | FLaunch _ _ _ c | FLaunch1 _ _ _ c | FFire1 _ _ c => lk_stage c
  | _ => None
  end.
Section G.
Variables (gd : nat -> bool) (w0 : nat).
Definition swt (x : option (nat * nat)) : Z := match x with Some (w, k) => if (w =? w0)%nat then b2z (gd k) else 0 | None => 0 end.
Definition sfw (f : frame) : Z := swt (stage f).
Definition sdw (e : event) : Z :=
  match e with
  | EvWhen _ _ w _ _ => if (w =? w0)%nat then b2z (gd 0) else 0
  | EvState _ _ _ (PuHook _ w idx _) => if (w =? w0)%nat then b2z (gd (S idx)) - b2z (gd idx) else 0
  | _ => 0
  end.
Lemma swt_nn : forall x, 0 <= swt x.
Proof. intros [[w k]|]; cbn; [|lia]. destruct (w =? w0)%nat; [apply b2z_nn|lia]. Qed.
Lemma sfw_destroy : forall ks, sumf sfw (destroy ks) = 0.
Proof. destruct ks; reflexivity. Qed.
Lemma sfw_lresume : forall c ok b, sumf sfw (lresume c ok b) = swt (lk_stage c).
Proof. intros [] ok []; cbn [lresume app destroy map sumf]; unfold sfw; cbn [stage lk_stage]; cbn [swt]; lia. Qed.
Lemma lstep_stage : forall h t pre h' n, lstep h t pre h' n ->
  sumf sfw (next_frames n) <= sumf sfw pre + sumf sdw (new_acts t h h').
Proof.
  intros h t pre h' n L. lstep_cases L; cbn [next_frames];
    try (rewrite (new_acts_op _ _ _ _ _ _ _ A); cbn [op_event]);
    try (erewrite (new_acts_one t h) by reflexivity); unfold by_thread; cbn [actor]; rewrite ?Nat.eqb_refl; cbn [sumf sdw app];
    try exact (Z.le_refl _).
  all: try match goal with A : atom _ _ (OWNew _ _) _ = _ |- _ => cbn [atom] in A; match type of A with context [all_some ?l] => destruct (all_some l) eqn:As; [|discriminate A]; injection A as <- <- end end.
  all: repeat match goal with |- context [match ?x with _ => _ end] =>
      lazymatch x with context [match _ with _ => _ end] => fail | actor _ => fail | Nat.eqb _ _ => fail | _ =>
        destruct x; cbn [actor fst snd]; rewrite ?Nat.eqb_refl end end;
    unfold run_one; cbn [app actor]; rewrite ?Nat.eqb_refl; cbn [app]; rewrite ?sumf_app, ?sfw_destroy, ?sfw_lresume; cbn [sumf sdw]; rewrite ?sfw_lresume; unfold sfw; cbn [stage]; cbn [swt lk_stage];
    try (pose proof (swt_nn (lk_stage c))); try lia.
  all: repeat match goal with |- context [(?a =? ?b)%nat] => destruct (a =? b)%nat end; cbn [sumf]; rewrite ?(sfw_lresume c); fold sfw; cbn [stage swt];
    try (change (sumf (fun f => swt (stage f))) with (sumf sfw); rewrite ?sfw_lresume); try (pose proof (b2z_nn (gd idx))); try lia.
  all: try match goal with |- context [api_frames ?c] => destruct c; cbn; lia end.
  all: try match goal with |- context [ufin_ret ?c _] => destruct c; cbn; lia end.
  all: try match goal with |- context [wresume ?c _] => destruct c; cbn; lia end.
  all: try match goal with |- context [semresume ?c ?b] => destruct c as [| |? [?|] ?|], b; cbn; lia end.
  all: try match goal with |- context [spresume _ _ ?c] => destruct c; cbn; lia end.
  all: try match goal with |- context [gresume ?c _] => destruct c; cbn; lia end.
  all: try match goal with |- context [wresume_after _ ?c] => destruct c; cbn; lia end.
  all: try match goal with |- context [pact_frames _ _ ?c] => destruct c; cbn; lia end.
Qed.
Lemma sfw_nn : forall f, 0 <= sfw f.
Proof. intros f. apply swt_nn. Qed.
Theorem stage_total : forall s, reachable s -> forall l, NoDup l -> sumf (fun t => sumf sfw (stk s t)) l <= sumf sdw (trace s).
Proof.
  intros s R. apply count_total; auto.
  - apply sfw_nn.
  - intros [] A; cbn; auto; discriminate A.
  - revert s R. apply count_le.
    + intros []; reflexivity.
    + intros []; reflexivity.
    + intros. now apply lstep_stage.
Qed.
Lemma sfw_at : forall f k, stage f = Some (w0, k) -> gd k = true -> sfw f = 1.
Proof. intros f k E H. unfold sfw. rewrite E. cbn. now rewrite Nat.eqb_refl, H. Qed.
End G.
Lemma sdw_any : forall w tr, sumf (sdw (fun _ => true) w) tr = whens w tr.
Proof.
  intros w tr. apply sumf_ext. intros []; cbn; auto. match goal with x : purpose |- _ => destruct x end; auto. now destruct (_ =? _)%nat.
Qed.
Lemma whens_le : forall w s, reachable s -> whens w (trace s) <= 1.
Proof. intros w s R. destruct (when_heap_reachable s R) as [H _]. specialize (H w). pose proof (b2z_nn (w <? h_nw (hp s))%nat). destruct (_ <? _)%nat; cbn in *; lia. Qed.
(** At most one frame builds a combinator. *)
Theorem one_builder : forall s t pre rest f u f' w k k', reachable s -> stk s t = pre ++ rest -> In f pre -> stage f = Some (w, k) ->
  In f' (stk s u) -> (u = t -> In f' rest) -> stage f' = Some (w, k') -> False.
Proof.
  intros s t pre rest f u f' w k k' R E J S J' Ju S'.
  pose proof (whens_le w s R) as W. rewrite <- sdw_any in W.
  pose proof (sfw_nn (fun _ => true) w) as Nn.
  pose proof (sfw_at (fun _ => true) w f k S eq_refl) as F1. pose proof (sfw_at (fun _ => true) w f' k' S' eq_refl) as F2.
  destruct (Nat.eq_dec u t) as [->|N].
  - pose proof (stage_total (fun _ => true) w s R [t] ltac:(repeat constructor; auto)) as T. cbn [sumf] in T.
    rewrite E, sumf_app in T. pose proof (sumf_in _ _ pre f Nn J). pose proof (sumf_in _ _ rest f' Nn (Ju eq_refl)). lia.
  - assert (D : NoDup [t; u]) by (constructor; [intros [X|[]]; congruence|repeat constructor; auto]).
    pose proof (stage_total (fun _ => true) w s R _ D) as T. cbn [sumf] in T.
    assert (In f (stk s t)) by (rewrite E; apply in_or_app; auto).
    pose proof (sumf_in _ _ (stk s t) f Nn H). pose proof (sumf_in _ _ (stk s u) f' Nn J'). lia.
Qed.
(** The continuation states of an input. *)
Definition is_hook (w idx : nat) (e : event) : bool := match e with EvState _ _ _ (PuHook _ w' i _) => ((w' =? w) && (i =? idx))%nat | _ => false end.
Definition hooks (w idx : nat) (tr : list event) : Z := sumf (fun e => b2z (is_hook w idx e)) tr.
Lemma sdw_idx : forall w idx tr, sumf (sdw (fun k => k <=? idx)%nat w) tr = whens w tr - hooks w idx tr.
Proof.
  intros w idx tr. unfold whens, hooks. induction tr as [|e tr IH]; cbn [sumf]; [reflexivity|]. rewrite IH.
  enough (sdw (fun k => k <=? idx)%nat w e = b2z (is_w w e) - b2z (is_hook w idx e)) by lia. clear IH.
  destruct e; cbn [sdw is_w is_hook b2z]; try reflexivity.
  all: try match goal with x : purpose |- _ => destruct x end; cbn [sdw is_hook b2z]; try reflexivity.
  all: destruct (_ =? _)%nat; cbn [andb b2z]; try reflexivity.
  destruct (Nat.eqb_spec idx0 idx); destruct (Nat.leb_spec (S idx0) idx); destruct (Nat.leb_spec idx0 idx); cbn [b2z]; lia.
Qed.
Theorem hooks_le : forall s w idx, reachable s -> hooks w idx (trace s) <= 1.
Proof.
  intros s w idx R. pose proof (whens_le w s R). pose proof (stage_total (fun k => k <=? idx)%nat w s R [] ltac:(constructor)) as T. cbn [sumf] in T. rewrite sdw_idx in T. lia.
Qed.
Lemma hooks_in : forall w idx tr t q v a par, In (EvState t q v (PuHook a w idx par)) tr -> 1 <= hooks w idx tr.
Proof.
  intros w idx tr t q v a par J. pose proof (sumf_in _ (fun e => b2z (is_hook w idx e)) tr _ (fun e => b2z_nn _) J) as H. cbn [is_hook] in H. rewrite !Nat.eqb_refl in H. exact H.
Qed.
Theorem unpacked_none : forall s t f w k idx t' q v a par, reachable s -> In f (stk s t) -> stage f = Some (w, k) -> (k <= idx)%nat ->
  In (EvState t' q v (PuHook a w idx par)) (trace s) -> False.
Proof.
  intros s t f w k idx t' q v a par R J S K H. pose proof (whens_le w s R).
  pose proof (stage_total (fun k => k <=? idx)%nat w s R [t] ltac:(repeat constructor; auto)) as T. cbn [sumf] in T. rewrite sdw_idx in T.
  pose proof (sumf_in _ _ (stk s t) f (sfw_nn (fun k => k <=? idx)%nat w) J) as F. rewrite (sfw_at _ w f k S) in F by (now apply Nat.leb_le).
  pose proof (hooks_in _ _ _ _ _ _ _ _ H). lia.
Qed.
Lemma sumf_two : forall A (w : A -> Z) l a x b y c, (forall z, 0 <= w z) -> l = a ++ x :: b ++ y :: c -> w x + w y <= sumf w l.
Proof.
  intros A w l a x b y c W ->. rewrite sumf_app. cbn [sumf]. rewrite sumf_app. cbn [sumf].
  pose proof (sumf_nonneg _ w a W). pose proof (sumf_nonneg _ w b W). pose proof (sumf_nonneg _ w c W). lia.
Qed.
Lemma in_two : forall A (l : list A) x y, In x l -> In y l -> x <> y -> exists a b c, l = a ++ x :: b ++ y :: c \/ l = a ++ y :: b ++ x :: c.
Proof.
  intros A l x y J K N. apply in_split in J as (a & b & ->). apply in_app_or in K as [K|[K|K]]; [|congruence|].
  - apply in_split in K as (a1 & a2 & ->). exists a1, a2, b. right. now rewrite <- app_assoc.
  - apply in_split in K as (b1 & b2 & ->). exists a, b1, b2. now left.
Qed.
Theorem hook_one : forall s w idx t q v a par t' q' v' a' par', reachable s ->
  In (EvState t q v (PuHook a w idx par)) (trace s) -> In (EvState t' q' v' (PuHook a' w idx par')) (trace s) -> q = q'.
Proof.
  intros s w idx t q v a par t' q' v' a' par' R J K. destruct (Nat.eq_dec q q') as [|N]; auto. exfalso.
  destruct (in_two _ _ _ _ J K) as (x & y & z & [E|E]); try congruence;
    apply (sumf_two _ (fun e => b2z (is_hook w idx e))) in E; try (intros; apply b2z_nn); cbn [is_hook] in E; rewrite !Nat.eqb_refl in E;
    pose proof (hooks_le s w idx R) as H; unfold hooks in H; cbn in E; lia.
Qed.
Theorem when_one : forall s w t a p ins t' a' p' ins', reachable s ->
  In (EvWhen t a w p ins) (trace s) -> In (EvWhen t' a' w p' ins') (trace s) -> a = a' /\ p = p' /\ ins = ins'.
Proof.
  intros s w t a p ins t' a' p' ins' R J K.
  assert (D : {EvWhen t a w p ins = EvWhen t' a' w p' ins'} + {EvWhen t a w p ins <> EvWhen t' a' w p' ins'}).
  { destruct (Nat.eq_dec t t'); [|right; congruence]. destruct (Bool.bool_dec a a'); [|right; congruence]. destruct (Nat.eq_dec p p'); [|right; congruence].
    destruct (list_eq_dec Nat.eq_dec ins ins'); [left; congruence|right; congruence]. }
  destruct D as [D|N]; [injection D; auto|]. exfalso.
  destruct (in_two _ _ _ _ J K N) as (x & y & z & [E|E]);
    apply (sumf_two _ (fun e => b2z (is_w w e))) in E; try (intros; apply b2z_nn); cbn [is_w] in E; rewrite !Nat.eqb_refl in E;
    pose proof (whens_le w s R) as H; unfold whens in H; cbn in E; lia.
Qed.
