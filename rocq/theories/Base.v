(** * Base: induction principles for the machine. *)
From Verif Require Import Types Core State Ops Code Machine.

Lemma upd_same : forall A (f : nat -> A) k v, upd f k v k = v.
Proof. intros. unfold upd. now rewrite Nat.eqb_refl. Qed.
Lemma upd_other : forall A (f : nat -> A) k v x, x <> k -> upd f k v x = f x.
Proof. intros. unfold upd. destruct (Nat.eqb_spec x k); congruence. Qed.
Lemma upd_eq : forall A (f : nat -> A) k v x, upd f k v x = if x =? k then v else f x.
Proof. reflexivity. Qed.

(** Simplification of memory accesses. *)
Ltac hs :=
  cbn [emit upd_ctx upd_fs upd_w upd_pool
       h_idgen h_idmap h_regd h_mainid h_initc h_cleansig h_ctxs h_loc h_tst h_tobj h_now h_sems h_toks h_ntok
       h_locks h_mxs h_fsts h_nfs h_prms h_nprm h_hnds h_nhnd h_wcs h_nw h_pools h_npool h_pobj h_sents h_nsent h_tr
       put_idgen put_idmap put_regd put_mainid put_initc put_cleansig put_ctxs put_loc put_tst put_tobj put_now
       put_sems put_toks put_ntok put_locks put_mxs put_fsts put_nfs put_prms put_nprm put_hnds put_nhnd put_wcs
       put_nw put_pools put_npool put_pobj put_sents put_nsent put_tr] in *.

(** Innermost case distinctions of a hypothesis. *)
Ltac brki H :=
  repeat match type of H with
         | context [match ?x with _ => _ end] =>
             lazymatch x with context [match _ with _ => _ end] => fail | _ => destruct x eqn:? end
         end.
Ltac op_unfold H :=
  unfold leaf, do_proc, do_takesleep, do_wake, with_local, take_log, do_reg, do_unreg, do_release in H.

(** Events that frames log themselves (everything else is logged by the
    operation that performs it). *)
Definition log_ok (e : event) : Prop :=
  match e with
  | EvCall _ _ | EvRet _ _ _ | EvUser _ _ _ _ | EvUserEnd _ _ _ _ | EvAbort _ _ | EvDrop _ _ | EvFire _ _ _ | EvJobEnd _ _ _ => True
  | _ => False
  end.

Definition op_ok {T} (o : op T) : Prop :=
  match o with OLog e => forall t, log_ok (e t) | _ => True end.

Definition act_ok (a : act) : Prop := match a with Do o _ => op_ok o | Halt => True end.

Lemma code_ok : forall f, act_ok (code f).
Proof.
  destruct f; cbn; try (exact I || (intros; exact I));
    repeat (match goal with
            | |- context [match ?x with _ => _ end] => destruct x; cbn
            end; try exact I; try (intros; exact I)).
Qed.

Lemma catch_ok : forall g e, act_ok (catch g e).
Proof. destruct g; cbn; intros; try exact I; try (intros; exact I). Qed.

Lemma spi : forall A B (a c : A) (b d : B), Some (a, b) = Some (c, d) -> c = a /\ d = b.
Proof. intros. now inversion H. Qed.

(** [a], performed by [t], leads to memory [h'] and next frames [n]. *)
Definition runs (a : act) (h : heap) (t : tid) (inp : nat) (h' : heap) (n : next) : Prop :=
  match a with
  | Halt => False
  | Do o k => exists x, atom h t o inp = AOk h' x /\ n = k x
  end.

(** A move of thread [t]: the frames [pre] on top of its stack are replaced. *)
Inductive lstep (h : heap) (t : tid) : list frame -> heap -> next -> Prop :=
| ls_call : forall c u fin,
    lstep h t [FUser u fin] (emit h (EvCall t c)) (Go (api_frames c ++ [FApi c; FUser u fin]))
| ls_ret : forall v u fin,
    lstep h t [FUser u fin] (emit h (EvUserEnd t u (fin_sid fin) (RVal v))) (Go (ufin_ret fin v))
| ls_throw : forall e u fin,
    lstep h t [FUser u fin] (emit h (EvUserEnd t u (fin_sid fin) (RExn e))) (Go [FThrow e])
| ls_code : forall inp f h' n, runs (code f) h t inp h' n -> lstep h t [f] h' n
| ls_catch : forall inp e g h' n, runs (catch g e) h t inp h' n -> lstep h t [FThrow e; g] h' n
| ls_res : forall x c, lstep h t [FRes x; FApi c] (emit h (EvRet t c x)) (Go []).

(** Thread [t] runs into undefined behaviour [u]. *)
Definition ubruns (a : act) (h : heap) (t : tid) (inp : nat) (u : ub) : Prop :=
  match a with Halt => False | Do o k => atom h t o inp = AUb u end.
Inductive lub (h : heap) (t : tid) : list frame -> ub -> Prop :=
| lu_code : forall inp f u, ubruns (code f) h t inp u -> lub h t [f] u
| lu_catch : forall inp e g u, ubruns (catch g e) h t inp u -> lub h t [FThrow e; g] u.

Inductive trans (s : st) : st -> Prop :=
| t_tick : forall d, trans s (mkSt (emit (put_now (hp s) (h_now (hp s) + Zpos d)) (EvTick (Zpos d))) (stk s) None)
| t_ub : forall t pre rest u, stk s t = pre ++ rest -> lub (hp s) t pre u -> trans s (mkSt (hp s) (stk s) (Some u))
| t_move : forall t pre rest h n, stk s t = pre ++ rest -> lstep (hp s) t pre h n ->
    trans s (mkSt h (set_next (stk s) t n rest) None).

Lemma focus_cases : forall fs a rest, focus fs = Some (a, rest) ->
  (exists f, fs = [f] ++ rest /\ a = code f) \/
  (exists e g, fs = [FThrow e; g] ++ rest /\ a = catch g e) \/
  (exists x c, fs = [FRes x; FApi c] ++ rest /\ a = Do (OLog (fun t => EvRet t c x)) (fun _ => Go [])).
Proof.
  intros fs a rest H. destruct fs as [|f fs]; [discriminate|].
  destruct f; cbn [focus] in H; try (left; apply spi in H as [-> ->]; eexists; split; reflexivity).
  - right. right. destruct fs as [|g fs]; [discriminate|]. destruct g; try discriminate.
    apply spi in H as [-> ->]. eexists. eexists. split; reflexivity.
  - right. left. destruct fs as [|g fs]; [discriminate|].
    apply spi in H as [-> ->]. eexists. eexists. split; reflexivity.
Qed.

Lemma step_trans : forall s l s', step s l = Some s' -> trans s s' /\ ubs s = None.
Proof.
  intros s l s' H. unfold step in H. destruct (ubs s) eqn:U; [discriminate|]. split; auto.
  destruct l.
  - destruct (focus (stk s t)) as [[a rest]|] eqn:F; [|discriminate].
    destruct a as [T o k|]; cbn in H; [|discriminate].
    destruct (atom (hp s) t o inp) eqn:A; [discriminate| |].
    + injection H as <-.
      assert (R : ubruns (Do o k) (hp s) t inp u) by exact A.
      apply focus_cases in F as [(f & E & F)|[(e & g & E & F)|(y & c & E & F)]]; rewrite F in R.
      * eapply t_ub; eauto. eapply lu_code; eauto.
      * eapply t_ub; eauto. eapply lu_catch; eauto.
      * discriminate R.
    + injection H as <-.
      assert (R : runs (Do o k) (hp s) t inp h (k x)) by (cbn; eauto).
      apply focus_cases in F as [(f & E & F)|[(e & g & E & F)|(y & c & E & F)]].
      * rewrite F in R. eapply t_move; eauto. eapply ls_code; eauto.
      * rewrite F in R. eapply t_move; eauto. eapply ls_catch; eauto.
      * rewrite F in R. cbn in R. destruct R as (z & R & ->).
        inversion R; subst. eapply (t_move s t [FRes y; FApi c]); eauto. apply ls_res.
  - destruct (stk s t) as [|[] r] eqn:E; try discriminate. injection H as <-.
    change (api_frames c ++ FApi c :: FUser u fin :: r) with (api_frames c ++ [FApi c; FUser u fin] ++ r).
    rewrite app_assoc. apply (t_move s t [FUser u fin] r _ (Go (api_frames c ++ [FApi c; FUser u fin]))); auto. apply ls_call.
  - destruct (stk s t) as [|[] r] eqn:E; try discriminate. injection H as <-.
    apply (t_move s t [FUser u fin] r _ (Go (ufin_ret fin v))); auto. apply ls_ret.
  - destruct (stk s t) as [|[] r] eqn:E; try discriminate. injection H as <-.
    change (FThrow e :: r) with ([FThrow e] ++ r).
    eapply (t_move s t [FUser u fin] r _ (Go [FThrow e])); eauto. apply ls_throw.
  - injection H as <-. apply t_tick.
Qed.

Lemma run_snoc : forall ls s l s', run s (ls ++ [l]) = Some s' <->
  exists s1, run s ls = Some s1 /\ step s1 l = Some s'.
Proof.
  induction ls; simpl; intros.
  - split.
    + destruct (step s l) eqn:E; [|discriminate]. injection 1 as <-. eauto.
    + intros (s1 & H & E). injection H as <-. now rewrite E.
  - destruct (step s a); [apply IHls|]. split; [discriminate|intros (? & ? & ?); discriminate].
Qed.

Theorem reachable_ind' : forall P : st -> Prop,
  P st0 ->
  (forall s s', reachable s -> P s -> ubs s = None -> trans s s' -> P s') ->
  forall s, reachable s -> P s.
Proof.
  intros P H0 HS s [ls R]. revert s R.
  induction ls as [|l ls IH] using rev_ind; intros s R.
  - simpl in R. injection R as <-. exact H0.
  - apply run_snoc in R as (s1 & R1 & St). apply step_trans in St as [Tr U].
    apply (HS s1 s); [exists ls; exact R1|exact (IH _ R1)|exact U|exact Tr].
Qed.

Lemma reachable_step : forall s l s', reachable s -> step s l = Some s' -> reachable s'.
Proof. intros s l s' [ls R] St. exists (ls ++ [l]). apply run_snoc. eauto. Qed.

Theorem reachable_ind'' : forall P : st -> Prop,
  P st0 ->
  (forall s s', reachable s -> reachable s' -> P s -> ubs s = None -> trans s s' -> P s') ->
  forall s, reachable s -> P s.
Proof.
  intros P H0 HS s [ls R]. revert s R.
  induction ls as [|l ls IH] using rev_ind; intros s R.
  - simpl in R. injection R as <-. exact H0.
  - pose proof R as R'. apply run_snoc in R as (s1 & R1 & St). apply step_trans in St as [Tr U].
    apply (HS s1 s); [exists ls; exact R1|eexists; exact R'|exact (IH _ R1)|exact U|exact Tr].
Qed.

(** Induction where facts [P] already known of all reachable states may be used. *)
Theorem reachable_rel : forall P Q : st -> Prop,
  (forall s, reachable s -> P s) ->
  Q st0 ->
  (forall s s', P s -> P s' -> Q s -> ubs s = None -> trans s s' -> Q s') ->
  forall s, reachable s -> Q s.
Proof.
  intros P Q HP H0 HS. apply reachable_ind''; auto. intros s s' R R' IH U Tr. apply (HS s s'); auto.
Qed.

(** ** Memory steps *)
(** What a move does to the memory: one logged event or one operation. *)
Inductive hstep (h : heap) (t : tid) : heap -> Prop :=
| hs_log : forall e, log_ok e -> hstep h t (emit h e)
| hs_op : forall T (o : op T) inp h' x, op_ok o -> atom h t o inp = AOk h' x -> hstep h t h'.

Lemma runs_hstep : forall a h t inp h' n, act_ok a -> runs a h t inp h' n -> hstep h t h'.
Proof.
  intros a h t inp h' n Ok R. destruct a as [T o k|]; [|contradiction].
  destruct R as (x & A & _). eapply hs_op; eauto.
Qed.

Lemma lstep_hstep : forall h t pre h' n, lstep h t pre h' n -> hstep h t h'.
Proof.
  intros h t pre h' n L. destruct L; try (apply hs_log; exact I).
  - eapply runs_hstep; eauto. apply code_ok.
  - eapply runs_hstep; eauto. apply catch_ok.
Qed.

Theorem heap_rel : forall P Q : heap -> Prop,
  (forall s, reachable s -> P (hp s)) ->
  Q heap0 ->
  (forall h d, P h -> Q h -> Q (emit (put_now h (h_now h + Zpos d)) (EvTick (Zpos d)))) ->
  (forall h t h', P h -> P h' -> Q h -> hstep h t h' -> Q h') ->
  forall s, reachable s -> Q (hp s).
Proof.
  intros P Q HP H0 Ht HS. apply (reachable_rel (fun s => P (hp s)) (fun s => Q (hp s))); auto.
  intros s s' IP IP' IQ U Tr. destruct Tr; cbn [hp] in *; auto.
  apply lstep_hstep in H1. eauto.
Qed.

(** ** Rules for the recorded history *)
Definition tr_of (h : heap) : list event := rev (h_tr h).

(** A step records at most one event. *)
Lemma atom_tr : forall h t T (o : op T) inp h' x, atom h t o inp = AOk h' x ->
  h_tr h' = h_tr h \/ exists e, h_tr h' = e :: h_tr h.
Proof.
  intros h t T o inp h' x H.
  destruct o; cbn [atom] in H; try discriminate H; op_unfold H; brki H; try discriminate H;
    inversion H; subst; hs; eauto.
Qed.
Lemma lstep_tr : forall h t pre h' n, lstep h t pre h' n ->
  h_tr h' = h_tr h \/ exists e, h_tr h' = e :: h_tr h.
Proof.
  intros h t pre h' n L. apply lstep_hstep in L as [e Ok|T o inp h1 x Ok A]; [right; now exists e|].
  eapply atom_tr; eauto.
Qed.

(** Case analysis of what one frame does: leaves the operation ([A]) and the
    new frames. *)
Ltac code_cases R :=
  cbn [code catch runs] in R;
  repeat (match type of R with
          | context [match ?x with _ => _ end] => destruct x eqn:?
          end; cbn [code catch runs] in R);
  try contradiction;
  let x := fresh "x" in let A := fresh "A" in let E := fresh "E" in
  destruct R as (x & A & E); subst.
Ltac lstep_cases L :=
  let R := fresh "R" in
  destruct L as [c u fin|v u fin|e u fin|inp f h' n R|inp e g h' n R|x c];
  [| | |destruct f; code_cases R|destruct g; code_cases R|].

