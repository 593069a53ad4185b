(** * Calls: reasoning about API calls.
    The frames above an [FApi c] frame are the running part of the call [c]
    (its "segment"). *)
From Verif Require Import Types Core State Ops Code Machine Base Spec Rules Events InvStack.

Definition is_api (f : frame) : bool := match f with FApi _ => true | _ => false end.
Definition no_api (fs : list frame) : bool := forallb (fun f => negb (is_api f)) fs.

Lemma no_api_app : forall a b, no_api (a ++ b) = no_api a && no_api b.
Proof. intros. unfold no_api. apply forallb_app. Qed.
Lemma no_api_api : forall c, no_api (api_frames c) = true.
Proof. destruct c; reflexivity. Qed.
Lemma no_api_destroy : forall ks, no_api (destroy ks) = true.
Proof. destruct ks; reflexivity. Qed.
Lemma no_api_lresume : forall c ok b, no_api (lresume c ok b) = true.
Proof. intros [] ok []; reflexivity. Qed.
Lemma no_api_wresume : forall k b, no_api (wresume k b) = true.
Proof. intros [] b; reflexivity. Qed.
Lemma no_api_gresume : forall k b, no_api (gresume k b) = true.
Proof. intros [] b; reflexivity. Qed.
Lemma no_api_semresume : forall k b, no_api (semresume k b) = true.
Proof. intros [| |p [d|] g|] []; reflexivity. Qed.
Lemma no_api_wafter : forall w a, no_api (wresume_after w a) = true.
Proof. intros w []; reflexivity. Qed.
Lemma no_api_pact : forall o pl a, no_api (pact_frames o pl a) = true.
Proof. intros o pl []; reflexivity. Qed.
Lemma no_api_sp : forall n i k, no_api (spresume n i k) = true.
Proof. intros n i []; reflexivity. Qed.
Lemma no_api_ufin : forall f v, no_api (ufin_ret f v) = true.
Proof. intros [] v; reflexivity. Qed.
Lemma no_api_tframes : forall b, no_api (tframes b) = true.
Proof. intros []; reflexivity. Qed.

Ltac na := cbn [next_frames run_one app]; rewrite ?no_api_app;
  cbn [no_api forallb negb is_api andb];
  fold no_api; rewrite ?no_api_api, ?no_api_destroy, ?no_api_lresume, ?no_api_wresume, ?no_api_gresume, ?no_api_semresume,
    ?no_api_wafter, ?no_api_pact, ?no_api_sp, ?no_api_ufin; try reflexivity.

(** The shape of a move with respect to calls. *)
Inductive kind (h : heap) (t : tid) (pre : list frame) (h' : heap) (n : next) : Prop :=
| k_call : forall c u fin, pre = [FUser u fin] -> h' = emit h (EvCall t c) ->
    n = Go (api_frames c ++ [FApi c; FUser u fin]) -> kind h t pre h' n
| k_ret : forall c r top, pre = top ++ [FApi c] ->
    (r = RUnit /\ top = [] \/ top = [FRes r] \/ exists e, r = RExn e /\ top = [FThrow e]) ->
    h' = emit h (EvRet t c r) -> n = Go [] -> kind h t pre h' n
| k_end : pre = [FEnd] -> h_tr h' = EvThreadEnd t :: h_tr h -> n = Go [] -> kind h t pre h' n
| k_spawn : forall c b fs, no_api pre = true -> no_api fs = true -> h_tr h' = EvSpawn t c :: h_tr h ->
    c <> t -> fresh_thread (h_tst h c) = true -> n = GoSpawn c (tframes b) fs -> kind h t pre h' n
| k_other : forall fs, no_api pre = true -> no_api fs = true -> n = Go fs ->
    (h_tr h' = h_tr h \/ exists e, h_tr h' = e :: h_tr h /\
       match e with EvCall _ _ | EvRet _ _ _ | EvSpawn _ _ | EvThreadEnd _ => False | _ => True end) ->
    kind h t pre h' n.

Lemma lstep_kind : forall h t pre h' n, lstep h t pre h' n -> kind h t pre h' n.
Proof.
  intros h t pre h' n L. lstep_cases L.
  all: try solve [eapply k_call; reflexivity].
  all: try match goal with A : atom _ _ _ _ = AOk _ _ |- _ => pose proof (atom_event _ _ _ _ _ _ _ A) as X; cbn [op_event] in X end.
  all: try match goal with |- kind _ _ [FApi ?c] _ _ =>
         cbn [atom] in A; inversion A; subst; apply (k_ret _ _ _ _ _ c RUnit []); auto end.
  all: try match goal with |- kind _ _ [FThrow ?e; FApi ?c] _ _ =>
         cbn [atom] in A; inversion A; subst; apply (k_ret _ _ _ _ _ c (RExn e) [FThrow e]); eauto end.
  all: try match goal with |- kind _ _ [FRes ?x; FApi ?c] _ _ =>
         apply (k_ret _ _ _ _ _ c x [FRes x]); auto end.
  all: try match goal with |- kind _ _ [FEnd] _ _ => apply k_end; auto end.
  all: try match goal with |- kind _ _ [FSpawn ?b _] _ _ =>
         let F := fresh in
         cbn [atom] in A; destruct (fresh_thread _ && _) eqn:F in A; [|discriminate A];
         inversion A; subst; apply andb_true_iff in F as [F ?F2]; apply negb_true_iff, Nat.eqb_neq in F2;
         eapply (k_spawn _ _ _ _ _ _ b); eauto; reflexivity end.
  all: try match goal with |- kind _ _ _ _ (Go ?fs) => apply (k_other _ _ _ _ _ fs); [reflexivity| |reflexivity|] end.
  all: try match goal with |- no_api _ = true => solve [na] end.
  all: try match goal with |- no_api _ = true =>
         repeat (match goal with |- context [match ?x with _ => _ end] => destruct x end; try solve [na]) end.
  all: try match goal with |- _ \/ _ =>
         first [ left; exact X
               | right; eexists; split; [first [exact X|reflexivity]|exact I]
               | brki X; cbn beta iota in X;
                 first [left; exact X|right; eexists; split; [exact X|exact I]] ] end.
Qed.

(** [lnk S fs cs]: the stack [fs] runs exactly the calls [cs], with segments
    that satisfy [S]. *)
Inductive lnk (S : call -> list frame -> Prop) : list frame -> list call -> Prop :=
| lnk_nil : forall fs, no_api fs = true -> lnk S fs []
| lnk_cons : forall seg cl u fin below cs, no_api seg = true -> S cl seg ->
    lnk S (FUser u fin :: below) cs -> lnk S (seg ++ FApi (cl_api cl) :: FUser u fin :: below) (cl :: cs).

Lemma lnk_mono : forall (S S' : call -> list frame -> Prop) fs cs, (forall cl seg, S cl seg -> S' cl seg) -> lnk S fs cs -> lnk S' fs cs.
Proof. intros S S' fs cs H L. induction L; constructor; auto. Qed.

(** Only calls below the innermost one need to be unaffected when [t] moves. *)
Definition inner (seg : list frame) : Prop := exists u fin r, seg = FUser u fin :: r.
Lemma lnk_inner : forall (S S' : call -> list frame -> Prop) u fin below cs,
  (forall cl seg, inner seg -> S cl seg -> S' cl seg) ->
  lnk S (FUser u fin :: below) cs -> lnk S' (FUser u fin :: below) cs.
Proof.
  intros S S' u fin below cs H L. remember (FUser u fin :: below) as fs eqn:E. revert u fin below E.
  induction L; intros u' fin' below' E; [constructor; auto|].
  constructor; auto; [|eapply IHL; reflexivity]. apply H; auto.
  destruct seg; [discriminate|]. injection E as -> _. unfold inner. eauto.
Qed.

Lemma app_api : forall pre rest seg c below, no_api pre = true ->
  pre ++ rest = seg ++ FApi c :: below -> exists r, seg = pre ++ r /\ rest = r ++ FApi c :: below.
Proof.
  induction pre as [|f pre IH]; intros rest seg c below N E; [exists seg; auto|].
  cbn in N. apply andb_true_iff in N as [Nf N]. destruct seg as [|g seg]; cbn in E.
  - injection E as -> _. discriminate Nf.
  - injection E as <- E. destruct (IH _ _ _ _ N E) as (r & -> & ->). exists r. auto.
Qed.
Lemma api_unique : forall a c r a' c' r', no_api a = true -> no_api a' = true ->
  a ++ FApi c :: r = a' ++ FApi c' :: r' -> a = a' /\ c = c' /\ r = r'.
Proof.
  induction a as [|f a IH]; intros c r [|g a'] c' r' N N' E; cbn in *.
  - injection E as <- <-. auto.
  - injection E as <- _. discriminate N'.
  - injection E as -> _. discriminate N.
  - injection E as -> E. apply andb_true_iff in N as [_ N], N' as [_ N'].
    destruct (IH _ _ _ _ _ N N' E) as (-> & -> & ->). auto.
Qed.

(** The actions of [t] that a move adds. *)
Definition new_acts (t : tid) (h h' : heap) : list event :=
  filter (by_thread t) (firstn (length (h_tr h') - length (h_tr h)) (h_tr h')).
Lemma new_acts_none : forall t h h', h_tr h' = h_tr h -> new_acts t h h' = [].
Proof. intros t h h' E. unfold new_acts. now rewrite E, Nat.sub_diag. Qed.
Lemma new_acts_one : forall t h h' e, h_tr h' = e :: h_tr h ->
  new_acts t h h' = if by_thread t e then [e] else [].
Proof.
  intros t h h' e E. unfold new_acts. rewrite E. cbn [length].
  replace (S (length (h_tr h)) - length (h_tr h)) with 1 by lia. reflexivity.
Qed.
Lemma new_acts_op : forall h t T (o : op T) inp h' x, atom h t o inp = AOk h' x ->
  new_acts t h h' = match op_event h t o x with
                    | Some e => if by_thread t e then [e] else []
                    | None => []
                    end.
Proof.
  intros h t T o inp h' x A. apply atom_event in A. destruct (op_event h t o x).
  - now apply new_acts_one.
  - now apply new_acts_none.
Qed.
Definition add_acts (l : list event) (cl : call) : call := mkCall (cl_api cl) (cl_pre cl) (cl_acts cl ++ l).
Lemma add_acts_nil : forall cl, add_acts [] cl = cl.
Proof. intros []. unfold add_acts. cbn. now rewrite app_nil_r. Qed.


Lemma lstep_actor : forall h t pre h' n ee, lstep h t pre h' n -> h_tr h' = ee :: h_tr h ->
  actor ee = Some t \/ actor ee = None.
Proof.
  intros h t pre h' n ee L E.
  ev_cases L E; brki E; cbn beta iota in E; try discriminate E; first [injection E as <-|subst ee]; cbn [actor]; auto.
Qed.

Lemma calls_r_other : forall t e l, by_thread t e = false ->
  match e with EvSpawn _ n => n <> t | _ => True end -> calls_r t (e :: l) = calls_r t l.
Proof.
  intros t e l B N. unfold by_thread in B.
  destruct e; cbn [actor calls_r by_thread] in *; unfold by_thread; cbn [actor]; rewrite ?B; auto.
  destruct (Nat.eqb_spec n t); [contradiction|auto].
Qed.
Lemma calls_r_act : forall t e l, by_thread t e = true ->
  match e with EvCall _ _ | EvRet _ _ _ | EvThreadEnd _ => False | EvSpawn _ n => n <> t | _ => True end ->
  calls_r t (e :: l) = add_act e (calls_r t l).
Proof.
  intros t e l B N. unfold by_thread in B.
  destruct e; cbn [actor calls_r by_thread] in *; try contradiction; unfold by_thread; cbn [actor]; rewrite ?B; auto;
    try discriminate B.
  destruct (Nat.eqb_spec n t); [contradiction|auto].
Qed.

Lemma tr_app1 : forall s, open_calls s = fun tr => calls_r s (rev tr).
Proof. reflexivity. Qed.
Lemma open_trace : forall t s, open_calls t (trace s) = calls_r t (h_tr (hp s)).
Proof. intros. unfold open_calls, trace. now rewrite rev_involutive. Qed.

Definition tick (h : heap) (d : positive) : heap := emit (put_now h (h_now h + Zpos d)) (EvTick (Zpos d)).

Lemma end_rest : forall s t rest, reachable s -> stk s t = FEnd :: rest -> rest = [].
Proof.
  intros s t rest R E. pose proof (stk_inv_reachable s R t) as H. unfold stk_ok in H.
  destruct (running (h_tst (hp s) t)); [|rewrite E in H; discriminate].
  destruct H as (fs & H & N). rewrite E in H. destruct fs as [|f fs]; [now injection H|].
  cbn in H. injection H as <- _. discriminate N.
Qed.

Theorem seg_rule_next : forall (I : st -> Prop) (Q : heap -> tid -> call -> list frame -> Prop),
  (forall s, reachable s -> I s) ->
  (* the call starts *)
  (forall s t c u fin r, I s -> stk s t = FUser u fin :: r ->
     Q (emit (hp s) (EvCall t c)) t (mkCall c (trace s) []) (api_frames c)) ->
  (forall s s' d t cl seg, I s -> I s' -> hp s' = tick (hp s) d -> Q (hp s) t cl seg -> Q (tick (hp s) d) t cl seg) ->
  (* another thread moves, or the thread itself inside user code of this call *)
  (forall s s' t' pre rest h n t cl seg, I s -> I s' -> hp s' = h -> ubs s = None -> stk s t' = pre ++ rest -> lstep (hp s) t' pre h n ->
     t' <> t \/ inner seg -> Q (hp s) t cl seg -> Q h t cl seg) ->
  (* the segment itself moves *)
  (forall s s' t cl pre r rest h n, I s -> I s' -> hp s' = h -> ubs s = None -> stk s t = (pre ++ r) ++ FApi (cl_api cl) :: rest ->
     lstep (hp s) t pre h n -> no_api pre = true -> (forall c, h <> emit (hp s) (EvCall t c)) ->
     (exists cs, open_calls t (trace s) = cl :: cs) ->
     Q (hp s) t cl (pre ++ r) -> Q h t (add_acts (new_acts t (hp s) h) cl) (next_frames n ++ r)) ->
  forall s, reachable s -> forall t, lnk (Q (hp s) t) (stk s t) (open_calls t (trace s)).
Proof.
  intros I Q HI Hst Htk Hoth Hown.
  apply (reachable_rel (fun s => I s /\ reachable s) (fun s => forall t, lnk (Q (hp s) t) (stk s t) (open_calls t (trace s)))); auto.
  - intros t. cbn. apply lnk_nil. destruct (t =? 0); reflexivity.
  - intros s s' [Is Rs] [Is' Rs'] IH U Tr. destruct Tr as [d|t pre rest u E L|t pre rest h n E L].
    + intros t. specialize (IH t). rewrite open_trace in *. cbn [hp stk]. hs. cbn [calls_r by_thread actor].
      eapply lnk_mono; [|exact IH]. intros cl seg. eapply Htk; eauto.
    + intros t'. specialize (IH t'). exact IH.
    + intros t'. rewrite open_trace. cbn [hp stk].
      pose proof (IH t') as IH'. rewrite open_trace in IH'.
      destruct (Nat.eq_dec t' t) as [->|N].
      * (* the thread itself *)
        assert (INN : forall cl seg, inner seg -> Q (hp s) t cl seg -> Q h t cl seg).
        { intros cl seg Hi. eapply (Hoth s _ t pre rest h n t cl seg Is Is'); auto. }
        destruct (lstep_kind _ _ _ _ _ L) as [c u fin -> -> -> |c r top -> Hr -> ->| -> X -> |c b fs Np Nf X Nc Fr -> |fs Np Nf -> X].
        -- cbn [set_next]. rewrite upd_same. hs. cbn [calls_r]. rewrite Nat.eqb_refl.
           rewrite <- app_assoc. cbn [app].
           apply (lnk_cons _ _ (mkCall c (rev (h_tr (hp s))) [])).
           ++ apply no_api_api.
           ++ apply (Hst s t c u fin rest); auto.
           ++ rewrite E in IH'. cbn [app] in IH'. eapply lnk_inner; [exact INN|exact IH'].
        -- cbn [set_next]. rewrite upd_same. hs. cbn [calls_r]. rewrite Nat.eqb_refl. cbn [app].
           rewrite E in IH'. rewrite <- app_assoc in IH'. cbn [app] in IH'.
           assert (Nt : no_api top = true) by (destruct Hr as [[_ ->]|[->|(e & _ & ->)]]; reflexivity).
           remember (top ++ FApi c :: rest) as fs eqn:Efs. destruct IH' as [fs0 N0|seg cl u fin below cs N0 Qs Lb].
           ++ subst fs0. rewrite no_api_app in N0. cbn in N0. rewrite andb_false_r in N0. discriminate.
           ++ destruct (api_unique _ _ _ _ _ _ N0 Nt Efs) as (-> & <- & <-). cbn [tl].
              eapply lnk_inner; [exact INN|exact Lb].
        -- cbn [set_next]. rewrite upd_same. rewrite X. cbn [calls_r]. rewrite Nat.eqb_refl.
           cbn [app] in E. rewrite (end_rest s t rest Rs E). apply lnk_nil. reflexivity.
        -- cbn [set_next]. rewrite upd_same. rewrite X.
           assert (B : by_thread t (EvSpawn t c) = true) by (unfold by_thread; cbn; apply Nat.eqb_refl).
           rewrite (calls_r_act t _ _ B) by (cbn; auto).
           rewrite E in IH'. remember (pre ++ rest) as fs0 eqn:Efs. remember (calls_r t (h_tr (hp s))) as oc eqn:Eoc.
           destruct IH' as [fs1 N0|seg cl u fin below cs N0 Qs Lb].
           ++ subst fs1. rewrite no_api_app in N0. apply andb_true_iff in N0 as [_ N0].
              apply lnk_nil. now rewrite no_api_app, Nf, N0.
           ++ symmetry in Efs. destruct (app_api _ _ _ _ _ Np Efs) as (r & -> & ->). cbn [add_act]. rewrite app_assoc.
              pose proof (Hown s _ t cl pre r _ h _ Is Is' eq_refl U E L Np) as K. rewrite (new_acts_one t (hp s) h _ X), B in K. unfold add_acts in K. cbn [next_frames] in K.
              apply (lnk_cons _ (fs ++ r) (mkCall (cl_api cl) (cl_pre cl) (cl_acts cl ++ [EvSpawn t c]))).
              ** rewrite no_api_app in N0 |- *. apply andb_true_iff in N0 as [_ ->]. now rewrite Nf.
              ** apply K; auto; [intros c0 ->; discriminate X|]. exists cs. rewrite open_trace. now symmetry.
              ** eapply lnk_inner; [exact INN|exact Lb].
        -- cbn [set_next]. rewrite upd_same. rewrite E in IH'. remember (pre ++ rest) as fs0 eqn:Efs.
           assert (NC : forall c, h <> emit (hp s) (EvCall t c)).
           { intros c ->. destruct X as [X|(e & X & Y)].
             - symmetry in X. now apply cons_neq in X.
             - apply emit_event in X. subst e. exact Y. }
           assert (AC : calls_r t (h_tr h) = match calls_r t (h_tr (hp s)) with
                          | [] => [] | cl :: cs => add_acts (new_acts t (hp s) h) cl :: cs end).
           { destruct X as [X|(e & X & Y)].
             - rewrite X, (new_acts_none t _ _ X). destruct (calls_r t (h_tr (hp s))); auto. now rewrite add_acts_nil.
             - rewrite X, (new_acts_one t _ _ _ X). destruct (by_thread t e) eqn:B.
               + rewrite (calls_r_act t e _ B); [|destruct e; auto; contradiction].
                 destruct (calls_r t (h_tr (hp s))); reflexivity.
               + rewrite (calls_r_other t e _ B); [|destruct e; auto; contradiction].
                 destruct (calls_r t (h_tr (hp s))); auto. now rewrite add_acts_nil. }
           rewrite AC. clear AC X. remember (calls_r t (h_tr (hp s))) as oc eqn:Eoc. destruct IH' as [fs1 N0|seg cl u fin below cs N0 Qs Lb].
           ++ subst fs1. rewrite no_api_app in N0. apply andb_true_iff in N0 as [_ N0].
              apply lnk_nil. now rewrite no_api_app, Nf, N0.
           ++ symmetry in Efs. destruct (app_api _ _ _ _ _ Np Efs) as (r & -> & ->). rewrite app_assoc.
              pose proof (Hown s _ t cl pre r _ h _ Is Is' eq_refl U E L Np NC (ex_intro _ cs (eq_trans (open_trace t s) (eq_sym Eoc))) Qs) as K. cbn [next_frames] in K.
              apply (lnk_cons _ (fs ++ r) (add_acts (new_acts t (hp s) h) cl)).
              ** rewrite no_api_app in N0 |- *. apply andb_true_iff in N0 as [_ ->]. now rewrite Nf.
              ** exact K.
              ** eapply lnk_inner; [exact INN|exact Lb].
      * (* another thread *)
        assert (Q1 : forall cl seg, Q (hp s) t' cl seg -> Q h t' cl seg).
        { intros cl seg. eapply (Hoth s _ t pre rest h n t' cl seg Is Is'); auto. }
        assert (Sp : match n with GoSpawn c cfs fs => h_tr h = EvSpawn t c :: h_tr (hp s) /\ fresh_thread (h_tst (hp s) c) = true /\ no_api cfs = true
                                | Go _ => forall a b, h_tr h <> EvSpawn a b :: h_tr (hp s) end).
        { destruct (lstep_kind _ _ _ _ _ L) as [c u fin -> -> -> |c r top -> Hr -> ->| -> X -> |c b fs Np Nf X Nc Fr -> |fs Np Nf -> X].
          - intros a b Y. apply emit_event in Y. discriminate Y.
          - intros a b Y. apply emit_event in Y. discriminate Y.
          - intros a b Y. rewrite X in Y. discriminate Y.
          - auto using no_api_tframes.
          - intros a b Y. destruct X as [X|(e & X & Z)].
            + rewrite X in Y. now apply cons_neq in Y.
            + rewrite X in Y. injection Y as ->. exact Z. }
        destruct n as [fs|c cfs fs].
        -- cbn [set_next]. rewrite upd_other by auto.
           replace (calls_r t' (h_tr h)) with (calls_r t' (h_tr (hp s))); [eapply lnk_mono; eauto|].
           destruct (lstep_tr _ _ _ _ _ L) as [->|[e X]]; auto. rewrite X. symmetry. apply calls_r_other.
           ++ unfold by_thread. destruct (lstep_actor _ _ _ _ _ _ L X) as [->| ->]; auto. now apply Nat.eqb_neq; auto.
           ++ destruct e; auto. now apply Sp in X.
        -- cbn [set_next]. rewrite upd_other by auto. destruct Sp as (X & Fr & Nc). rewrite X.
           destruct (Nat.eq_dec t' c) as [->|Nc'].
           ++ rewrite upd_same. cbn [calls_r]. rewrite Nat.eqb_refl. now apply lnk_nil.
           ++ rewrite upd_other by auto. rewrite calls_r_other; [eapply lnk_mono; eauto| |auto].
              unfold by_thread. cbn. now apply Nat.eqb_neq; auto.
Qed.

Theorem seg_rule : forall (I : st -> Prop) (Q : heap -> tid -> call -> list frame -> Prop),
  (forall s, reachable s -> I s) ->
  (* the call starts *)
  (forall s t c u fin r, I s -> stk s t = FUser u fin :: r ->
     Q (emit (hp s) (EvCall t c)) t (mkCall c (trace s) []) (api_frames c)) ->
  (forall s d t cl seg, I s -> Q (hp s) t cl seg -> Q (tick (hp s) d) t cl seg) ->
  (* another thread moves, or the thread itself inside user code of this call *)
  (forall s t' pre rest h n t cl seg, I s -> ubs s = None -> stk s t' = pre ++ rest -> lstep (hp s) t' pre h n ->
     t' <> t \/ inner seg -> Q (hp s) t cl seg -> Q h t cl seg) ->
  (* the segment itself moves *)
  (forall s t cl pre r rest h n, I s -> ubs s = None -> stk s t = (pre ++ r) ++ FApi (cl_api cl) :: rest ->
     lstep (hp s) t pre h n -> no_api pre = true -> (forall c, h <> emit (hp s) (EvCall t c)) ->
     (exists cs, open_calls t (trace s) = cl :: cs) ->
     Q (hp s) t cl (pre ++ r) -> Q h t (add_acts (new_acts t (hp s) h) cl) (next_frames n ++ r)) ->
  forall s, reachable s -> forall t, lnk (Q (hp s) t) (stk s t) (open_calls t (trace s)).
Proof.
  intros I Q HI Hst Htk Hoth Hown. apply (seg_rule_next I Q); auto.
  - intros s s' t' pre rest h n t cl seg Is _ _. apply Hoth. exact Is.
  - intros s s' t cl pre r rest h n Is _ _. apply Hown. exact Is.
Qed.

(** What is known of a segment holds of the calls that return. *)
Theorem ret_rule : forall (Q : heap -> tid -> call -> list frame -> Prop) (P : tid -> call -> list event -> res -> Prop),
  (forall s, reachable s -> forall t, lnk (Q (hp s) t) (stk s t) (open_calls t (trace s))) ->
  (forall s t cl r top, reachable s -> (r = RUnit /\ top = [] \/ top = [FRes r] \/ exists e, r = RExn e /\ top = [FThrow e]) ->
     Q (hp s) t cl top -> P t cl (trace s) r) ->
  forall s, reachable s -> each_return P (trace s).
Proof.
  intros Q P HQ HP. unfold each_return. apply (event_rule reachable); auto.
  intros s t pre rest h n e R U E L X. destruct e; auto.
  destruct (lstep_kind _ _ _ _ _ L) as [c' u fin -> -> -> |c' r' top -> Hr -> ->| -> X' -> |c' b fs Np Nf X' Nc Fr -> |fs Np Nf -> X'].
  - apply emit_event in X. discriminate X.
  - apply emit_event in X. injection X as <- <- <-.
    specialize (HQ s R t). rewrite E in HQ. rewrite <- app_assoc in HQ. cbn [app] in HQ.
    assert (Nt : no_api top = true) by (destruct Hr as [[_ ->]|[->|(e & _ & ->)]]; reflexivity).
    remember (top ++ FApi c' :: rest) as fs eqn:Efs. destruct HQ as [fs0 N0|seg cl u fin below cs N0 Qs Lb].
    + subst fs0. rewrite no_api_app in N0. cbn in N0. rewrite andb_false_r in N0. discriminate.
    + destruct (api_unique _ _ _ _ _ _ N0 Nt Efs) as (-> & <- & <-). exists cl, cs. split; auto. split; auto.
      eapply HP; eauto.
  - rewrite X' in X. discriminate X.
  - rewrite X' in X. discriminate X.
  - destruct X' as [X'|(e & X' & Y)]; rewrite X' in X; [now apply cons_neq in X|]. injection X as ->. contradiction.
Qed.
