(** * Contract: proof rules for what API calls do and return.
    A running call is a segment of the stack; its bottom frames are the program
    point of the API function itself, the frames above them are the functions it
    has called. *)
From Verif Require Import Types Core State Ops Code Machine Base Spec Rules Events InvStack Calls.

Definition incall (t : tid) (cl : call) (tr : list event) : Prop :=
  exists a, tr = cl_pre cl ++ EvCall t (cl_api cl) :: a.
Lemma incall_app : forall t cl tr l, incall t cl tr -> incall t cl (tr ++ l).
Proof. intros t cl tr l [a ->]. exists (a ++ l). now rewrite <- app_assoc. Qed.
Lemma incall_acts : forall t cl tr l, incall t cl tr -> incall t (add_acts l cl) tr.
Proof. intros t cl tr l H. exact H. Qed.

Lemma moment_app : forall cl tr m l, moment cl tr m -> moment cl (tr ++ l) m.
Proof. intros cl tr m l (a & b & -> & ->). exists a, (b ++ l). split; auto. now rewrite <- !app_assoc. Qed.
Lemma moment_acts : forall cl tr m a, moment cl tr m -> moment (add_acts a cl) tr m.
Proof. intros cl tr m a H. exact H. Qed.
Lemma moment_now : forall t cl tr, incall t cl tr -> moment cl tr tr.
Proof. intros t cl tr [a ->]. exists (EvCall t (cl_api cl) :: a), []. split; auto. now rewrite app_nil_r. Qed.
Lemma happens_app : forall cl tr m e l, happens cl tr m e -> happens cl (tr ++ l) m e.
Proof. intros cl tr m e l (a & b & -> & ->). exists a, (b ++ l). split; auto. now rewrite <- !app_assoc. Qed.
Lemma happens_acts : forall cl tr m e a, happens cl tr m e -> happens (add_acts a cl) tr m e.
Proof. intros cl tr m e a H. exact H. Qed.
Lemma happens_now : forall t cl tr e, incall t cl tr -> happens cl (tr ++ [e]) tr e.
Proof. intros t cl tr e [a ->]. exists (EvCall t (cl_api cl) :: a), []. split; auto. Qed.
Lemma happens_moment : forall cl tr m e, happens cl tr m e -> moment cl tr m.
Proof. intros cl tr m e (a & b & -> & ->). exists a, (e :: b). auto. Qed.
Lemma happens_in : forall cl tr m e, happens cl tr m e -> In e tr.
Proof. intros cl tr m e (a & b & -> & ->). rewrite in_app_iff. cbn. auto. Qed.

Lemma lstep_trace : forall h t pre h' n, lstep h t pre h' n ->
  exists es, tr_of h' = tr_of h ++ es /\ new_acts t h h' = filter (by_thread t) es /\ length es <= 1.
Proof.
  intros h t pre h' n L. destruct (lstep_tr _ _ _ _ _ L) as [X|[e X]].
  - exists []. unfold tr_of. rewrite X, app_nil_r, (new_acts_none _ _ _ X). auto.
  - exists [e]. unfold tr_of. rewrite X, (new_acts_one _ _ _ _ X). cbn. split; auto.
Qed.
Lemma step_trace : forall h t T (o : op T) inp h' x, atom h t o inp = AOk h' x ->
  tr_of h' = tr_of h ++ match op_event h t o x with Some e => [e] | None => [] end.
Proof.
  intros h t T o inp h' x A. apply atom_event in A. unfold tr_of. rewrite A.
  destruct (op_event h t o x); [reflexivity|now rewrite app_nil_r].
Qed.

Lemma api_single : forall c, exists f, api_frames c = [f].
Proof. destruct c; cbn; eauto. Qed.

(** [tr'] is a later history in which [t] has done nothing more. *)
Definition quiet (t : tid) (tr tr' : list event) : Prop :=
  exists s l, reachable s /\ trace s = tr' /\ tr' = tr ++ l /\ forall e, In e l -> by_thread t e = false.

Theorem bot_rule : forall (P : tid -> call -> list event -> list frame -> Prop),
  (forall s t c pre, reachable s -> trace s = pre -> P t (mkCall c pre []) (pre ++ [EvCall t c]) (api_frames c)) ->
  (forall t cl tr tr' seg, incall t cl tr -> P t cl tr seg -> quiet t tr tr' -> P t cl tr' seg) ->
  (forall t cl tr tr' l seg, incall t cl tr -> P t cl tr seg -> inner seg -> tr' = tr ++ l -> P t cl tr' seg) ->
  (forall s s' t cl pre r rest h n, reachable s -> reachable s' -> hp s' = h -> ubs s = None ->
     stk s t = (pre ++ r) ++ FApi (cl_api cl) :: rest -> lstep (hp s) t pre h n -> no_api pre = true ->
     (forall c, h <> emit (hp s) (EvCall t c)) -> incall t cl (trace s) -> (exists cs, open_calls t (trace s) = cl :: cs) ->
     P t cl (trace s) (pre ++ r) ->
     P t (add_acts (new_acts t (hp s) h) cl) (tr_of h) (next_frames n ++ r)) ->
  forall s, reachable s -> forall t,
    lnk (fun cl seg => incall t cl (trace s) /\ P t cl (trace s) seg) (stk s t) (open_calls t (trace s)).
Proof.
  intros P H0 Hq Hi Ho.
  apply (seg_rule_next reachable (fun h t cl seg => incall t cl (tr_of h) /\ P t cl (tr_of h) seg)); auto.
  - intros s t c u fin r R E. split.
    + exists []. reflexivity.
    + apply (H0 s); auto.
  - intros s s' d t cl seg R R' Eh [C H]. split; [now apply (incall_app t cl (tr_of (hp s)) [_])|].
    apply (Hq t cl (tr_of (hp s))); auto. exists s', [EvTick (Zpos d)]. split; [exact R'|]. split; [|split; [reflexivity|]].
    + unfold trace, tr_of. now rewrite Eh.
    + intros e [<-|[]]. reflexivity.
  - intros s s' t' pre rest h n t cl seg R R' Eh U E L N [C H].
    destruct (lstep_trace _ _ _ _ _ L) as (es & Et & _ & Le). rewrite Et. split; [now apply incall_app|].
    destruct N as [N|N].
    + apply (Hq t cl (tr_of (hp s))); auto. exists s', es. split; [exact R'|]. split; [|split; [reflexivity|]].
      * unfold trace. rewrite Eh. exact Et.
      * intros e I. unfold tr_of in Et. destruct (lstep_tr _ _ _ _ _ L) as [X|[e' X]]; rewrite X in Et.
        -- rewrite <- (app_nil_r (rev _)) in Et at 1. apply app_inv_head in Et. subst es. contradiction.
        -- cbn [rev] in Et. apply app_inv_head in Et. subst es. destruct I as [<-|[]].
           unfold by_thread. destruct (lstep_actor _ _ _ _ _ _ L X) as [->| ->]; auto. now apply Nat.eqb_neq.
    + eapply (Hi t cl (tr_of (hp s))); eauto.
  - intros s s' t cl pre r rest h n R R' Eh U E L N NC O [C H].
    destruct (lstep_trace _ _ _ _ _ L) as (es & Et & Ea & Le). split.
    + rewrite Et. apply incall_app. exact C.
    + eapply Ho; eauto.
Qed.

(** ** Calls whose state is their bottom frame *)
(** Frames that never let an exception through and end without a result. *)
Definition shield (f : frame) : bool :=
  match f with
  | FRel _ | FDestroy _ | FMOwn _ _ | FWRel _ | FPromDtor _ | FNoexcept | FThPut _ _ => true
  | _ => false
  end.
(** The frame of the function called directly by the bottom frame. *)
Definition hd_of (fs : list frame) : option frame := hd_error (rev fs).
Definition shielded (above : list frame) : Prop := match hd_of above with Some g => shield g = true | None => True end.

Lemma hd_of_app : forall a r, r <> [] -> hd_of (a ++ r) = hd_of r.
Proof.
  intros a r N. unfold hd_of. rewrite rev_app_distr. destruct (rev r) eqn:E; auto.
  exfalso. apply N. now rewrite <- (rev_involutive r), E.
Qed.
Lemma shield_step : forall f h t inp h' n, shield f = true -> runs (code f) h t inp h' n -> shielded (next_frames n).
Proof.
  intros f h t inp h' n S R. destruct f; try discriminate S; code_cases R; cbn [next_frames];
    try match goal with |- shielded (destroy ?x) => destruct x end;
    try match goal with |- shielded (match ?x with _ => _ end) => destruct x end; try exact I; reflexivity.
Qed.
Lemma shield_catch : forall f e h t inp h' n, shield f = true -> runs (catch f e) h t inp h' n -> False.
Proof. intros f e h t inp h' n S R. destruct f; try discriminate S; cbn in R; try contradiction; destruct R as (x & A & _); discriminate A. Qed.

(** What a move of a segment is. *)
Inductive top_step (h : heap) (t : tid) (h' : heap) (n : next) : list frame -> list frame -> Prop :=
| ts_ret : forall v u fin r, h' = emit h (EvUserEnd t u (fin_sid fin) (RVal v)) -> n = Go (ufin_ret fin v) ->
    top_step h t h' n (FUser u fin :: r) r
| ts_throw : forall e u fin r, h' = emit h (EvUserEnd t u (fin_sid fin) (RExn e)) -> n = Go [FThrow e] ->
    top_step h t h' n (FUser u fin :: r) r
| ts_code : forall inp f r, runs (code f) h t inp h' n -> top_step h t h' n (f :: r) r
| ts_catch : forall inp e g r, runs (catch g e) h t inp h' n -> top_step h t h' n (FThrow e :: g :: r) r.
Lemma lstep_top : forall h t pre h' n r, lstep h t pre h' n -> no_api pre = true ->
  (forall c, h' <> emit h (EvCall t c)) -> top_step h t h' n (pre ++ r) r.
Proof.
  intros h t pre h' n r L N NC. destruct L; cbn [app].
  - now destruct (NC c).
  - now eapply ts_ret.
  - now eapply ts_throw.
  - now eapply ts_code; eauto.
  - now eapply ts_catch; eauto.
  - discriminate N.
Qed.
Lemma shield_above : forall h t h' n above r, top_step h t h' n above r -> shielded above -> shielded (next_frames n ++ r).
Proof.
  intros h t h' n above r T S. destruct r as [|r0 r].
  - rewrite app_nil_r. inversion T; subst; try (cbn in S; discriminate S).
    + eapply shield_step; [exact S|eauto].
    + exfalso. eapply shield_catch; [exact S|eauto].
  - assert (E : exists a, above = a ++ r0 :: r) by (inversion T; subst; [exists [FUser u fin]|exists [FUser u fin]|exists [f]|exists [FThrow e; g]]; reflexivity).
    destruct E as [a ->]. unfold shielded in *. rewrite hd_of_app in S |- * by discriminate. exact S.
Qed.

Section Res.
Variable sel : api -> bool.
Variable Post : tid -> call -> list event -> res -> Prop.
(** [mid t cl tr f above]: program point [f] of the API function, with the frames
    [above] (top first) of the functions it has called. *)
Variable mid : tid -> call -> list event -> frame -> list frame -> Prop.
(** The result stays right whatever the thread still does in the call. *)
Definition stable (t : tid) (cl : call) (tr : list event) (r : res) : Prop :=
  forall a l, Post t (add_acts a cl) (tr ++ l) r.
Definition resok (t : tid) (cl : call) (tr : list event) (r : res) (above : list frame) : Prop :=
  (above = [] /\ Post t cl tr r) \/ (shielded above /\ stable t cl tr r).
Definition okbot (t : tid) (cl : call) (tr : list event) (f : frame) (above : list frame) : Prop :=
  mid t cl tr f above \/
  match f with
  | FRes r => resok t cl tr r above
  | FThrow e => resok t cl tr (RExn e) above
  | _ => shield f = true /\ stable t cl tr RUnit
  end.
Definition newbot (t : tid) (cl : call) (tr : list event) (fs : list frame) : Prop :=
  match rev fs with
  | [] => Post t cl tr RUnit
  | f :: l => okbot t cl tr f (rev l)
  end.

Hypothesis H0 : forall s t c pre, reachable s -> trace s = pre -> sel c = true -> newbot t (mkCall c pre []) (pre ++ [EvCall t c]) (api_frames c).
Hypothesis HtP : forall t cl tr tr' r, Post t cl tr r -> quiet t tr tr' -> Post t cl tr' r.
Hypothesis HtM : forall t cl tr tr' f g, incall t cl tr -> mid t cl tr f g -> quiet t tr tr' -> mid t cl tr' f g.
Hypothesis HtI : forall t cl tr l f g, incall t cl tr -> mid t cl tr f g -> inner (g ++ [f]) -> mid t cl (tr ++ l) f g.
Hypothesis HU : forall t cl tr f above, mid t cl tr f above -> match f with FUser _ _ => False | FThrow e => above = [] -> Post t cl tr (RExn e) | _ => True end.
Hypothesis H1 : forall s s' t cl f inp h n, reachable s -> reachable s' -> hp s' = h -> sel (cl_api cl) = true -> incall t cl (trace s) -> (exists cs, open_calls t (trace s) = cl :: cs) ->
  (exists rest, stk s t = f :: FApi (cl_api cl) :: rest) ->
  runs (code f) (hp s) t inp h n -> mid t cl (trace s) f [] ->
  newbot t (add_acts (new_acts t (hp s) h) cl) (tr_of h) (next_frames n).
Hypothesis H2 : forall s s' t cl f e inp h n, reachable s -> reachable s' -> hp s' = h -> sel (cl_api cl) = true -> incall t cl (trace s) -> (exists cs, open_calls t (trace s) = cl :: cs) ->
  runs (catch f e) (hp s) t inp h n -> mid t cl (trace s) f [FThrow e] ->
  newbot t (add_acts (new_acts t (hp s) h) cl) (tr_of h) (next_frames n).
Hypothesis H3 : forall s s' t cl f above r h n, reachable s -> reachable s' -> hp s' = h -> sel (cl_api cl) = true -> incall t cl (trace s) -> (exists cs, open_calls t (trace s) = cl :: cs) ->
  (exists rest, stk s t = above ++ f :: FApi (cl_api cl) :: rest) ->
  (exists es, tr_of h = trace s ++ es) ->
  top_step (hp s) t h n above r -> mid t cl (trace s) f above ->
  mid t (add_acts (new_acts t (hp s) h) cl) (tr_of h) f (next_frames n ++ r).
Hypothesis H4 : forall t cl tr r, mid t cl tr (FRes r) [] -> Post t cl tr r.

Definition resP (t : tid) (cl : call) (tr : list event) (seg : list frame) : Prop :=
  sel (cl_api cl) = true -> newbot t cl tr seg.

Lemma add_acts_app : forall a b cl, add_acts b (add_acts a cl) = add_acts (a ++ b) cl.
Proof. intros. unfold add_acts. cbn. now rewrite app_assoc. Qed.
Lemma stable_mono : forall t cl tr l a r, stable t cl tr r -> stable t (add_acts a cl) (tr ++ l) r.
Proof. intros t cl tr l a r H a' l'. rewrite add_acts_app, <- app_assoc. apply H. Qed.
Lemma stable_tr : forall t cl tr l r, stable t cl tr r -> stable t cl (tr ++ l) r.
Proof. intros t cl tr l r H a' l'. rewrite <- app_assoc. apply H. Qed.
Lemma stable_post : forall t cl tr r, stable t cl tr r -> Post t cl tr r.
Proof. intros t cl tr r H. specialize (H [] []). now rewrite add_acts_nil, app_nil_r in H. Qed.
Lemma newbot_quiet : forall t cl tr tr' fs, incall t cl tr -> newbot t cl tr fs -> quiet t tr tr' -> newbot t cl tr' fs.
Proof.
  intros t cl tr tr' fs C H Qt. unfold newbot, okbot, resok in *. destruct (rev fs) as [|f r]; eauto.
  assert (ST : forall x, stable t cl tr x -> stable t cl tr' x) by (destruct Qt as (s & l & _ & _ & -> & _); intros; now apply stable_tr).
  destruct H as [H|H]; [left; eauto|right].
  destruct f; try (destruct H; split; auto; fail);
    (destruct H as [[? ?]|[? ?]]; [left|right]; eauto).
Qed.
Lemma newbot_inner : forall t cl tr l fs, incall t cl tr -> newbot t cl tr fs -> inner fs -> newbot t cl (tr ++ l) fs.
Proof.
  intros t cl tr l fs C H In. unfold newbot, okbot, resok in *. destruct (rev fs) as [|f r] eqn:E.
  - apply (f_equal (@rev _)) in E. rewrite rev_involutive in E. subst fs. destruct In as (u & fin & r & X). discriminate X.
  - assert (Ef : fs = rev r ++ [f]) by (rewrite <- (rev_involutive fs), E; reflexivity).
    assert (NE : rev r = [] -> inner [f]) by (intros X; now rewrite X in Ef; subst fs).
    destruct H as [H|H]; [left; apply HtI; auto; now subst fs|right].
    destruct f; try (destruct H; split; auto using stable_tr; fail);
      (destruct H as [[? ?]|[? ?]]; [|right; auto using stable_tr]; destruct (NE H) as (u & fin & r' & X); discriminate X).
Qed.
Lemma newbot_snoc : forall t cl tr above f, newbot t cl tr (above ++ [f]) <-> okbot t cl tr f above.
Proof. intros. unfold newbot. rewrite rev_app_distr. cbn. rewrite rev_involutive. reflexivity. Qed.
Lemma shield_newbot : forall t cl tr fs, shielded fs -> stable t cl tr RUnit -> newbot t cl tr fs.
Proof.
  intros t cl tr fs S H. destruct fs as [|f fs] using rev_ind; [now apply stable_post|].
  apply newbot_snoc. unfold shielded, hd_of in S. rewrite rev_app_distr in S. cbn in S.
  right. destruct f; try discriminate S; auto.
Qed.

Lemma res_lnk : forall s, reachable s -> forall t,
  lnk (fun cl seg => incall t cl (trace s) /\ resP t cl (trace s) seg) (stk s t) (open_calls t (trace s)).
Proof.
  apply bot_rule.
  - intros s t c pre R E S. now apply (H0 s).
  - intros t cl tr tr' seg C H Qt S. apply (newbot_quiet t cl tr); auto.
  - intros t cl tr tr' l seg C H In -> S. apply newbot_inner; auto.
  - intros s s' t cl pre r rest h n R R' Eh' U E L N NC C O H S. specialize (H S).
    pose proof (lstep_top _ _ _ _ _ r L N NC) as T.
    destruct (lstep_trace _ _ _ _ _ L) as (es & Et & _ & _).
    assert (SS : forall x, stable t cl (trace s) x -> stable t (add_acts (new_acts t (hp s) h) cl) (tr_of h) x).
    { intros x X. rewrite Et. now apply stable_mono. }
    set (seg := pre ++ r) in *. clearbody seg. clear L N NC pre.
    destruct r as [|f r _] using rev_ind.
    + rewrite app_nil_r. inversion T as [v u fin r1 Eh En X|e u fin r1 Eh En X|inp f r1 Ru X|inp e g r1 Ru X]; subst; clear T.
      * apply (newbot_snoc t cl (trace s) []) in H. destruct H as [H|[H _]]; [|discriminate H].
        now apply HU in H.
      * apply (newbot_snoc t cl (trace s) []) in H. destruct H as [H|[H _]]; [|discriminate H].
        now apply HU in H.
      * apply (newbot_snoc t cl (trace s) []) in H. destruct H as [H|H].
        -- eapply H1; eauto. exists rest. exact E.
        -- destruct (shield f) eqn:Sf.
           ++ pose proof (shield_step _ _ _ _ _ _ Sf Ru) as X.
              apply shield_newbot; auto. apply SS. destruct f; try discriminate Sf; apply H.
           ++ destruct f; try discriminate Sf; try (destruct H as [H _]; discriminate H); contradiction.
      * apply (newbot_snoc t cl (trace s) [FThrow e]) in H. destruct H as [H|H].
        -- eapply H2; eauto.
        -- destruct (shield g) eqn:Sf; [exfalso; eapply shield_catch; eauto|].
           destruct g; try discriminate Sf; try (destruct H as [H _]; discriminate H);
             destruct H as [[H _]|[H _]]; discriminate H.
    + assert (E1 : exists above, seg = above ++ [f] /\ top_step (hp s) t h n above r).
      { inversion T as [v u fin r1 Eh En X|e u fin r1 Eh En X|inp g r1 Ru X|inp e g r1 Ru X]; subst.
        - exists (FUser u fin :: r). split; auto. eapply ts_ret; eauto.
        - exists (FUser u fin :: r). split; auto. eapply ts_throw; eauto.
        - exists (g :: r). split; auto. now eapply ts_code; eauto.
        - exists (FThrow e :: g :: r). split; auto. now eapply ts_catch; eauto. }
      destruct E1 as (above & -> & T1). rewrite app_assoc. rewrite newbot_snoc in *.
      destruct H as [H|H].
      * left. eapply H3; eauto. exists rest. rewrite E, <- app_assoc. reflexivity.
      * right. assert (RR : forall x, resok t cl (trace s) x above -> resok t (add_acts (new_acts t (hp s) h) cl) (tr_of h) x (next_frames n ++ r)).
        { intros x [[-> _]|[X Y]]; [inversion T1|]. right. split; auto. eapply shield_above; eauto. }
        destruct f; auto; destruct H; split; auto.
Qed.

Theorem res_rule_quiet : forall s, reachable s ->
  each_return (fun t cl tr r => sel (cl_api cl) = true -> Post t cl tr r) (trace s).
Proof.
  apply (ret_rule (fun h t cl seg => incall t cl (tr_of h) /\ resP t cl (tr_of h) seg)).
  - apply res_lnk.
  - intros s t cl r top R T [C H] S. specialize (H S).
    destruct T as [[-> ->]|[->|(e & -> & ->)]].
    + exact H.
    + apply (newbot_snoc t cl _ []) in H. destruct H as [H|[[_ H]|[_ H]]]; auto using stable_post.
    + apply (newbot_snoc t cl _ []) in H. destruct H as [H|[[_ H]|[_ H]]]; auto using stable_post. apply HU in H. auto.
Qed.
End Res.

(** The rule for contracts and program points that later events cannot falsify. *)
Section Mono.
Variable sel : api -> bool.
Variable Post : tid -> call -> list event -> res -> Prop.
Variable mid : tid -> call -> list event -> frame -> list frame -> Prop.
Hypothesis H0 : forall t c pre, sel c = true -> newbot Post mid t (mkCall c pre []) (pre ++ [EvCall t c]) (api_frames c).
Hypothesis HtP : forall t cl tr l r, Post t cl tr r -> Post t cl (tr ++ l) r.
Hypothesis HtM : forall t cl tr l f g, mid t cl tr f g -> mid t cl (tr ++ l) f g.
Hypothesis HU : forall t cl tr f above, mid t cl tr f above -> match f with FUser _ _ => False | FThrow e => above = [] -> Post t cl tr (RExn e) | _ => True end.
Hypothesis H1 : forall s t cl f inp h n, reachable s -> sel (cl_api cl) = true -> incall t cl (trace s) -> (exists cs, open_calls t (trace s) = cl :: cs) ->
  (exists rest, stk s t = f :: FApi (cl_api cl) :: rest) ->
  runs (code f) (hp s) t inp h n -> mid t cl (trace s) f [] ->
  newbot Post mid t (add_acts (new_acts t (hp s) h) cl) (tr_of h) (next_frames n).
Hypothesis H2 : forall s t cl f e inp h n, reachable s -> sel (cl_api cl) = true -> incall t cl (trace s) -> (exists cs, open_calls t (trace s) = cl :: cs) ->
  runs (catch f e) (hp s) t inp h n -> mid t cl (trace s) f [FThrow e] ->
  newbot Post mid t (add_acts (new_acts t (hp s) h) cl) (tr_of h) (next_frames n).
Hypothesis H3 : forall s t cl f above r h n, reachable s -> sel (cl_api cl) = true -> incall t cl (trace s) -> (exists cs, open_calls t (trace s) = cl :: cs) ->
  (exists rest, stk s t = above ++ f :: FApi (cl_api cl) :: rest) ->
  (exists es, tr_of h = trace s ++ es) ->
  top_step (hp s) t h n above r -> mid t cl (trace s) f above ->
  mid t (add_acts (new_acts t (hp s) h) cl) (tr_of h) f (next_frames n ++ r).
Hypothesis H4 : forall t cl tr r, mid t cl tr (FRes r) [] -> Post t cl tr r.
Theorem res_rule : forall s, reachable s ->
  each_return (fun t cl tr r => sel (cl_api cl) = true -> Post t cl tr r) (trace s).
Proof.
  apply (res_rule_quiet sel Post mid); eauto.
  - intros t cl tr tr' r H (s & l & _ & _ & -> & _). auto.
  - intros t cl tr tr' f g _ H (s & l & _ & _ & -> & _). auto.
Qed.
End Mono.

(** Most contracts have no program point that throws. *)
Lemma no_throw : forall (Post : tid -> call -> list event -> res -> Prop) (mid : tid -> call -> list event -> frame -> list frame -> Prop),
  (forall t cl tr f above, mid t cl tr f above -> match f with FUser _ _ | FThrow _ => False | _ => True end) ->
  forall t cl tr f above, mid t cl tr f above -> match f with FUser _ _ => False | FThrow e => above = [] -> Post t cl tr (RExn e) | _ => True end.
Proof. intros Post mid H t cl tr f above M. apply H in M. destruct f; auto. contradiction. Qed.
