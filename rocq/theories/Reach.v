(** * Reach: states a caller can reach, for any schema at all. *)
From Verif Require Import Base Datatype Store Deriv Events Accept Compile Steps.
Open Scope monad_scope.

(** [reachable O defs start v]: some caller that built a validator for the schema and fed it tokens
    (going on after errors) has a validator in state [v]. *)
Inductive reachable (O : oracles) (defs : list mpat) (start : mpat) : validator -> Prop :=
| R_new fuel v : new_validator defs fuel (Some start) = Ok v -> reachable O defs start v
| R_step fuel v t v' e : reachable O defs start v -> validate O fuel v t = Ok (v', e) -> reachable O defs start v'.

(** ** Building: handles handed out while compiling are valid *)
Definition wfst (st : store) : Prop :=
  sized st /\ (forall r i, lookup_nat r (refs st) = Some i -> i < length (pats st)).
Definition builds {A} (f : M A) (Q : A -> nat -> Prop) : Prop :=
  forall st a st', wfst st -> f st = Ok (a, st') -> wfst st' /\ length (pats st) <= length (pats st') /\ Q a (length (pats st')).
Definition handle (i : pid) (n : nat) : Prop := i < n.
Definition any {A} (a : A) (n : nat) : Prop := True.
Lemma b_ret {A} (a : A) : builds (ret a) any.
Proof. intros st b st' H E; injection E as _ <-; split; [exact H | split; [lia | exact I]]. Qed.
Lemma b_bind {A B} (f : M A) (g : A -> M B) P Q : builds f P -> (forall a, builds (g a) Q) -> builds (bind f g) Q.
Proof.
  intros Hf Hg st b st2 H E. unfold bind in E. destruct (f st) as [[a st1]| |] eqn:Ef; try discriminate.
  destruct (Hf _ _ _ H Ef) as (W1 & L1 & _). destruct (Hg a _ _ _ W1 E) as (W2 & L2 & Q2). split; [exact W2 | split; [lia | exact Q2]].
Qed.
Lemma b_bind_h {B} (f : M pid) (g : pid -> M B) Q : builds f handle ->
  (forall i st b st', wfst st -> i < length (pats st) -> g i st = Ok (b, st') -> wfst st' /\ length (pats st) <= length (pats st') /\ Q b (length (pats st'))) ->
  builds (bind f g) Q.
Proof.
  intros Hf Hg st b st2 H E. unfold bind in E. destruct (f st) as [[a st1]| |] eqn:Ef; try discriminate.
  destruct (Hf _ _ _ H Ef) as (W1 & L1 & Ha). destruct (Hg a _ _ _ W1 Ha E) as (W2 & L2 & Q2). split; [exact W2 | split; [lia | exact Q2]].
Qed.
Lemma b_push p : builds (push p) handle.
Proof.
  intros st i st' (W & WR) E. destruct (mono_push p _ _ _ E) as [([l Hl] & _ & HR) HS]. specialize (HS W).
  assert (Hlen : length (pats st) <= length (pats st')) by (rewrite Hl, app_length; lia).
  split; [split; [exact HS|]|split; [exact Hlen|]].
  - intros r k Hr. rewrite HR in Hr. apply WR in Hr. lia.
  - unfold push in E. destruct (max_patterns <? _)%N; [discriminate|].
    destruct (lookup_pat p (memo st)) as [j|] eqn:Ej; injection E as <- <-.
    + destruct W as (_ & W & _). exact (W _ _ Ej).
    + unfold handle; cbn. rewrite app_length; cbn. lia.
Qed.
Lemma b_patt i : builds (patt i) any.
Proof. intros st p st' H E; unfold patt in E. destruct (nth_error (pats st) i); [|discriminate E]. injection E as _ <-. split; [exact H | split; [lia | exact I]]. Qed.
Lemma b_fail {A} p Q : builds (@fail A p) Q.
Proof. intros st a st' _ E; discriminate E. Qed.
(** binary operators return one of their arguments or a pushed pattern; arguments must be valid,
    which reading them with [patt] checks *)
Lemma patt_bound i st p st' : patt i st = Ok (p, st') -> st' = st /\ i < length (pats st).
Proof. unfold patt. destruct (nth_error (pats st) i) eqn:E; [|discriminate]. intros H; injection H as _ <-. split; [reflexivity|]. apply nth_error_Some; congruence. Qed.
Lemma b_reads2 (l r : pid) (g : pat -> pat -> M pid) :
  (forall x y st a st', wfst st -> l < length (pats st) -> r < length (pats st) -> g x y st = Ok (a, st') -> wfst st' /\ length (pats st) <= length (pats st') /\ handle a (length (pats st'))) ->
  builds (let* x := patt l in let* y := patt r in g x y) handle.
Proof.
  intros H st a st' W E. unfold bind in E. destruct (patt l st) as [[x s1]| |] eqn:E1; try discriminate. apply patt_bound in E1 as [-> L1].
  destruct (patt r st) as [[y s2]| |] eqn:E2; try discriminate. apply patt_bound in E2 as [-> L2]. eapply H; eassumption.
Qed.
Ltac ret_tac := match goal with E : ret _ _ = Ok _ |- _ => injection E as <- <-; split; [assumption | split; [lia | unfold handle; lia]] end.
Ltac push_tac := match goal with W : wfst _, E : _ = Ok _ |- _ => exact (b_push _ _ _ _ W E) end.
Lemma b_choice l r : builds (choice l r) handle.
Proof.
  apply b_reads2; intros x y st a st' W L1 L2 E. cbn beta in E. destruct (is_not_allowed x); [ret_tac|]. destruct (is_not_allowed y); [ret_tac|].
  destruct (Nat.eqb l r); [ret_tac | push_tac].
Qed.
Lemma b_interleave l r : builds (interleave l r) handle.
Proof.
  apply b_reads2; intros x y st a st' W L1 L2 E. cbn beta in E. destruct (is_not_allowed x); [push_tac|]. destruct (is_not_allowed y); [push_tac|].
  destruct (is_empty x); [ret_tac|]. destruct (is_empty y); [ret_tac | push_tac].
Qed.
Lemma b_group l r : builds (group l r) handle.
Proof.
  apply b_reads2; intros x y st a st' W L1 L2 E. cbn beta in E. destruct (is_not_allowed x); [push_tac|]. destruct (is_not_allowed y); [push_tac|].
  destruct (is_empty x); [ret_tac|]. destruct (is_empty y); [ret_tac | push_tac].
Qed.
Lemma b_more p : builds (one_or_more p) handle.
Proof. unfold one_or_more. eapply b_bind; [apply b_patt|]. intros; apply b_push. Qed.
Lemma set_nth_length {A} (l : list A) : forall i x, length (set_nth l i x) = length l.
Proof. induction l as [|y l IH]; intros [|i] x; cbn; auto. Qed.
Lemma set_nth_other {A} (l : list A) : forall i j x, i <> j -> nth_error (set_nth l i x) j = nth_error l j.
Proof. induction l as [|y l IH]; intros [|i] [|j] x H; cbn; auto; try congruence. Qed.
Lemma b_resolve a b : builds (resolve_ref a b) any.
Proof.
  unfold resolve_ref. destruct (Nat.eqb a b); [apply b_ret|]. eapply b_bind; [apply b_patt|]. intros t. destruct (is_placeholder t); [apply b_fail|].
  intros st u st' ((W0 & W1 & W3) & W2) E. unfold bind, patt in E. destruct (nth_error (pats st) a) as [c|] eqn:Ea; [|discriminate E].
  destruct (is_placeholder c) eqn:Hc; [|discriminate E]. injection E as _ <-. unfold wfst, sized. cbn [pats memo refs]. rewrite set_nth_length. split; [|split; [lia | exact I]].
  split; [|exact W2]. split; [exact W0|]. split; [exact W1|]. intros p i Hp Hn. pose proof (W3 _ _ Hp Hn) as Hi.
  rewrite set_nth_other; [exact Hi|]. intros ->. congruence.
Qed.
Lemma b_comp_list op c l : (forall a b, builds (op a b) handle) -> (forall x, builds (c x) handle) -> builds (comp_list op c l) handle.
Proof.
  intros Hop Hc. induction l as [|x [|y l] IH]; [apply b_fail | apply Hc|].
  change (comp_list op c (x :: y :: l)) with (let* rgt := comp_list op c (y :: l) in let* lft := c x in op lft rgt).
  eapply b_bind; [exact IH|]. intros rr. eapply b_bind; [apply Hc|]. intros ll. apply Hop.
Qed.
Lemma b_compile defs fuel : forall X, builds (compile defs fuel X) handle.
Proof.
  induction fuel as [|fuel IH]; intros X; [intros st a st' _ E; discriminate E|]. cbn [compile].
  destruct X as [l|l|l|p| | | |p|p|p|nc p|nc p|r|v|d ex|p].
  - apply b_comp_list; [apply b_choice | exact IH].
  - apply b_comp_list; [apply b_interleave | exact IH].
  - apply b_comp_list; [apply b_group | exact IH].
  - eapply b_bind; [apply IH|]. intros a. unfold mixed. eapply b_bind; [apply b_push|]. intros t. apply b_interleave.
  - apply b_push.
  - apply b_push.
  - apply b_push.
  - eapply b_bind; [apply IH|]. intros a. eapply b_bind; [apply b_push|]. intros e. apply b_choice.
  - eapply b_bind; [apply IH|]. intros a. eapply b_bind; [apply b_more|]. intros o. eapply b_bind; [apply b_push|]. intros e. apply b_choice.
  - eapply b_bind; [apply IH|]. intros a. apply b_more.
  - eapply b_bind; [apply IH|]. intros a. apply b_push.
  - eapply b_bind; [apply IH|]. intros a. apply b_push.
  - intros st a st' W E. unfold bind at 1, get_ref in E. destruct (lookup_nat r (refs st)) as [i|] eqn:Er.
    { injection E as <- <-. split; [exact W | split; [lia | exact (proj2 W _ _ Er)]]. }
    revert st a st' W E Er. cut (builds (let* ph := ref_placeholder r in match nth_error defs r with
        | Some X => let* id := compile defs fuel X in let* _ := resolve_ref ph id in ret ph | None => fail PMissingDefinition end) handle).
    { intros H st a st' W E _. exact (H _ _ _ W E). }
    apply b_bind_h.
    + unfold ref_placeholder. apply b_bind_h; [apply b_push|]. intros i st b st' W Hi E. injection E as <- <-. destruct W as (W0 & W2).
      split; [|cbn; split; [lia | exact Hi]]. split; [exact W0|]. cbn [pats refs]. intros q k. cbn [lookup_nat]. destruct (Nat.eq_dec r q); [intros E; injection E as <-; exact Hi | apply W2].
    + intros ph st b st' W Hph E. destruct (nth_error defs r) as [X|]; [|discriminate E].
      unfold bind in E. destruct (compile defs fuel X st) as [[id s1]| |] eqn:E1; try discriminate E. destruct (IH X _ _ _ W E1) as (W1 & L1 & _).
      destruct (resolve_ref ph id s1) as [[u s2]| |] eqn:E2; try discriminate E. destruct (b_resolve _ _ _ _ _ W1 E2) as (W2 & L2 & _).
      injection E as <- <-. split; [exact W2 | split; [lia | unfold handle; lia]].
  - apply b_push.
  - destruct ex as [e|]; [|apply b_push]. eapply b_bind; [apply IH|]. intros a; apply b_push.
  - eapply b_bind; [apply IH|]. intros a; apply b_push.
Qed.
Lemma new_validator_facts defs fuel start v : new_validator defs fuel (Some start) = Ok v ->
  live v /\ v_last v = false /\ sized (v_store v).
Proof.
  unfold new_validator. destruct (compile defs fuel start empty_store) as [[id st]| |] eqn:E; cbn; try discriminate. intros H; injection H as <-.
  assert (W : wfst empty_store) by (split; [split; [cbn; lia|]; split|]; intros ? ? H; discriminate H).
  destruct (b_compile defs fuel start _ _ _ W E) as ((W0 & _) & _ & Hid). split; [|split; [reflexivity|]].
  - unfold live; cbn. apply nth_error_Some. exact Hid.
  - exact W0.
Qed.

Section R.
Variables (O : oracles) (defs : list mpat) (start : mpat).
Lemma reachable_facts v : reachable O defs start v -> live v /\ v_last v = false /\ sized (v_store v).
Proof.
  induction 1 as [fuel v H|fuel v t v' e Hr (H1 & H2 & H3) Hv]; [exact (new_validator_facts _ _ _ _ H)|].
  split; [exact (validate_cur _ _ _ _ _ _ Hv)|]. split; [exact (validate_last _ _ _ _ _ _ Hv H2)|]. apply (validate_grows _ _ _ _ _ _ Hv); exact H3.
Qed.
End R.

Section R2.
Variables (O : oracles) (defs : list mpat) (start : mpat) (v : validator).
Hypothesis Hv : reachable O defs start v.
Lemma reachable_invisible fuel :
  (forall t, invisible_token t = true -> validate O fuel v t = Ok (v, None)) /\
  (forall toks, run O fuel v toks = run O fuel v (filter (fun t => negb (invisible_token t)) toks)).
Proof.
  destruct (reachable_facts _ _ _ _ Hv) as (H1 & _). split; [intros t Ht; apply validate_invisible; assumption | intros toks; apply run_invisible; exact H1].
Qed.
Lemma reachable_empty fuel p l :
  match run O fuel v [TElementEnd EndEmpty], run O fuel v [TElementEnd EndOpen; TElementEnd (EndClose p l)] with
  | Ok (v1, None), Ok (v2, None) => v1 = v2
  | Ok (_, Some _), Ok (_, Some _) => True
  | Panic x, Panic y => x = y
  | OutOfFuel, OutOfFuel => True
  | _, _ => False
  end.
Proof.
  destruct (reachable_facts _ _ _ _ Hv) as (_ & H2 & _). pose proof (empty_element O fuel v p l H2) as H. unfold agree_empty in H.
  destruct (run O fuel v [TElementEnd EndEmpty]) as [[v1 [e1|]]| |]; destruct (run O fuel v [TElementEnd EndOpen; TElementEnd (EndClose p l)]) as [[v2 [e2|]]| |]; auto.
Qed.
Lemma reachable_stable fuel t v' e i p : validate O fuel v t = Ok (v', e) -> nth_error (pats (v_store v)) i = Some p -> nth_error (pats (v_store v')) i = Some p.
Proof. intros H. apply grows_nth. exact (proj1 (validate_grows _ _ _ _ _ _ H)). Qed.
Lemma reachable_rejected fuel t v' e : validate O fuel v t = Ok (v', Some e) ->
  v_cur v' = v_cur v /\ nth_error (pats (v_store v')) (v_cur v') = nth_error (pats (v_store v)) (v_cur v).
Proof.
  intros H. pose proof (validate_error_cur _ _ _ _ _ _ H) as E. split; [exact E|]. rewrite E.
  destruct (nth_error (pats (v_store v)) (v_cur v)) as [p|] eqn:Ep; [exact (reachable_stable _ _ _ _ _ _ H Ep)|].
  destruct (reachable_facts _ _ _ _ Hv) as (H1 & _). contradiction.
Qed.
Lemma reachable_shared p i st : is_placeholder p = false -> push p (v_store v) = Ok (i, st) ->
  nth_error (pats st) i = Some p /\ (forall j st2 st3, grows st st2 -> push p st2 = Ok (j, st3) -> j = i /\ st3 = st2).
Proof.
  intros Hn E. destruct (reachable_facts _ _ _ _ Hv) as (_ & _ & HS). destruct (mono_push p _ _ _ E) as [_ HS']. specialize (HS' HS).
  assert (Hm : lookup_pat p (memo st) = Some i).
  { unfold push in E. destruct (max_patterns <? _)%N; [discriminate|]. destruct (lookup_pat p (memo (v_store v))) as [k|] eqn:Ek; injection E as <- <-; [exact Ek|].
    cbn. destruct (pat_eq_dec p p); congruence. }
  split; [destruct HS' as (_ & _ & H); exact (H _ _ Hm Hn)|].
  intros j st2 st3 (_ & HM & _) E2. unfold push in E2. destruct (max_patterns <? _)%N; [discriminate|]. rewrite (HM _ _ Hm) in E2. injection E2 as <- <-. auto.
Qed.
Lemma reachable_limit :
  (N.of_nat (length (pats (v_store v))) <= 65536)%N /\ (N.of_nat (v_cur v) < 65536)%N /\
  (forall p, (65536 <= N.of_nat (length (pats (v_store v))))%N -> push p (v_store v) = Panic PTooManyPatterns).
Proof.
  destruct (reachable_facts _ _ _ _ Hv) as (H1 & _ & (HS & _)). split; [exact HS|]. split.
  - unfold live in H1. apply nth_error_Some in H1. lia.
  - intros p Hp. unfold push. destruct (N.ltb_spec max_patterns (N.of_nat (length (pats (v_store v))))) as [_|H]; [reflexivity|]. unfold max_patterns in H. lia.
Qed.
End R2.
Lemma run_reachable O defs start fuel toks : forall v v' e, reachable O defs start v -> run O fuel v toks = Ok (v', e) -> reachable O defs start v'.
Proof.
  induction toks as [|t toks IH]; intros v v' e Hr E; cbn [run] in E; [injection E as <- _; exact Hr|].
  destruct (validate O fuel v t) as [[v1 [e1|]]| |] eqn:Ev; cbn [rbind] in E; try discriminate E.
  - injection E as <- _. eapply R_step; eassumption.
  - eapply IH; [eapply R_step; eassumption | exact E].
Qed.
