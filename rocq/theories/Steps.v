(** * Steps: facts about single tokens and about the pattern store, for arbitrary states. *)
From Verif Require Import Base Datatype Store Deriv Events Lang Wp Doc Compile.
Open Scope monad_scope.

(** ** The store only grows *)
Definition grows (st st' : store) : Prop :=
  (exists l, pats st' = pats st ++ l) /\
  (forall p i, lookup_pat p (memo st) = Some i -> lookup_pat p (memo st') = Some i) /\
  refs st' = refs st.
Lemma grows_refl st : grows st st.
Proof. split; [exists []; rewrite app_nil_r; reflexivity | auto]. Qed.
Lemma grows_trans a b c : grows a b -> grows b c -> grows a c.
Proof.
  intros ([l1 H1] & M1 & R1) ([l2 H2] & M2 & R2). split; [exists (l1 ++ l2); rewrite H2, H1, app_assoc; reflexivity|]. split; [auto | congruence].
Qed.
Lemma grows_nth a b i p : grows a b -> nth_error (pats a) i = Some p -> nth_error (pats b) i = Some p.
Proof. intros ([l E] & _) H. rewrite E. rewrite nth_error_app1; [exact H|]. apply nth_error_Some; congruence. Qed.

(** the store is within its limit: handles fit in 16 bits *)
Definition sized (st : store) : Prop :=
  (N.of_nat (length (pats st)) <= 65536)%N /\ (forall p i, lookup_pat p (memo st) = Some i -> i < length (pats st)) /\
  (* a memoised pattern is found under its handle (the cell of a reference holds its definition instead) *)
  (forall p i, lookup_pat p (memo st) = Some i -> is_placeholder p = false -> nth_error (pats st) i = Some p).

Definition mono {A} (f : M A) : Prop := forall st a st', f st = Ok (a, st') -> grows st st' /\ (sized st -> sized st').
Lemma mono_ret {A} (a : A) : mono (ret a).
Proof. intros st b st' E; injection E as _ <-; split; [apply grows_refl | auto]. Qed.
Lemma mono_bind {A B} (f : M A) (g : A -> M B) : mono f -> (forall a, mono (g a)) -> mono (bind f g).
Proof.
  intros Hf Hg st b st2 E. unfold bind in E. destruct (f st) as [[a st1]| |] eqn:Ef; try discriminate.
  destruct (Hf _ _ _ Ef) as [G1 S1]. destruct (Hg a _ _ _ E) as [G2 S2]. split; [eapply grows_trans; eassumption | auto].
Qed.
Lemma mono_fail {A} p : mono (@fail A p).
Proof. intros st a st' E; discriminate E. Qed.
Lemma mono_oof {A} : mono (@out_of_fuel A).
Proof. intros st a st' E; discriminate E. Qed.
Lemma mono_lift {A} (x : res A) : mono (lift x).
Proof. intros st a st' E; unfold lift in E; destruct x; try discriminate E. injection E as _ <-; split; [apply grows_refl | auto]. Qed.
Lemma mono_patt i : mono (patt i).
Proof. intros st p st' E; unfold patt in E. destruct (nth_error (pats st) i); [|discriminate E]. injection E as _ <-; split; [apply grows_refl | auto]. Qed.
Lemma mono_push p : mono (push p).
Proof.
  intros st i st' E; unfold push in E. destruct (max_patterns <? _)%N eqn:El; [discriminate|].
  destruct (lookup_pat p (memo st)) as [j|] eqn:Ej; injection E as <- <-; [split; [apply grows_refl | auto]|]. split.
  - split; [exists [p]; reflexivity|]. split; [|reflexivity]. intros q i Hq. cbn. destruct (pat_eq_dec p q) as [->|Hn]; [congruence | exact Hq].
  - intros (S1 & S2 & S3). apply N.ltb_ge in El. unfold max_patterns in El. split; [|split]; cbn [pats memo].
    + rewrite app_length; cbn [length]. lia.
    + intros q i Hq. cbn in Hq. rewrite app_length; cbn [length]. destruct (pat_eq_dec p q); [injection Hq as <-; lia|]. specialize (S2 _ _ Hq). lia.
    + intros q i Hq Hn. cbn in Hq. destruct (pat_eq_dec p q) as [->|Hp].
      * injection Hq as <-. rewrite nth_error_app2, Nat.sub_diag by lia. reflexivity.
      * rewrite nth_error_app1; [exact (S3 _ _ Hq Hn) | exact (S2 _ _ Hq)].
Qed.
Ltac mono_tac := repeat first
  [ apply mono_ret | apply mono_fail | apply mono_oof | apply mono_lift | apply mono_patt | apply mono_push | assumption
  | apply mono_bind; [|intros] | match goal with |- mono (if ?b then _ else _) => destruct b end
  | match goal with H : forall _, _ |- mono _ => apply H end ].
Lemma mono_na : mono not_allowed. Proof. apply mono_push. Qed.
Lemma mono_empty : mono empty. Proof. apply mono_push. Qed.
Lemma mono_text : mono text. Proof. apply mono_push. Qed.
Lemma mono_choice l r : mono (choice l r). Proof. unfold choice; mono_tac. Qed.
Lemma mono_interleave l r : mono (interleave l r). Proof. unfold interleave, not_allowed; mono_tac. Qed.
Lemma mono_group l r : mono (group l r). Proof. unfold group, not_allowed; mono_tac. Qed.
Lemma mono_after l r : mono (after l r). Proof. unfold after, not_allowed; mono_tac. Qed.
Lemma mono_more p : mono (one_or_more p). Proof. unfold one_or_more; mono_tac. Qed.
Lemma mono_list p : mono (list_ p). Proof. apply mono_push. Qed.
Ltac mono2 := repeat first
  [ apply mono_choice | apply mono_interleave | apply mono_group | apply mono_after | apply mono_more | apply mono_list
  | apply mono_na | apply mono_empty | apply mono_text
  | apply mono_ret | apply mono_fail | apply mono_oof | apply mono_lift | apply mono_patt | apply mono_push
  | match goal with IH : forall _, _ |- mono _ => apply IH end
  | apply mono_bind; [|intros] | match goal with |- mono (if ?b then _ else _) => destruct b end ].

Section D.
Variable O : oracles.
Lemma mono_list_loop (td : pat -> str -> M pid) : (forall p s, mono (td p s)) -> forall items p, mono (list_loop td p items).
Proof. intros H; induction items as [|x items IH]; intros p; cbn [list_loop]; mono2. Qed.
Lemma mono_text_deriv fuel : forall p s, mono (text_deriv O fuel p s).
Proof.
  induction fuel as [|fuel IH]; intros p s; cbn [text_deriv]; [apply mono_oof|].
  destruct p; repeat (first [ progress mono2 | apply mono_list_loop; exact IH
    | match goal with |- mono (match ?z with inl _ => _ | inr _ => _ end) => destruct z end ]).
Qed.
Lemma mono_apply_after fuel f : (forall q, mono (f q)) -> forall p, mono (apply_after fuel p f).
Proof. intros Hf; induction fuel as [|fuel IH]; intros p; cbn [apply_after]; [apply mono_oof|]. destruct p; mono2. Qed.
Lemma mono_open fuel : forall p nm, mono (start_tag_open_deriv fuel p nm).
Proof.
  induction fuel as [|fuel IH]; intros p nm; cbn [start_tag_open_deriv]; [apply mono_oof|].
  destruct p; repeat (mono2; try (apply mono_apply_after; intros q)).
Qed.
Lemma mono_value fuel p s : mono (value_match O fuel p s).
Proof. unfold value_match. pose proof (mono_text_deriv fuel) as H. mono2. Qed.
Lemma mono_att fuel : forall mm p x, mono (att_deriv O fuel mm p x).
Proof.
  induction fuel as [|fuel IH]; intros mm p x; cbn [att_deriv]; [apply mono_oof|].
  destruct (lookup_nat p mm); [apply mono_ret|]. apply mono_bind; [apply mono_patt|intros y].
  apply mono_bind; [|intros [v mm2]; apply mono_ret].
  pose proof (mono_value fuel) as HV.
  destruct y; repeat (first [ progress mono2 | match goal with |- mono (let '(_, _) := ?z in _) => destruct z end ]).
Qed.
Lemma mono_close fuel : forall p, mono (start_tag_close_deriv fuel p).
Proof. induction fuel as [|fuel IH]; intros p; cbn [start_tag_close_deriv]; [apply mono_oof|]. apply mono_bind; [apply mono_patt|intros y]. destruct y; mono2. Qed.
Lemma mono_end fuel : forall p, mono (end_tag_deriv fuel p).
Proof. induction fuel as [|fuel IH]; intros p; cbn [end_tag_deriv]; [apply mono_oof|]. destruct p; mono2. Qed.
Lemma mono_atts fuel : forall atts p, mono (atts_deriv O fuel p atts).
Proof.
  induction atts as [|x atts IH]; intros p; cbn [atts_deriv]; [apply mono_ret|].
  apply mono_bind; [apply mono_att|intros r]. mono2.
Qed.
Lemma mono_close_start fuel stk evt p : mono (close_element_start O fuel stk evt p).
Proof.
  unfold close_element_start. apply mono_bind; [apply mono_lift|]. intros [nm|e]; [|apply mono_ret].
  apply mono_bind; [apply mono_open|intros d]. apply mono_bind; [apply mono_patt|intros x]. destruct (is_not_allowed x); [apply mono_ret|].
  apply mono_bind; [apply mono_lift|]. intros [al|e]; [|apply mono_ret]. apply mono_bind; [apply mono_atts|]. intros [q|e]; [|apply mono_ret].
  apply mono_bind; [apply mono_patt|intros y]. destruct (is_not_allowed y); [apply mono_ret|].
  apply mono_bind; [apply mono_close|intros c]. mono2.
Qed.
Lemma mono_end_element fuel last p : mono (end_element O fuel last p).
Proof. unfold end_element. pose proof (mono_text_deriv fuel) as H. pose proof (mono_end fuel) as H2. mono2. Qed.
Lemma mono_step fuel v t : mono (validate_step O fuel v t).
Proof.
  unfold validate_step. apply mono_bind; [apply mono_patt|intros p].
  destruct t as [| | | | | |nm [dd|]|pp ll|pp ll vv|[|pp ll|]|s0 tx|tx]; try apply mono_ret.
  - apply mono_bind; [apply mono_close_start|]. intros [i|e]; apply mono_ret.
  - apply mono_bind; [apply mono_end_element|intros i; apply mono_ret].
  - apply mono_bind; [apply mono_close_start|]. intros [i|e]; [|apply mono_ret]. apply mono_bind; [apply mono_patt|intros q].
    apply mono_bind; [apply mono_end_element|intros i2; apply mono_ret].
  - destruct (text_data (v_ents v) s0 tx); [|apply mono_ret]. apply mono_bind; [apply mono_text_deriv|intros i].
    apply mono_bind; [apply mono_patt|intros x]. destruct (is_not_allowed x); apply mono_ret.
  - apply mono_bind; [apply mono_text_deriv|intros i; apply mono_ret].
Qed.

Lemma validate_grows fuel v t v' e : validate O fuel v t = Ok (v', e) ->
  grows (v_store v) (v_store v') /\ (sized (v_store v) -> sized (v_store v')).
Proof.
  unfold validate. destruct (validate_step O fuel v t (v_store v)) as [[r st]| |] eqn:Es; cbn; try discriminate.
  destruct (mono_step fuel v t _ _ _ Es) as [H HS].
  destruct (stack_effect v t) as [v1| |]; cbn; try discriminate.
  destruct r as [[c|]|er]; [|intros E; injection E as <- <-; auto|intros E; injection E as <- <-; auto].
  destruct (patt c st) as [[x st2]| |] eqn:Ep; cbn; try discriminate.
  unfold patt in Ep. destruct (nth_error (pats st) c); [|discriminate Ep]. injection Ep as _ <-.
  destruct (is_not_allowed x); intros E; injection E as <- <-; auto.
Qed.
Lemma stack_effect_cur v t v' : stack_effect v t = Ok v' -> v_cur v' = v_cur v /\ v_last v' = v_last v.
Proof.
  destruct t as [| | | | | |nm [dd|]|pp ll|pp ll vv|[|pp ll|]|s0 tx|tx]; cbn; intros E; try (injection E as <-; auto; fail).
  destruct (add_attr (v_stack v) pp ll vv) as [k| |]; cbn in E; try discriminate E. injection E as <-; auto.
Qed.
(** a rejected token leaves the expectation unchanged *)
Lemma validate_error_cur fuel v t v' e : validate O fuel v t = Ok (v', Some e) -> v_cur v' = v_cur v.
Proof.
  unfold validate. destruct (validate_step O fuel v t (v_store v)) as [[r st]| |]; cbn; try discriminate.
  destruct (stack_effect v t) as [v1| |] eqn:Ev; cbn; try discriminate. destruct (stack_effect_cur _ _ _ Ev) as [Hc _].
  destruct r as [[c|]|er]; [|intros E; discriminate E|intros E; injection E as <- _; exact Hc].
  destruct (patt c st) as [[x st2]| |]; cbn; try discriminate.
  destruct (is_not_allowed x); intros E; [injection E as <- _; exact Hc | discriminate E].
Qed.
(** the flag last_was_start_element is never set *)
Lemma validate_last fuel v t v' e : validate O fuel v t = Ok (v', e) -> v_last v = false -> v_last v' = false.
Proof.
  unfold validate. destruct (validate_step O fuel v t (v_store v)) as [[r st]| |] eqn:Es; cbn; try discriminate.
  destruct (stack_effect v t) as [v1| |] eqn:Ev; cbn; try discriminate. destruct (stack_effect_cur _ _ _ Ev) as [_ Hl].
  destruct r as [[c|]|er]; [|intros E Hv; injection E as <- _; cbn; congruence|intros E Hv; injection E as <- _; cbn; congruence].
  assert (Ht : match t with TElementStart _ _ => true | _ => false end = false).
  { destruct t; auto. exfalso. unfold validate_step, bind, patt in Es. destruct (nth_error (pats (v_store v)) (v_cur v)); discriminate Es. }
  rewrite Ht. destruct (patt c st) as [[x st2]| |]; cbn; try discriminate.
  destruct (is_not_allowed x); intros E Hv; injection E as <- _; reflexivity.
Qed.
(** after an accepted token the current pattern is a valid handle of a pattern other than notAllowed, if it was valid before *)
Lemma validate_cur fuel v t v' e : validate O fuel v t = Ok (v', e) -> nth_error (pats (v_store v')) (v_cur v') <> None.
Proof.
  intros H. pose proof (validate_grows _ _ _ _ _ H) as [HG _]. revert H.
  assert (Hv : validate_step O fuel v t (v_store v) <> Panic PIndex -> True) by auto. clear Hv.
  unfold validate. destruct (validate_step O fuel v t (v_store v)) as [[r st]| |] eqn:Es; cbn; try discriminate.
  assert (Hcur : exists p, nth_error (pats (v_store v)) (v_cur v) = Some p).
  { unfold validate_step, bind, patt in Es. destruct (nth_error (pats (v_store v)) (v_cur v)); [eauto | discriminate Es]. }
  destruct Hcur as [p Hp].
  destruct (stack_effect v t) as [v1| |] eqn:Ev; cbn; try discriminate. destruct (stack_effect_cur _ _ _ Ev) as [Hc _].
  assert (Hold : v_cur v' = v_cur v -> nth_error (pats (v_store v')) (v_cur v') <> None) by (intros ->; rewrite (grows_nth _ _ _ _ HG Hp); discriminate).
  destruct r as [[c|]|er]; [|intros E; injection E as <- _; cbn in *; auto|intros E; injection E as <- _; cbn in *; auto].
  unfold patt. destruct (nth_error (pats st) c) as [x|] eqn:Ex; cbn; try discriminate.
  destruct (is_not_allowed x); intros E; injection E as <- _; cbn in *; auto. rewrite Ex; discriminate.
Qed.

(** ** Invisible tokens *)
Definition invisible_token (t : token) : bool :=
  match t with
  | TDeclaration | TProcessingInstruction _ | TComment _ | TDtdStart _ | TEmptyDtd _ | TDtdEnd => true
  | _ => false
  end.
Definition live (v : validator) : Prop := nth_error (pats (v_store v)) (v_cur v) <> None.
Lemma validate_invisible fuel v t : invisible_token t = true -> live v -> validate O fuel v t = Ok (v, None).
Proof.
  intros Ht Hl. unfold validate, validate_step, bind, patt. unfold live in Hl.
  destruct (nth_error (pats (v_store v)) (v_cur v)) eqn:E; [|contradiction].
  destruct t as [| | | | | |nm [dd|]|pp ll|pp ll vv|[|pp ll|]|s0 tx|tx]; try discriminate Ht; destruct v; reflexivity.
Qed.
Lemma run_invisible fuel toks : forall v, live v ->
  run O fuel v toks = run O fuel v (filter (fun t => negb (invisible_token t)) toks).
Proof.
  induction toks as [|t toks IH]; intros v Hl; [reflexivity|]. cbn [filter]. destruct (invisible_token t) eqn:Et; cbn [negb].
  - cbn [run]. rewrite (validate_invisible fuel v t Et Hl). cbn [rbind]. apply IH; exact Hl.
  - cbn [run]. destruct (validate O fuel v t) as [[v' [e|]]| |] eqn:Ev; cbn [rbind]; try reflexivity.
    apply IH. unfold live. eapply validate_cur; exact Ev.
Qed.

(** ** Empty-element tags *)
Lemma close_start_evt fuel stk e1 e2 p st : match close_element_start O fuel stk e1 p st, close_element_start O fuel stk e2 p st with
  | Ok (inl c, s), Ok (inl c', s') => c = c' /\ s = s' /\ exists x, nth_error (pats s) c = Some x /\ is_not_allowed x = false
  | Ok (inr _, s), Ok (inr _, s') => s = s'
  | Panic a, Panic b => a = b
  | OutOfFuel, OutOfFuel => True
  | _, _ => False end.
Proof.
  unfold close_element_start, bind, lift, patt, ret.
  destruct (current_element stk) as [[nm|e]| |]; auto.
  destruct (start_tag_open_deriv fuel p nm st) as [[d s1]| |]; auto.
  destruct (nth_error (pats s1) d) as [x|]; auto. destruct (is_not_allowed x); auto.
  destruct (current_attributes stk) as [[al|e]| |]; auto.
  destruct (atts_deriv O fuel d al s1) as [[[q|e] s2]| |]; auto.
  destruct (nth_error (pats s2) q) as [y|]; auto. destruct (is_not_allowed y); auto.
  destruct (start_tag_close_deriv fuel q s2) as [[c s3]| |]; auto.
  destruct (nth_error (pats s3) c) as [z|] eqn:Ez; auto. destruct (is_not_allowed z) eqn:En; eauto.
Qed.

(** Both spellings of an empty element: same panic, both rejected, or both accepted in the same state. *)
Definition agree_empty (a b : res (validator * option verror)) : Prop :=
  match a, b with
  | Ok (v1, None), Ok (v2, None) => v1 = v2
  | Ok (v1, Some _), Ok (v2, Some _) => v_stack v1 = v_stack v2
  | Panic x, Panic y => x = y
  | OutOfFuel, OutOfFuel => True
  | _, _ => False
  end.
Lemma empty_element fuel v p l : v_last v = false ->
  agree_empty (run O fuel v [TElementEnd EndEmpty]) (run O fuel v [TElementEnd EndOpen; TElementEnd (EndClose p l)]).
Proof.
  intros Hl. cbn [run]. unfold validate, validate_step, patt.
  unfold bind at 1 5.
  destruct (nth_error (pats (v_store v)) (v_cur v)) as [x|]; cbn [rbind]; [|reflexivity].
  unfold bind.
  pose proof (close_start_evt fuel (v_stack v) (TElementEnd EndEmpty) (TElementEnd EndOpen) x (v_store v)) as H.
  destruct (close_element_start O fuel (v_stack v) (TElementEnd EndEmpty) x (v_store v)) as [[[c|e] s]| |];
    destruct (close_element_start O fuel (v_stack v) (TElementEnd EndOpen) x (v_store v)) as [[[c'|e'] s']| |]; try contradiction; cbn [rbind].
  - destruct H as (<- & <- & z & Hz & Hn). unfold patt. rewrite Hz, Hl. cbn [rbind ret stack_effect is_not_allowed v_cur].
    rewrite Hz. cbn [rbind]. rewrite Hn. cbn [rbind run]. unfold validate, validate_step, bind, patt. cbn [v_store v_cur v_last v_stack v_ents]. rewrite Hz. cbn [rbind].
    destruct (end_element O fuel false z s) as [[i s2]| |]; cbn [rbind ret stack_effect v_store v_cur v_last v_stack v_ents]; auto; [|cbn; auto ..].
    destruct (nth_error (pats s2) i) as [y|]; cbn [rbind]; [|cbn; auto]. destruct (is_not_allowed y); cbn; reflexivity.
  - subst s'. cbn. reflexivity.
  - cbn. exact H.
  - cbn. exact I.
Qed.
End D.
