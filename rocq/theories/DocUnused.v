(** * DocUnused: declarations of namespace prefixes a document does not use (C96). *)
From Coq Require Import String.
From Verif Require Import Base Datatype Store Deriv Events Lang Doc Compile Main Diag FuelMono Examples ViewExamples DocPrefix.
Open Scope monad_scope.

Section Unused.
(** ** Specification: xmlns:p="..." declares p, xmlns="..." the empty prefix; an element or an attribute uses its prefix *)
Variable p : str.
Definition declares (t : token) : bool :=
  match t with
  | TAttribute q l _ => str_eqb q xmlns && str_eqb l p || str_eqb p [] && (str_eqb q [] && str_eqb l xmlns)
  | _ => false
  end.
Definition without (toks : list token) : list token := filter (fun t => negb (declares t)) toks.
Definition uses (t : token) : Prop :=
  match t with
  | TElementStart q _ => q = p
  | TAttribute q _ _ => q = p /\ q <> xmlns
  | _ => False
  end.
(** attributes stand in start tags *)
Fixpoint in_tags (open : bool) (toks : list token) : Prop :=
  match toks with
  | [] => True
  | TElementStart _ _ :: toks => in_tags true toks
  | TAttribute _ _ _ :: toks => open = true /\ in_tags true toks
  | _ :: toks => in_tags false toks
  end.

(** ** Proof *)
Definition fine (q : str) : Prop := q = [] \/ q <> p.
Definition fine_token (t : token) : Prop :=
  match t with TElementStart q _ => fine q | TAttribute q _ _ => q = xmlns \/ fine q | _ => True end.
Definition del (l : list (str * str)) : list (str * str) := filter (fun kv => negb (str_eqb (fst kv) p)) l.
Definition dstack (s : elstack) : elstack := map (fun e => ElState (e_prefix e) (e_local e) (del (e_ns e)) (e_atts e)) s.
Definition dval (v : validator) : validator := Validator (v_store v) (v_cur v) (v_last v) (dstack (v_stack v)) (v_ents v).
Definition tidy_stack (s : elstack) : Prop := Forall (fun e => fine (e_prefix e) /\ Forall (fun a => fine (fst (fst a))) (e_atts e)) s.
Lemma lookup_del q l : q <> p -> lookup_str q (del l) = lookup_str q l.
Proof.
  intros H. induction l as [|[k v] l IH]; [reflexivity|]. unfold del in *. cbn [filter fst lookup_str]. destruct (str_eqb k p) eqn:E; cbn [negb lookup_str]; [|rewrite IH; reflexivity].
  apply str_eqb_eq in E. subst k. assert (K : str_eqb p q = false) by (apply str_eqb_neq; congruence). rewrite K. exact IH.
Qed.
Lemma lookup_ns_del q s : q <> p -> lookup_ns (dstack s) q = lookup_ns s q.
Proof. intros H. induction s as [|e s IH]; [reflexivity|]. unfold dstack in *. cbn [map lookup_ns e_ns]. rewrite lookup_del, IH by exact H. reflexivity. Qed.
Lemma try_del q s : fine q -> try_lookup_ns (dstack s) q = try_lookup_ns s q.
Proof. intros [->|H]; [reflexivity|]. unfold try_lookup_ns. rewrite lookup_ns_del by exact H. reflexivity. Qed.
Lemma current_del s : tidy_stack s -> current_element (dstack s) = current_element s.
Proof. intros H. destruct s as [|e s]; [reflexivity|]. inversion H as [|? ? [H1 _] _]; subst. unfold current_element. cbn [dstack map]. change (_ :: map _ s) with (dstack (e :: s)). cbn [e_prefix e_local]. rewrite try_del by exact H1. reflexivity. Qed.
Lemma resolve_del s l : Forall (fun a => fine (fst (fst a))) l -> resolve_attrs (dstack s) l = resolve_attrs s l.
Proof. induction 1 as [|[[q n] v] l H _ IH]; [reflexivity|]. cbn [resolve_attrs]. cbn in H. rewrite IH. destruct q as [|c q]; [reflexivity|]. rewrite (try_del _ _ H). reflexivity. Qed.
Lemma attributes_del s : tidy_stack s -> current_attributes (dstack s) = current_attributes s.
Proof. intros H. destruct s as [|e s]; [reflexivity|]. inversion H as [|? ? [_ H1] _]; subst. exact (f_equal Ok (resolve_del (e :: s) (e_atts e) H1)). Qed.
Lemma del_app l l' : del (l ++ l') = del l ++ del l'. Proof. apply filter_app. Qed.
Lemma add_del s q l v : declares (TAttribute q l v) = false -> add_attr (dstack s) q l v = rmap dstack (add_attr s q l v).
Proof.
  intros H. destruct s as [|e s]; [reflexivity|]. cbn in H. apply Bool.orb_false_iff in H. destruct H as [H1 H2]. cbn [dstack map add_attr rmap e_prefix e_local e_ns e_atts].
  destruct (str_eqb q xmlns); [|destruct (str_eqb q [] && str_eqb l xmlns) eqn:E]; cbn [dstack map e_prefix e_local e_ns e_atts]; try reflexivity; rewrite del_app; unfold del at 2 4; cbn [filter fst].
  - cbn in H1. rewrite H1. reflexivity.
  - apply Bool.andb_true_iff in E. destruct E as [E _]. apply str_eqb_eq in E. subst q. rewrite Bool.andb_true_r in H2.
    assert (K : str_eqb [] p = false) by (apply str_eqb_neq; intros <-; discriminate H2). rewrite K. reflexivity.
Qed.
Lemma add_gone s q l v : declares (TAttribute q l v) = true -> s <> [] -> exists s', add_attr s q l v = Ok s' /\ dstack s' = dstack s /\ (tidy_stack s -> tidy_stack s').
Proof.
  intros H Hs. destruct s as [|e s]; [congruence|]. cbn in H. cbn [add_attr]. eexists. split; [reflexivity|].
  assert (K : (str_eqb q xmlns = true /\ str_eqb l p = true) \/ (str_eqb q xmlns = false /\ q = [] /\ p = [] /\ str_eqb l xmlns = true)).
  { destruct (str_eqb q xmlns) eqn:E; destruct (str_eqb l p); cbn in H; auto; apply Bool.andb_true_iff in H; destruct H as [Hp H]; apply Bool.andb_true_iff in H; destruct H as [Hq H];
      apply str_eqb_eq in Hp, Hq; subst; try discriminate E; auto. }
  destruct K as [[-> K]|(-> & -> & -> & K)].
  - split; [|intros T; inversion T as [|? ? T1 T2]; subst; constructor; [exact T1 | exact T2]].
    cbn [dstack map e_prefix e_local e_ns e_atts]. rewrite del_app. unfold del at 2. cbn [filter fst]. rewrite K. cbn [negb]. rewrite app_nil_r. reflexivity.
  - rewrite K. change (str_eqb [] [] && true) with true. split; [|intros T; inversion T as [|? ? T1 T2]; subst; constructor; [exact T1 | exact T2]].
    cbn [dstack map e_prefix e_local e_ns e_atts]. rewrite del_app. unfold del at 2. cbn [filter fst]. assert (K2 : str_eqb [] p = true) by (apply str_eqb_eq; congruence). rewrite K2. cbn [negb]. rewrite app_nil_r. reflexivity.
Qed.
Lemma add_tidy s q l v s' : fine_token (TAttribute q l v) -> tidy_stack s -> add_attr s q l v = Ok s' -> tidy_stack s'.
Proof.
  intros F T. destruct s as [|e s]; [discriminate|]. inversion T as [|? ? [T1 T2] T3]; subst. cbn [add_attr]. intros [= <-]. constructor; [|exact T3].
  cbn in F. destruct (str_eqb q xmlns) eqn:E; [split; assumption|]. destruct (str_eqb q [] && str_eqb l xmlns); [split; assumption|]. cbn [e_prefix e_atts]. split; [exact T1|].
  apply Forall_app. split; [exact T2|]. constructor; [|constructor]. cbn. destruct F as [F|F]; [|exact F]. apply str_eqb_neq in E. congruence.
Qed.
Lemma effect_tidy v t v' : fine_token t -> tidy_stack (v_stack v) -> stack_effect v t = Ok v' -> tidy_stack (v_stack v').
Proof.
  intros F T. destruct t as [ |target|text|name|name| |name [def| ]|p0 l0|p0 l0 v0|[ |p0 l0| ]|start text|text]; cbn [stack_effect]; try (intros [= <-]; exact T).
  - intros [= <-]. constructor; [split; [exact F | constructor] | exact T].
  - destruct (add_attr (v_stack v) p0 l0 v0) as [s'|q|] eqn:E; cbn [rbind]; try discriminate. intros [= <-]. exact (add_tidy _ _ _ _ _ F T E).
Qed.
Section Steps.
Variable O : oracles.
Lemma close_del fuel s t q st : tidy_stack s -> close_element_start O fuel (dstack s) t q st = close_element_start O fuel s t q st.
Proof. intros T. unfold close_element_start. rewrite current_del, attributes_del by exact T. reflexivity. Qed.
Lemma step_del fuel v t st : tidy_stack (v_stack v) -> validate_step O fuel (dval v) t st = validate_step O fuel v t st.
Proof.
  intros T. unfold validate_step, bind. cbn [dval v_cur v_stack v_ents v_last]. destruct (patt (v_cur v) st) as [[q st1]|x|]; try reflexivity.
  destruct t as [ |target|text|name|name| |name [def| ]|p0 l0|p0 l0 v0|[ |p0 l0| ]|start text|text]; try reflexivity; rewrite close_del by exact T; reflexivity.
Qed.
Lemma effect_del v t : declares t = false -> stack_effect (dval v) t = rmap dval (stack_effect v t).
Proof.
  intros H. destruct t as [ |target|text|name|name| |name [def| ]|p0 l0|p0 l0 v0|[ |p0 l0| ]|start text|text]; try reflexivity.
  cbn [stack_effect dval v_store v_cur v_last v_stack v_ents]. rewrite add_del by exact H. destruct (add_attr (v_stack v) p0 l0 v0); reflexivity.
Qed.
Notation R := (rmap (fun x : validator * option verror => (dval (fst x), snd x))).
Lemma validate_del fuel v t : tidy_stack (v_stack v) -> declares t = false -> validate O fuel (dval v) t = R (validate O fuel v t).
Proof.
  intros T H. unfold validate. rewrite step_del by exact T. cbn [dval v_store]. destruct (validate_step O fuel v t (v_store v)) as [[r st]|q|]; cbn [rbind]; try reflexivity.
  rewrite effect_del by exact H. destruct (stack_effect v t) as [v'|q|]; cbn [rbind rmap]; try reflexivity. destruct r as [[new|]|e]; try reflexivity.
  destruct (patt new st) as [[x st1]|q|]; cbn [rbind]; try reflexivity. destruct (is_not_allowed x); reflexivity.
Qed.
Lemma validate_tidy fuel v t v' e : fine_token t -> tidy_stack (v_stack v) -> validate O fuel v t = Ok (v', e) -> tidy_stack (v_stack v').
Proof.
  intros F T. unfold validate. destruct (validate_step O fuel v t (v_store v)) as [[r st]|q|]; cbn [rbind]; try discriminate.
  destruct (stack_effect v t) as [w|q|] eqn:E; cbn [rbind]; try discriminate. apply (effect_tidy _ _ _ F T) in E. destruct r as [[new|]|e0]; try (intros [= <- _]; exact E).
  destruct (patt new st) as [[x st1]|q|]; cbn [rbind]; try discriminate. destruct (is_not_allowed x); intros [= <- _]; exact E.
Qed.
Definition live (v : validator) : Prop := v_stack v <> [] /\ exists q, patt (v_cur v) (v_store v) = Ok (q, v_store v).
Lemma patt_same i st q st' : patt i st = Ok (q, st') -> st' = st.
Proof. unfold patt. destruct (nth_error (pats st) i); [intros [= _ <-]; reflexivity | discriminate]. Qed.
Lemma add_nonempty s q l v s' : add_attr s q l v = Ok s' -> s' <> [].
Proof. destruct s as [|e s]; [discriminate|]. cbn. intros [= <-] K. discriminate K. Qed.
Lemma opens fuel v q l v' : validate O fuel v (TElementStart q l) = Ok (v', None) -> live v'.
Proof.
  unfold validate, validate_step, bind. destruct (patt (v_cur v) (v_store v)) as [[x st]|y|] eqn:E; try discriminate. cbn. intros [= <-]. pose proof (patt_same _ _ _ _ E) as ->.
  split; [discriminate | exists x; exact E].
Qed.
Lemma stays fuel v q l a v' : validate O fuel v (TAttribute q l a) = Ok (v', None) -> live v'.
Proof.
  unfold validate, validate_step, bind. destruct (patt (v_cur v) (v_store v)) as [[x st]|y|] eqn:E; try discriminate. cbn [rbind ret stack_effect].
  destruct (add_attr (v_stack v) q l a) as [s'|y|] eqn:A; cbn [rbind]; try discriminate. cbn. intros [= <-]. pose proof (patt_same _ _ _ _ E) as ->.
  split; [exact (add_nonempty _ _ _ _ _ A) | exists x; exact E].
Qed.
Lemma skipped fuel v q l a : live v -> declares (TAttribute q l a) = true ->
  exists v', validate O fuel v (TAttribute q l a) = Ok (v', None) /\ dval v' = dval v /\ (tidy_stack (v_stack v) -> tidy_stack (v_stack v')).
Proof.
  intros [Hs [x E]] H. destruct (add_gone _ _ _ a H Hs) as (s' & A & D & T). unfold validate, validate_step, bind. rewrite E. cbn [rbind ret stack_effect]. rewrite A. cbn [rbind].
  eexists. split; [reflexivity|]. cbn [v_stack]. split; [|exact T]. unfold dval. cbn [v_store v_cur v_last v_stack v_ents]. rewrite D. reflexivity.
Qed.
Lemma run_del fuel : forall toks open v, tidy_stack (v_stack v) -> Forall fine_token toks -> in_tags open toks -> (open = true -> live v) ->
  run O fuel (dval v) (without toks) = R (run O fuel v toks).
Proof.
  induction toks as [|t toks IH]; intros open v T F I L; [reflexivity|]. inversion F as [|? ? F1 F2]; subst. unfold without in *. cbn [filter]. destruct (declares t) eqn:E; cbn [negb].
  - destruct t as [ |target|text|name|name| |name [def| ]|p0 l0|p0 l0 v0|[ |p0 l0| ]|start text|text]; try discriminate E. cbn in I. destruct I as [-> I].
    destruct (skipped fuel v p0 l0 v0 (L eq_refl) E) as (v' & V & D & T'). cbn [run]. rewrite V. cbn [rbind]. rewrite <- D. apply (IH true); auto. intros _. exact (stays _ _ _ _ _ _ V).
  - cbn [run]. rewrite validate_del by assumption. destruct (validate O fuel v t) as [[v' [e|]]|x|] eqn:V; cbn [rbind rmap fst snd]; try reflexivity.
    pose proof (validate_tidy _ _ _ _ _ F1 T V) as T'.
    destruct t as [ |target|text|name|name| |name [def| ]|p0 l0|p0 l0 v0|[ |p0 l0| ]|start text|text]; cbn [in_tags] in I; try (apply (IH false); auto; discriminate).
    + apply (IH true); auto. intros _. exact (opens _ _ _ _ _ V).
    + destruct I as [_ I]. apply (IH true); auto. intros _. exact (stays _ _ _ _ _ _ V).
Qed.
End Steps.
End Unused.
Lemma fine_all p toks : p = [] \/ Forall (fun t => ~ uses p t) toks -> Forall (fine_token p) toks.
Proof.
  assert (N : forall q, p = [] -> fine p q) by (intros [|c q] ->; [left; reflexivity | right; discriminate]).
  intros [H|H]; apply Forall_forall; intros t Ht.
  - destruct t; cbn; auto.
  - rewrite Forall_forall in H. specialize (H t Ht). destruct t as [ |target|text|name|name| |name [def| ]|p0 l0|p0 l0 v0|e|start text|text]; cbn in *; auto; [right; exact H|].
    destruct (str_eqb p0 xmlns) eqn:E; [apply str_eqb_eq in E; left; exact E|]. apply str_eqb_neq in E. right. right. intros K. apply H. split; assumption.
Qed.
Lemma check_del p O defs start toks fuel : (p = [] \/ Forall (fun t => ~ uses p t) toks) -> in_tags false toks ->
  check O defs start (without p toks) fuel = rmap (fun x => (dval p (fst x), snd x)) (check O defs start toks fuel).
Proof.
  intros H I. unfold check. destruct (new_validator defs fuel (Some start)) as [v|x|] eqn:E; [|reflexivity..]. cbn [rbind].
  assert (K : v_stack v = []). { unfold new_validator in E. destruct (compile defs fuel start empty_store) as [[id st]|y|]; cbn in E; try discriminate E. injection E as <-. reflexivity. }
  rewrite <- (run_del p O fuel toks false v); [|rewrite K; constructor | apply fine_all, H | exact I | discriminate].
  f_equal. destruct v as [a b c d e]. cbn in K. subst d. reflexivity.
Qed.
Lemma unused p O defs start toks : (p = [] \/ Forall (fun t => ~ uses p t) toks) -> in_tags false toks -> same_verdict O defs start toks (without p toks).
Proof.
  intros H I. apply (same_mapped O defs start toks _ (dval p) (fun e => e)). intros fuel. rewrite check_del by assumption.
  destruct (check O defs start toks fuel) as [[v [e|]]|x|]; reflexivity.
Qed.
Lemma unused_error p O defs start toks fuel v e : (p = [] \/ Forall (fun t => ~ uses p t) toks) -> in_tags false toks ->
  check O defs start toks fuel = Ok (v, e) -> exists v', check O defs start (without p toks) fuel = Ok (v', e).
Proof. intros H I E. rewrite check_del, E by assumption. eexists. reflexivity. Qed.
(** ** Documents *)
Lemma tags_atts a rest : in_tags true rest -> in_tags true (map att_token a ++ rest).
Proof. intros H. induction a as [|[[q l] v] a IH]; [exact H|]. split; [reflexivity | exact IH]. Qed.
Lemma tags_node x : forall o rest, in_tags false rest -> in_tags o (tokens_of x ++ rest).
Proof.
  induction x as [st r|s|s|s|q l a sc kids IH] using xnode_ind'; intros o rest H; try exact H.
  cbn [tokens_of app in_tags]. rewrite <- app_assoc. apply tags_atts. destruct (sc && is_nil kids); [exact H|]. cbn [app in_tags]. rewrite <- app_assoc. cbn [app].
  assert (H2 : in_tags false (TElementEnd (EndClose q l) :: rest)) by exact H. revert H2. generalize (TElementEnd (EndClose q l) :: rest). clear H. intros tl H.
  induction IH as [|x xs Hx _ IHx]; [exact H|]. cbn [flat_map]. rewrite <- app_assoc. apply Hx, IHx.
Qed.
Lemma tags_misc l rest : Forall misc_token l -> in_tags false rest -> in_tags false (l ++ rest).
Proof. intros H K. induction H as [|t l Ht _ IH]; [exact K|]. destruct t; try contradiction Ht; exact IH. Qed.
Lemma tags_doc d : doc_wf d -> in_tags false (doc_tokens d).
Proof. intros (H1 & H2 & _). apply tags_misc; [exact H1|]. apply tags_node. rewrite <- (app_nil_r (d_epilog d)). apply tags_misc; [exact H2 | exact I]. Qed.
Lemma unused_doc p O defs start d : doc_wf d -> p = [] \/ Forall (fun t => ~ uses p t) (doc_tokens d) -> same_verdict O defs start (doc_tokens d) (without p (doc_tokens d)).
Proof. intros W H. apply unused; [exact H | exact (tags_doc d W)]. Qed.

(** <r xmlns="d" xmlns:p="u" x="1" p:y="2" xmlns:z="w"><p:a xmlns:p="v" xmlns:z="x"/><p:a/></r> *)
Definition spare_doc : xdoc := XDoc [] (XElem [] (L "r") [([], L "xmlns", L "d"); (L "xmlns", L "p", L "u"); ([], L "x", L "1"); (L "p", L "y", L "2"); (L "xmlns", L "z", L "w")] false
  [XElem (L "p") (L "a") [(L "xmlns", L "p", L "v"); (L "xmlns", L "z", L "x")] true []; XElem (L "p") (L "a") [] true []]) [].
