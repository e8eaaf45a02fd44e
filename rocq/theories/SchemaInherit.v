(** * SchemaInherit: what [inherit = p] of an include does (C46). *)
From Coq Require Import String.
From Verif Require Import Base Datatype Facets Store Lang Compile Syntax SchemaCompile SourceSpec SourceScope SourceCompile SchemaMain SchemaSpec SchemaVisit SchemaTerm Spec.

(** ** Specification *)
(** the patterns, contents and files with [inherit] of every include taken away *)
Fixpoint ui_p (p : spat) : spat :=
  match p with
  | SElement n q => SElement n (ui_p q)
  | SAttribute n q => SAttribute n (ui_p q)
  | SList q => SList (ui_p q)
  | SMixed q => SMixed (ui_p q)
  | SGrammar l => SGrammar (map ui_g l)
  | SGroup q => SGroup (ui_p q)
  | SListPair a b => SListPair (ui_p a) (ui_p b)
  | SInterleavePair a b => SInterleavePair (ui_p a) (ui_p b)
  | SChoicePair a b => SChoicePair (ui_p a) (ui_p b)
  | SOptional q => SOptional (ui_p q)
  | SZeroOrMore q => SZeroOrMore (ui_p q)
  | SOneOrMore q => SOneOrMore (ui_p q)
  | SData n ps (Some e) => SData n ps (Some (ui_p e))
  | _ => p
  end
with ui_g (g : gcontent) : gcontent :=
  match g with
  | GDefine n h p => GDefine n h (ui_p p)
  | GDiv l => GDiv (map ui_g l)
  | GInclude h _ (Some ov) => GInclude h None (Some (map ui_i ov))
  | GInclude h _ None => GInclude h None None
  | GAnnotation a => GAnnotation a
  end
with ui_i (i : icontent) : icontent :=
  match i with
  | IDefine n h p => IDefine n h (ui_p p)
  | IDiv l => IDiv (map ui_i l)
  | IAnnotation a => IAnnotation a
  end.
Definition uninherit (s : schema) : schema :=
  Schema (s_decls s) (match s_top s with TPattern p => TPattern (ui_p p) | TGrammar l => TGrammar (map ui_g l) end).
Definition uninherited (fs : filesys) : filesys := fun f => match fs f with inl s => inl (uninherit s) | inr e => inr e end.
(** every prefix means the same wherever it is declared *)
Definition one_meaning (fs : filesys) (meaning : str -> str) : Prop :=
  meaning (lit "xml") = lit "http://www.w3.org/XML/1998/namespace" /\
  forall f s, fs f = inl s -> forall p u, In (DNamespace p (UUri u)) (s_decls s) \/ In (DDefault (Some p) (UUri u)) (s_decls s) ->
  lit_value u = meaning p.
(** an undeclared prefix is reported, in the file or one it leads to *)
Inductive prefix_error : rerror -> Prop :=
| pe_here p : prefix_error (EUndefinedNamespacePrefix p)
| pe_include e : prefix_error e -> prefix_error (EInclude e).

(** ** Proof *)
Section Inherit.
Variable O : oracles.
Variable C : coracles.
Variable fs : filesys.
Variable meaning : str -> str.
Hypothesis Hm : one_meaning fs meaning.
Notation fs' := (uninherited fs).

Definition sim {A B} (R : A -> B -> Prop) (m : CM A) (m' : CM B) : Prop := forall st b st1, m' st = fok (b, st1) ->
  (exists a, m st = fok (a, st1) /\ R a b) \/ (exists e, m st = ferr e /\ prefix_error e).
Lemma sim_ret {A B} (R : A -> B -> Prop) a b : R a b -> sim R (cret a) (cret b).
Proof. intros H st b' st1 E. injection E as <- <-. left. exists a. auto. Qed.
Lemma sim_refl {A} (m : CM A) : sim eq m m.
Proof. intros st b st1 E. left. exists b. auto. Qed.
Lemma sim_eq {A} (m m' : CM A) : m = m' -> sim eq m m'.
Proof. intros ->. apply sim_refl. Qed.
Lemma sim_bad {A B} (R : A -> B -> Prop) m (m' : CM B) : (forall st b st1, m' st = fok (b, st1) -> False) -> sim R m m'.
Proof. intros H st b st1 E. destruct (H _ _ _ E). Qed.
Lemma sim_bind {A B A' B'} (R : A -> B -> Prop) (Q : A' -> B' -> Prop) m m' f f' :
  sim R m m' -> (forall a b, R a b -> sim Q (f a) (f' b)) -> sim Q (cbind m f) (cbind m' f').
Proof.
  intros H K st b st1 E. unfold cbind in *. destruct (m' st) as [[[b0 st0]|e]|p|] eqn:E0; cbn in E; try discriminate E.
  destruct (H st b0 st0 E0) as [(a0 & -> & HR)|(e & -> & He)]; cbn; [exact (K _ _ HR _ _ _ E) | right; exists e; auto].
Qed.
Lemma sim_map {A B} (R : A -> B -> Prop) m m' : sim R m m' -> sim R (cmap_err EInclude m) (cmap_err EInclude m').
Proof.
  intros H st b st1 E. unfold cmap_err in *. destruct (m' st) as [[[b0 st0]|e]|p|] eqn:E0; cbn in E; try discriminate E. injection E as <- <-.
  destruct (H st b0 st0 E0) as [(a0 & -> & HR)|(e & -> & He)]; cbn; [left; exists a0; auto | right; exists (EInclude e); split; [reflexivity | apply pe_include; exact He]].
Qed.
Lemma sim_iter {A} (f f' : A -> CM unit) t l : Forall (fun x => sim eq (f x) (f' (t x))) l -> sim eq (citer f l) (citer f' (map t l)).
Proof. induction 1 as [|x l Hx _ IH]; cbn [citer map]; [apply sim_refl|]. eapply sim_bind; [exact Hx | intros _ _ _; exact IH]. Qed.

Definition nsle (ns ns' : list (str * str)) : Prop :=
  (forall p u, assoc p ns' = Some u -> assoc p ns = Some u) /\ (forall p u, assoc p ns = Some u -> u = meaning p).
Inductive cle : ctx -> ctx -> Prop :=
| cl_root f t ns ns' d : nsle ns ns' -> cle (XRoot f t ns d) (XRoot f t ns' d)
| cl_include c c' f o ns ns' d : cle c c' -> nsle ns ns' -> cle (XInclude c f o ns d) (XInclude c' f o ns' d)
| cl_over c c' : cle c c' -> cle (XOverrides c) (XOverrides c')
| cl_grammar c c' t : cle c c' -> cle (XGrammar c t) (XGrammar c' t)
| cl_define c c' i : cle c c' -> cle (XDefine c i) (XDefine c' i)
| cl_element c c' : cle c c' -> cle (XElement c) (XElement c')
| cl_attribute c c' : cle c c' -> cle (XAttribute c) (XAttribute c').
Lemma str_eqb_spec a b : reflect (a = b) (str_eqb a b).
Proof. destruct (str_eqb a b) eqn:E; constructor; [apply str_eqb_eq; exact E|]. intros H. apply str_eqb_eq in H. congruence. Qed.
Lemma nsle_initial : nsle initial_ns initial_ns.
Proof.
  split; [auto|]. intros p u. unfold initial_ns. cbn [assoc]. destruct (str_eqb_spec (lit "xml") p) as [<-|]; [|discriminate].
  intros E. injection E as <-. symmetry. apply Hm.
Qed.
Lemma assoc_snoc (p q : str) (u : str) l : assoc p (l ++ [(q, u)]) = match assoc p l with Some v => Some v | None => if str_eqb q p then Some u else None end.
Proof. induction l as [|[k v] l IH]; cbn [app assoc]; [destruct (str_eqb q p); reflexivity|]. destruct (str_eqb k p); [reflexivity | exact IH]. Qed.
Lemma nsle_add ns ns' p u : nsle ns ns' -> u = meaning p ->
  nsle (match assoc p ns with Some _ => ns | None => ns ++ [(p, u)] end) (match assoc p ns' with Some _ => ns' | None => ns' ++ [(p, u)] end).
Proof.
  intros [H1 H2] ->. split.
  - intros q v Hq. assert (E : assoc q ns' = Some v \/ q = p /\ v = meaning p).
    { destruct (assoc p ns') eqn:Ep; [auto|]. rewrite assoc_snoc in Hq. destruct (assoc q ns'); [auto|]. destruct (str_eqb_spec p q) as [->|]; [|discriminate]. injection Hq as <-. auto. }
    destruct E as [E|[-> ->]].
    + apply H1 in E. destruct (assoc p ns); [exact E|]. rewrite assoc_snoc, E. reflexivity.
    + destruct (assoc p ns) as [w|] eqn:Ep; [rewrite Ep; f_equal; apply H2; exact Ep|]. rewrite assoc_snoc, Ep. destruct (str_eqb_spec p p); congruence.
  - intros q v Hq. destruct (assoc p ns) eqn:Ep; [apply H2; exact Hq|]. rewrite assoc_snoc in Hq. destruct (assoc q ns) eqn:Eq; [injection Hq as <-; apply H2; exact Eq|].
    destruct (str_eqb_spec p q) as [->|]; [|discriminate]. injection Hq as <-. reflexivity.
Qed.
Lemma nsle_super ns ns' p u : nsle ns ns' -> u = meaning p -> nsle (match assoc p ns with Some _ => ns | None => ns ++ [(p, u)] end) ns'.
Proof.
  intros H Hu. pose proof (nsle_add _ _ _ _ H Hu) as [_ K]. split; [|exact K]. destruct H as [H1 H2]. intros q v Hq. apply H1 in Hq.
  destruct (assoc p ns); [exact Hq|]. rewrite assoc_snoc, Hq. reflexivity.
Qed.
Lemma cle_ns c c' : cle c c' -> forall p, (forall u, namespace_uri c' p = Some u -> namespace_uri c p = Some u) /\ (forall u, namespace_uri c p = Some u -> u = meaning p).
Proof. induction 1 as [f t ns ns' d [H1 H2]|c c' f o ns ns' d _ _ [H1 H2]|c c' _ IH|c c' t _ IH|c c' i _ IH|c c' _ IH|c c' _ IH]; intros p; cbn; auto. Qed.
Lemma cle_check c c' f : cle c c' -> check_include c f = check_include c' f.
Proof. induction 1; cbn; try assumption; [reflexivity|]. destruct (path_eqb f f0); [reflexivity | assumption]. Qed.
Lemma cle_attr c c' : cle c c' -> parent_attribute c = parent_attribute c'.
Proof. induction 1; cbn; try assumption; reflexivity. Qed.
Lemma cle_file2 c c' : cle c c' -> file_of c = file_of c' /\ match c, c' with XInclude q _ _ _ _, XInclude q' _ _ _ _ => file_of q = file_of q' | _, _ => True end.
Proof.
  induction 1 as [f t ns ns' d HN|c c' f o ns ns' d _ [IH _] HN|c c' H [_ IH]|c c' t _ [IH _]|c c' i _ [IH _]|c c' _ [IH _]|c c' _ [IH _]]; split; cbn; auto.
  destruct H; auto.
Qed.
Lemma cle_file c c' : cle c c' -> file_of c = file_of c'.
Proof. intros H. apply (cle_file2 _ _ H). Qed.
Lemma cle_default c c' : cle c c' -> default_namespace_uri c = default_namespace_uri c'.
Proof. induction 1; cbn; auto. Qed.
Lemma cle_dt c c' : cle c c' -> forall p, datatype_uri c p = datatype_uri c' p.
Proof. induction 1; intros q; cbn; auto. rewrite IHcle. reflexivity. Qed.
Lemma cle_table c c' : cle c c' -> table_of c = table_of c'.
Proof. destruct 1; reflexivity. Qed.
Lemma cle_include c c' : cle c c' -> is_include c = is_include c'.
Proof. destruct 1; reflexivity. Qed.
Lemma cle_recursion c c' i : cle c c' -> check_ref_recursion c i = check_ref_recursion c' i.
Proof. induction 1; cbn; auto. Qed.
Lemma cle_acquire c c' i : cle c c' -> acquire_ref_impl c i = acquire_ref_impl c' i.
Proof. induction 1; cbn; auto. Qed.
Lemma cle_ref c c' i : cle c c' -> acquire_ref c i = acquire_ref c' i.
Proof. intros H. unfold acquire_ref. rewrite (cle_recursion _ _ _ H), (cle_acquire _ _ _ H). reflexivity. Qed.
Lemma cle_parent c c' i : cle c c' -> acquire_parent_ref c i = acquire_parent_ref c' i.
Proof. induction 1; cbn; auto using cle_ref. Qed.
Lemma cle_define2 c c' : cle c c' -> forall i r, define c i r = define c' i r /\ match c, c' with XInclude q _ _ _ _, XInclude q' _ _ _ _ => define q i r = define q' i r | _, _ => True end.
Proof.
  intros H i r. induction H as [f t ns ns' d HN|c c' f o ns ns' d _ [IH _] HN|c c' H [_ IH]|c c' t _ [IH _]|c c' i' _ [IH _]|c c' _ [IH _]|c c' _ [IH _]]; split; cbn; auto.
  - rewrite IH. reflexivity.
  - destruct H; auto. rewrite IH. reflexivity.
Qed.
Lemma cle_define c c' i r : cle c c' -> define c i r = define c' i r.
Proof. intros H. apply (cle_define2 _ _ H). Qed.
Lemma cle_path c c' h : cle c c' -> path_from c h = path_from c' h.
Proof. intros H. unfold path_from. rewrite (cle_file _ _ H). reflexivity. Qed.
Lemma cle_overrides c c' : cle c c' -> check_overrides c = check_overrides c'.
Proof. destruct 1; reflexivity. Qed.
Lemma new_include_sim c c' f : cle c c' -> sim cle (new_include c f) (new_include c' f).
Proof.
  intros H. unfold new_include. rewrite (cle_check _ _ _ H). eapply sim_bind; [apply sim_refl|]. intros _ _ _.
  eapply sim_bind; [apply sim_refl|]. intros o _ <-. apply sim_ret. constructor; [exact H | exact nsle_initial].
Qed.
Lemma new_grammar_sim c c' : cle c c' -> sim cle (new_grammar c) (new_grammar c').
Proof. intros H. unfold new_grammar. eapply sim_bind; [apply sim_refl|]. intros t _ <-. apply sim_ret. constructor; exact H. Qed.
Lemma new_element_sim c c' : cle c c' -> sim cle (new_element c) (new_element c').
Proof.
  intros H. unfold new_element. rewrite (cle_attr _ _ H). destruct (parent_attribute c'); [apply sim_bad; discriminate|]. apply sim_ret. constructor; exact H.
Qed.
Lemma prefix_sim c c' p : cle c c' -> sim eq (namespace_uri_for_prefix c p) (namespace_uri_for_prefix c' p).
Proof.
  intros H. unfold namespace_uri_for_prefix. destruct (namespace_uri c' p) as [u|] eqn:E; [|apply sim_bad; discriminate].
  rewrite (proj1 (cle_ns _ _ H p) u E). apply sim_refl.
Qed.
Lemma nameclass_sim c c' el n : cle c c' -> sim eq (compile_nameclass c el n) (compile_nameclass c' el n).
Proof.
  intros H. revert n. fix IH 1. intros [[i|p l|u l]|nm ex|ex|a b|a]; cbn [compile_nameclass].
  - rewrite (cle_default _ _ H). apply sim_refl.
  - eapply sim_bind; [apply prefix_sim; exact H|]. intros u _ <-. apply sim_refl.
  - apply sim_refl.
  - eapply sim_bind with (R := eq).
    + destruct ex as [e|]; [|apply sim_refl]. eapply sim_bind; [apply IH|]. intros a _ <-. apply sim_refl.
    + intros e _ <-. eapply sim_bind with (R := eq); [destruct nm; [apply prefix_sim; exact H | apply sim_refl]|]. intros u _ <-. apply sim_refl.
  - eapply sim_bind with (R := eq).
    + destruct ex as [e|]; [|apply sim_refl]. eapply sim_bind; [apply IH|]. intros a _ <-. apply sim_refl.
    + intros e _ <-. apply sim_refl.
  - eapply sim_bind; [apply IH|]. intros x _ <-. eapply sim_bind; [apply IH|]. intros y _ <-. apply sim_refl.
  - apply IH.
Qed.
Lemma dtname_sim c c' n : cle c c' -> sim eq (compile_dtname c n) (compile_dtname c' n).
Proof.
  intros H. destruct n as [| |p l|u l]; cbn [compile_dtname]; try apply sim_refl. unfold try_datatype_uri. rewrite (cle_dt _ _ H). apply sim_refl.
Qed.
Lemma declare_sim c c' p u : cle c c' -> u = meaning p -> sim cle (declare_namespace c p u) (declare_namespace c' p u).
Proof.
  intros H Hu. destruct H as [f t ns ns' d HN|c c' f o ns ns' d H HN|c c' H|c c' t H|c c' i H|c c' H|c c' H]; cbn [declare_namespace]; try (apply sim_bad; discriminate).
  - pose proof (nsle_add _ _ p u HN Hu) as K. apply sim_ret. destruct (assoc p ns), (assoc p ns'); constructor; exact K.
  - pose proof (nsle_add _ _ p u HN Hu) as K. apply sim_ret. destruct (assoc p ns), (assoc p ns'); constructor; assumption.
Qed.
Lemma datatype_sim c c' p u : cle c c' -> sim cle (declare_datatype c p u) (declare_datatype c' p u).
Proof.
  intros H. destruct H as [f t ns ns' d HN|c c' f o ns ns' d H HN|c c' H|c c' t H|c c' i H|c c' H|c c' H]; cbn [declare_datatype]; try (apply sim_bad; discriminate);
  (destruct (assoc p d); [apply sim_bad; discriminate|]; apply sim_ret; constructor; assumption).
Qed.
Definition fair (s : schema) : Prop := forall p u, In (DNamespace p (UUri u)) (s_decls s) \/ In (DDefault (Some p) (UUri u)) (s_decls s) -> lit_value u = meaning p.
Lemma declarations_sim l : (forall p u, In (DNamespace p (UUri u)) l \/ In (DDefault (Some p) (UUri u)) l -> lit_value u = meaning p) ->
  forall c c', cle c c' -> sim cle (compile_declarations c l) (compile_declarations c' l).
Proof.
  induction l as [|d l IH]; intros HF c c' H; cbn [compile_declarations]; [apply sim_ret; exact H|].
  eapply sim_bind with (R := cle).
  - destruct d as [p [|u]|[p|] [|u]|p u]; cbn [compile_declaration]; try (apply sim_bad; discriminate).
    + apply declare_sim; [exact H | apply HF; left; left; reflexivity].
    + apply declare_sim; [exact H | apply HF; right; left; reflexivity].
    + apply sim_ret; exact H.
    + apply datatype_sim; exact H.
  - intros a b Hab. apply IH; [|exact Hab]. intros p u [K|K]; apply HF; [left | right]; right; exact K.
Qed.
Lemma inherit_sim c inc inc' i : (forall u, namespace_uri c (ik_string i) = Some u -> u = meaning (ik_string i)) ->
  (exists c1 c2 f o ns ns' d, inc = XInclude c1 f o ns d /\ inc' = XInclude c2 f o ns' d /\ cle c1 c2 /\ nsle ns ns') ->
  sim cle (inherit_prefix c inc (Some i)) (cret inc').
Proof.
  intros Hu (c1 & c2 & f & o & ns & ns' & d & -> & -> & H & HN) st b st1 E. injection E as <- <-. cbn [inherit_prefix].
  destruct (namespace_uri c (ik_string i)) as [u|] eqn:E.
  - left. cbn [declare_namespace]. eexists. split; [reflexivity|]. pose proof (nsle_super _ _ (ik_string i) u HN (Hu u eq_refl)) as K.
    destruct (assoc (ik_string i) ns); constructor; assumption.
  - right. eexists. split; [reflexivity | constructor].
Qed.
Lemma get_schema_sim f : sim (fun s s' => s' = uninherit s /\ fair s) (get_schema fs f) (get_schema fs' f).
Proof.
  intros st b st1. unfold get_schema, uninherited. destruct (fs f) as [s|e] eqn:E; [|discriminate]. intros K. injection K as <- <-. left. exists s. split; [reflexivity|]. split; [reflexivity|].
  intros p u. exact (proj2 Hm f s E p u).
Qed.

Definition SP (cp cp' : ctx -> spat -> CM mpat) (p : spat) : Prop := forall c c', cle c c' -> sim eq (cp c p) (cp' c' (ui_p p)).
Definition SI (ci ci' : ctx -> list gcontent -> CM unit) (l : list gcontent) : Prop := forall c c', cle c c' -> sim eq (ci c l) (ci' c' (map ui_g l)).
Lemma schema_sim cp cp' ci ci' s : fair s -> (forall p, SP cp cp' p) -> (forall l, SI ci ci' l) ->
  forall c c', cle c c' -> sim cle (compile_schema_with cp ci c s) (compile_schema_with cp' ci' c' (uninherit s)).
Proof.
  intros HF Hp Hi c c' H. unfold compile_schema_with. cbn [uninherit s_decls s_top].
  eapply sim_bind; [apply declarations_sim; [exact HF | exact H]|]. clear c c' H. intros c c' H.
  destruct (s_top s) as [p|l].
  - rewrite <- (cle_include _ _ H). destruct (is_include c).
    + destruct p; cbn [ui_p]; try (destruct ex); try (apply sim_bad; discriminate). eapply sim_bind; [apply Hi; exact H|]. intros _ _ _. apply sim_ret; exact H.
    + eapply sim_bind; [apply Hp; exact H|]. intros x _ <-. rewrite (cle_define _ _ _ _ H). eapply sim_bind; [apply sim_refl|]. intros _ _ _. apply sim_ret; exact H.
  - eapply sim_bind; [apply Hi; exact H|]. intros _ _ _. apply sim_ret; exact H.
Qed.
Section Rec.
Variables (rp rp' : ctx -> spat -> CM mpat) (ri ri' : ctx -> list gcontent -> CM unit).
Hypothesis Hp : forall p, SP rp rp' p.
Hypothesis Hi : forall l, SI ri ri' l.
Notation P1 := (compile_pattern O C fs rp ri).
Notation P2 := (compile_pattern O C fs' rp' ri').
Notation G1 := (compile_content O C fs rp ri).
Notation G2 := (compile_content O C fs' rp' ri').
Notation V1 := (compile_override O C fs rp ri).
Notation V2 := (compile_override O C fs' rp' ri').
Definition PP (p : spat) : Prop := SP P1 P2 p.
Definition GG (g : gcontent) : Prop := forall c c', cle c c' -> sim eq (G1 c g) (G2 c' (ui_g g)).
Definition VV (i : icontent) : Prop := forall c c', cle c c' -> sim eq (V1 c i) (V2 c' (ui_i i)).
Lemma take_eq t t' : t = t' -> sim eq (take_start t) (take_start t').
Proof. intros ->. apply sim_refl. Qed.
Lemma external_sim h i : PP (SExternal h i).
Proof.
  intros c c' H. cbn [ui_p compile_pattern]. destruct i; [apply sim_bad; discriminate|].
  rewrite (cle_path _ _ _ H). eapply sim_bind; [apply sim_refl|]. intros f _ <-.
  eapply sim_bind; [apply sim_map, get_schema_sim|]. intros s s' [-> _]. cbn [uninherit s_top].
  eapply sim_bind; [apply new_include_sim; exact H|]. intros inc inc' Hinc.
  destruct (s_top s) as [q|l]; [apply sim_map, Hp; exact Hinc|].
  eapply sim_bind; [apply new_grammar_sim; exact H|]. intros g g' Hg. eapply sim_bind; [apply Hi; exact Hg|]. intros _ _ _.
  rewrite (cle_table _ _ Hg). apply sim_refl.
Qed.
Lemma contents_sim l : Forall GG l -> forall c c', cle c c' -> sim eq (citer (G1 c) l) (citer (G2 c') (map ui_g l)).
Proof. intros HF c c' H. apply sim_iter. eapply Forall_impl; [|exact HF]. intros g Hg. apply Hg; exact H. Qed.
Lemma grammar_sim l : Forall GG l -> PP (SGrammar l).
Proof.
  intros HF c c' H. cbn [ui_p compile_pattern]. eapply sim_bind; [apply new_grammar_sim; exact H|]. intros g g' Hg.
  eapply sim_bind; [apply contents_sim; [exact HF | exact Hg]|]. intros _ _ _. rewrite (cle_table _ _ Hg). apply sim_refl.
Qed.
Lemma include_inv c f st inc st1 : new_include c f st = fok (inc, st1) -> exists o, inc = XInclude c f o initial_ns initial_dts.
Proof.
  unfold new_include, cbind. destruct (check_include c f st) as [[[[] st0]|e]|p|]; cbn; try discriminate. intros E. injection E as <- _. eexists; reflexivity.
Qed.
Lemma include_sim h i ov : match ov with Some l => Forall VV l | None => True end -> GG (GInclude h i ov).
Proof.
  intros HV c c' H. assert (E : ui_g (GInclude h i ov) = GInclude h None (option_map (map ui_i) ov)) by (destruct ov; reflexivity).
  rewrite E. cbn [compile_content]. rewrite (cle_path _ _ _ H). eapply sim_bind; [apply sim_refl|]. intros f _ <-.
  eapply sim_bind; [apply sim_map, get_schema_sim|]. intros s s' [-> HF].
  eapply sim_bind with (R := fun a b => exists o, a = XInclude c f o initial_ns initial_dts /\ b = XInclude c' f o initial_ns initial_dts).
  { unfold new_include. rewrite (cle_check _ _ _ H). eapply sim_bind; [apply sim_refl|]. intros _ _ _.
    eapply sim_bind; [apply sim_refl|]. intros o _ <-. apply sim_ret. exists o. auto. }
  intros inc inc' (o & -> & ->). eapply sim_bind with (R := cle).
  { destruct i as [i|]; [|apply sim_ret; constructor; [exact H | exact nsle_initial]].
    apply inherit_sim; [apply (cle_ns _ _ H)|]. do 7 eexists. split; [reflexivity|]. split; [reflexivity|]. split; [exact H | exact nsle_initial]. }
  intros inc inc' Hinc. eapply sim_bind with (R := eq).
  { destruct ov as [l|]; cbn [option_map]; [|apply sim_refl].
    apply (sim_iter (fun i => cmap_err EInclude (V1 (XOverrides inc) i)) (fun i => cmap_err EInclude (V2 (XOverrides inc') i)) ui_i).
    eapply Forall_impl; [|exact HV]. intros x Hx. apply sim_map, Hx. constructor; exact Hinc. }
  intros _ _ _. eapply sim_bind; [apply sim_map, schema_sim; [exact HF | exact Hp | exact Hi | exact Hinc]|].
  intros d d' Hd. rewrite (cle_overrides _ _ Hd). apply sim_refl.
Qed.
Lemma define_sim_c n how p c c' : PP p -> cle c c' ->
  sim eq (cbind (P1 (XDefine c n) p) (fun x => define c n (rule_of how x))) (cbind (P2 (XDefine c' n) (ui_p p)) (fun x => define c' n (rule_of how x))).
Proof.
  intros HP H. eapply sim_bind; [apply HP; constructor; exact H|]. intros x _ <-. rewrite (cle_define _ _ _ _ H). apply sim_refl.
Qed.
Lemma sim_all : (forall p, PP p) /\ (forall g, GG g).
Proof.
  assert (H_el : forall nc p, PP p -> PP (SElement nc p)).
  { intros nc p HP c c' H. cbn [ui_p compile_pattern]. eapply sim_bind; [apply nameclass_sim; exact H|]. intros n _ <-.
    eapply sim_bind; [apply new_element_sim; exact H|]. intros e e' He. eapply sim_bind; [apply HP; exact He|]. intros x _ <-. apply sim_refl. }
  assert (H_at : forall nc p, PP p -> PP (SAttribute nc p)).
  { intros nc p HP c c' H. cbn [ui_p compile_pattern]. eapply sim_bind; [apply nameclass_sim; exact H|]. intros n _ <-.
    eapply sim_bind; [apply HP; constructor; exact H|]. intros x _ <-. apply sim_refl. }
  assert (H_un : forall p (k : mpat -> CM mpat) c c', PP p -> cle c c' -> sim eq (cbind (P1 c p) k) (cbind (P2 c' (ui_p p)) k)).
  { intros p k c c' HP H. eapply sim_bind; [apply HP; exact H|]. intros x _ <-. apply sim_refl. }
  assert (H_bi : forall a b (k : mpat -> mpat -> CM mpat) c c', PP a -> PP b -> cle c c' ->
    sim eq (cbind (P1 c a) (fun x => cbind (P1 c b) (k x))) (cbind (P2 c' (ui_p a)) (fun x => cbind (P2 c' (ui_p b)) (k x)))).
  { intros a b k c c' HA HB H. eapply sim_bind; [apply HA; exact H|]. intros x _ <-. apply H_un; assumption. }
  assert (H_da : forall n ps ex, match ex with Some e => PP e | None => True end -> PP (SData n ps ex)).
  { intros n ps ex HE c c' H. assert (E : ui_p (SData n ps ex) = SData n ps (option_map ui_p ex)) by (destruct ex; reflexivity).
    rewrite E. cbn [compile_pattern]. eapply sim_bind; [apply dtname_sim; exact H|]. intros d _ <-. eapply sim_bind; [apply sim_refl|]. intros x _ <-.
    eapply sim_bind with (R := eq).
    - destruct ex as [e|]; cbn [option_map]; [|apply sim_refl]. eapply sim_bind; [apply HE; exact H|]. intros y _ <-. apply sim_refl.
    - intros e _ <-. apply sim_refl. }
  assert (H_va : forall n v, PP (SValue n v)).
  { intros n v c c' H. cbn [ui_p compile_pattern]. eapply sim_bind; [apply dtname_sim; exact H|]. intros d _ <-. apply sim_refl. }
  assert (H_id : forall i, PP (SIdent i)) by (intros i c c' H; cbn [ui_p compile_pattern]; rewrite (cle_ref _ _ _ H); apply sim_refl).
  assert (H_pa : forall i, PP (SParent i)) by (intros i c c' H; cbn [ui_p compile_pattern]; rewrite (cle_parent _ _ _ H); apply sim_refl).
  assert (H_gd : forall n how p, PP p -> GG (GDefine n how p)) by (intros n how p HP c c' H; apply define_sim_c; assumption).
  assert (H_gv : forall l, Forall GG l -> GG (GDiv l)) by (intros l HF c c' H; cbn [ui_g compile_content]; apply contents_sim; assumption).
  assert (H_id' : forall n how p, PP p -> VV (IDefine n how p)) by (intros n how p HP c c' H; apply define_sim_c; assumption).
  assert (H_iv : forall l, Forall VV l -> VV (IDiv l)) by (intros l _ c c' H; apply sim_bad; discriminate).
  assert (H_ga : forall a, GG (GAnnotation a)) by (intros a c c' H; apply sim_refl).
  assert (H_ia : forall a, VV (IAnnotation a)) by (intros a c c' H; apply sim_refl).
  split.
  - apply (spat_ind' PP GG VV); auto using external_sim, grammar_sim, include_sim;
    try (intros; intros cx cx' Hx; cbn [ui_p compile_pattern]; first [apply sim_refl | apply H_un; assumption | apply H_bi; assumption | match goal with HP : PP _ |- _ => apply HP; exact Hx end]).
  - apply (gcontent_ind' PP GG VV); auto using external_sim, grammar_sim, include_sim;
    try (intros; intros cx cx' Hx; cbn [ui_p compile_pattern]; first [apply sim_refl | apply H_un; assumption | apply H_bi; assumption | match goal with HP : PP _ |- _ => apply HP; exact Hx end]).
Qed.
Lemma compile_contents_sim l : SI (compile_contents O C fs rp ri) (compile_contents O C fs' rp' ri') l.
Proof. intros c c' H. apply contents_sim; [|exact H]. apply Forall_forall. intros g _. apply sim_all. Qed.
End Rec.
Lemma nested_sim d : (forall p, SP (fst (nested O C fs d)) (fst (nested O C fs' d)) p) /\ (forall l, SI (snd (nested O C fs d)) (snd (nested O C fs' d)) l).
Proof.
  induction d as [|d [IH1 IH2]]; [split; intros ? c c' _; apply sim_bad; discriminate|]. cbn [nested].
  destruct (nested O C fs d) as [rp ri], (nested O C fs' d) as [rp' ri']. cbn [fst snd] in *. split.
  - intros p. apply sim_all; assumption.
  - intros l. apply compile_contents_sim; assumption.
Qed.
Lemma compile_sim d name r st : compile_grammar O C fs' d name = fok (r, st) ->
  compile_grammar O C fs d name = fok (r, st) \/ exists e, compile_grammar O C fs d name = ferr e /\ prefix_error e.
Proof.
  unfold compile_grammar. destruct (nested_sim d) as [H1 H2]. destruct (nested O C fs d) as [rp ri], (nested O C fs' d) as [rp' ri']. cbn [fst snd] in *.
  match goal with |- ?m' _ = _ -> ?m _ = _ \/ _ => assert (HS : sim eq m m') end.
  { eapply sim_bind; [apply get_schema_sim|]. intros s s' [-> HF]. eapply sim_bind with (R := cle).
    { unfold new_root. eapply sim_bind; [apply sim_refl|]. intros t _ <-. apply sim_ret. constructor. exact nsle_initial. }
    intros c c' Hc. eapply sim_bind; [apply schema_sim; [exact HF | apply sim_all; assumption | apply compile_contents_sim; assumption | exact Hc]|].
    intros g g' Hg. rewrite (cle_table _ _ Hg). apply sim_refl. }
  intros E. destruct (HS _ _ _ E) as [(a & K & ->)|K]; auto.
Qed.
End Inherit.
Lemma inherit_meaning O C fs meaning : one_meaning fs meaning -> files_ok (uninherited fs) -> forall d d' name r st r' st',
  compile_grammar O C fs d name = fok (r, st) -> compile_grammar O C (uninherited fs) d' name = fok (r', st') ->
  r' = r /\ st' = st /\ forall root, rng_valid O (cell_defs st) (start_of r st) root <-> schema_valid (uninherited fs) O C name root.
Proof.
  intros Hm Hf d d' name r st r' st' H H'.
  assert (HE : r' = r /\ st' = st).
  { assert (K : compile_grammar O C fs (Nat.max d d') name = fok (r, st)) by (rewrite (compile_mono O C fs d _ name (Nat.le_max_l _ _)); [exact H | rewrite H; discriminate]).
    assert (K' : compile_grammar O C (uninherited fs) (Nat.max d d') name = fok (r', st')) by (rewrite (compile_mono O C _ d' _ name (Nat.le_max_r _ _)); [exact H' | rewrite H'; discriminate]).
    destruct (compile_sim O C fs meaning Hm _ _ _ _ K') as [E|(e & E & _)]; rewrite K in E; [injection E as -> ->; auto | discriminate E]. }
  destruct HE as [-> ->]. split; [reflexivity|]. split; [reflexivity|]. intros root. exact (compiled_meaning O C _ Hf d' name r st H' root).
Qed.
