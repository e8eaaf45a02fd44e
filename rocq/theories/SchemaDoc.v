(** * SchemaDoc: include overrides (C32), sugar (C28) and validation by a schema as written (C01, C02). *)
From Coq Require Import Permutation String.
From Verif Require Import Base Datatype Facets Store Deriv Events Lang LangFacts Compile Syntax SchemaCompile Spec SpecFacts SourceSpec SourceScope SourceTr SourceSem SourceCompile SchemaOrder SchemaSpec SchemaMain.
From Verif Require Import Doc Scope Infoset Main Verdicts.

(** ** definitions written out: name, method, body *)
Definition as_content (d : str * method * spat) : gcontent := let '(n, h, p) := d in GDefine n h p.
Definition as_override (d : str * method * spat) : icontent := let '(n, h, p) := d in IDefine n h p.
Definition def_name (d : str * method * spat) : str := fst (fst d).
Definition in_scope (e : fenv) (d : str * method * spat) : sdef := let '(n, h, p) := d in SDef n h e p.

Section Doc.
Variable O : oracles.
Variable C : coracles.
Variable fs : filesys.
Hypothesis Hfs : files_ok fs.

Lemma overrides_written e ov : overrides e (map as_override ov) = map (in_scope e) ov.
Proof. induction ov as [|[[n h] p] ov IH]; [reflexivity|]. cbn [map as_override overrides]. rewrite IH. reflexivity. Qed.
Lemma Expand_written e ds : Expand fs e (map as_content ds) (map (in_scope e) ds).
Proof. induction ds as [|[[n h] p] ds IH]; cbn; constructor. exact IH. Qed.
Lemma Expand_written_inv e ds g : Expand fs e (map as_content ds) g -> g = map (in_scope e) ds.
Proof.
  revert g. induction ds as [|[[n h] p] ds IH]; intros g H; inversion H; subst; [reflexivity|]. cbn. f_equal. apply IH. assumption.
Qed.
Definition kept (ov ds : list (str * method * spat)) : list (str * method * spat) :=
  filter (fun d => if in_dec str_eq_dec (def_name d) (map def_name ov) then false else true) ds.
Lemma names_written e ov : names_of (map (in_scope e) ov) = map def_name ov.
Proof. unfold names_of. rewrite map_map. apply map_ext. intros [[n h] p]. reflexivity. Qed.
Lemma filter_written e ns ds : filter (not_among ns) (map (in_scope e) ds) = map (in_scope e) (filter (fun d => if in_dec str_eq_dec (def_name d) ns then false else true) ds).
Proof. induction ds as [|[[n h] p] ds IH]; [reflexivity|]. cbn. unfold not_among at 1, def_name at 1. cbn. destruct (in_dec str_eq_dec n ns); cbn; rewrite IH; reflexivity. Qed.
Lemma same_written e e' ds : same_env e e' -> Forall2 same_def (map (in_scope e) ds) (map (in_scope e') ds).
Proof. intros H. induction ds as [|[[n h] p] ds IH]; cbn; constructor; [constructor; auto | exact IH]. Qed.
Lemma gram_valid_same g g' root : same_gram g g' -> SN fs O C true [g] [] [root] (lit "start") -> SN fs O C true [g'] [] [root] (lit "start").
Proof. intros HS K. eapply (proj1 (proj2 (proj2 (SM_same fs O C true)))); [exact K|]. constructor; [exact HS | constructor]. Qed.

(** C32: a file that includes [f] and overrides [ov] is the file with the definitions of [f] in its
    place, those of the overridden names replaced *)
Theorem overrides_replace main flat h f ds ov inner rest d d' r r' st st' :
  fs main = inl (Schema ds (TGrammar (GInclude h None (Some (map as_override ov)) :: rest))) ->
  resolve main (lit_value h) = Some f -> fs f = inl (Schema ds (TGrammar (map as_content inner))) ->
  fs flat = inl (Schema ds (TGrammar (map as_content ov ++ map as_content (kept ov inner) ++ rest))) ->
  same_dir main f -> same_dir main flat ->
  compile_grammar O C fs d main = fok (r, st) -> compile_grammar O C fs d' flat = fok (r', st') ->
  forall root, rng_valid O (cell_defs st) (start_of r st) root <-> rng_valid O (cell_defs st') (start_of r' st') root.
Proof.
  intros E1 Er E2 E3 D1 D2 Hc Hc' root. rewrite (compiled_meaning O C fs Hfs _ _ _ _ Hc), (compiled_meaning O C fs Hfs _ _ _ _ Hc').
  apply (compile_correct O C fs Hfs) in Hc. destruct Hc as (g & Hg & _). apply (compile_correct O C fs Hfs) in Hc'. destruct Hc' as (g' & Hg' & _).
  assert (HS : same_gram g g').
  { pose proof (proj2 (Hg g) eq_refl) as K. inversion K as [ds0 l0 es H1 H2|ds0 p H1]; [|congruence]. rewrite E1 in H1. injection H1 as <- <-. subst es.
    inversion H2; subst. cbn [fe_path fe_decls] in *.
    match goal with HR : resolve main _ = Some ?y |- _ => assert (y = f) by congruence; subst y end.
    match goal with HF : fs f = inl ?y |- _ => rewrite E2 in HF; injection HF as <- end.
    match goal with HF : file_contents _ _ |- _ => inversion HF; subst end. cbn [s_decls] in *.
    match goal with HX : Expand _ _ (map as_content _) _ |- _ => apply Expand_written_inv in HX; subst end.
    match goal with HX : Expand _ (FEnv main _ _) rest ?y |- _ => destruct (Expand_same fs _ _ _ HX (FEnv flat ds [])) as (dr & K1 & K2); [constructor; [exact D2 | reflexivity..]|] end.
    match goal with HX : hands_down _ _ ?y |- _ => rename HX into HD; cbn [hands_down] in HD; assert (Hy : y = []) end.
    { destruct (Hfs _ _ E1) as [[Dok _] _]. inversion HD as [p l Hi|Hi]; subst; cbn [fe_decls fe_inherited] in *; [|reflexivity]. destruct (Dok _ _ Hi) as (l' & E & El). injection E as <-. exact El. }
    subst os. rewrite overrides_written, names_written, filter_written in *. fold (kept ov inner) in *.
    assert (g' = map (in_scope (FEnv flat ds [])) ov ++ map (in_scope (FEnv flat ds [])) (kept ov inner) ++ dr).
    { symmetry. apply Hg'. eapply Fg_grammar; [exact E3|]. apply Expand_app. eexists _, _. split; [apply Expand_written|]. split; [|reflexivity].
      apply Expand_app. eexists _, _. split; [apply Expand_written|]. split; [exact K1 | reflexivity]. }
    subst g'. eexists. split; [apply Permutation_refl|]. apply Forall2_app; [|apply Forall2_app; [|exact K2]].
    - apply same_written. constructor; [exact D2 | reflexivity..].
    - apply same_written. constructor; [|reflexivity|symmetry; exact Hy]. intros x. cbn. rewrite <- D1, <- D2. reflexivity. }
  unfold schema_valid. split; intros (x & K1 & K2).
  - apply Hg in K1. subst x. exists g'. split; [apply Hg'; reflexivity|]. eapply gram_valid_same; eassumption.
  - apply Hg' in K1. subst x. exists g. split; [apply Hg; reflexivity|]. eapply gram_valid_same; [apply same_gram_sym|]; eassumption.
Qed.
Lemma Expand_member e l g ds : Expand fs e l ds -> In g l -> exists dg, Expand fs e [g] dg.
Proof.
  intros H Hg. apply in_split in Hg. destruct Hg as (l1 & l2 & ->). change (l1 ++ g :: l2) with (l1 ++ [g] ++ l2) in H. apply Expand_app in H. destruct H as (d1 & d2 & _ & H & _).
  apply Expand_app in H. destruct H as (d3 & d4 & H & _). exists d3; exact H.
Qed.
(** C32: every overridden name is defined by the included file *)
Theorem overridden_is_defined main ds l h ov f s c d r st :
  fs main = inl (Schema ds (TGrammar l)) -> In (GInclude h None (Some ov)) l ->
  resolve main (lit_value h) = Some f -> fs f = inl s -> file_contents s c ->
  compile_grammar O C fs d main = fok (r, st) ->
  exists inner, Expand fs (FEnv f (s_decls s) []) c inner /\ forall n how p, In (IDefine n how p) ov -> In n (names_of inner).
Proof.
  intros E Hin Er Ef Hc H. apply (compile_correct O C fs Hfs) in H. destruct H as (g & Hg & _).
  pose proof (proj2 (Hg g) eq_refl) as K. inversion K as [ds0 l0 es H1 H2|ds0 p H1]; [|congruence]. rewrite E in H1. injection H1 as <- <-. subst es.
  destruct (Expand_member _ _ _ _ H2 Hin) as (dg & HX). inversion HX; subst. cbn [fe_path fe_decls] in *.
  match goal with HR : resolve main _ = Some ?y |- _ => assert (y = f) by congruence; subst y end.
  match goal with HF : fs f = inl ?y |- _ => rewrite Ef in HF; injection HF as <- end.
  match goal with HF : file_contents s ?y |- _ => rewrite (contents_of_file _ _ _ Hc HF) in * end.
  match goal with HX : hands_down _ _ ?y |- _ => rename HX into HD; cbn [hands_down] in HD; assert (Hy : y = []) end.
  { destruct (Hfs _ _ E) as [[Dok _] _]. inversion HD as [p0 l0 Hi|Hi]; subst; cbn [fe_decls fe_inherited] in *; [|reflexivity]. destruct (Dok _ _ Hi) as (l' & E' & El). injection E' as <-. exact El. }
  subst. eexists. split; [eassumption|]. intros n how p Hn. match goal with HI : incl (names_of os) _ |- _ => apply HI end. subst os.
  clear - Hn. unfold names_of. induction ov as [|i ov IH]; [destruct Hn|]. cbn [overrides]. rewrite map_app, in_app_iff. destruct Hn as [->|Hn]; [left; left; reflexivity | right; auto].
Qed.

(** C28: the abbreviations *)
Theorem sugar e G a m p : SM fs O C true e G a m (SOptional p) <-> SM fs O C true e G a m (SChoicePair p SEmpty).
Proof.
  split; intros H; inversion H; subst; try (constructor; assumption); try (apply SM_choice_r; constructor).
  match goal with K : SM _ _ _ _ _ _ _ _ SEmpty |- _ => inversion K; subst end. constructor.
Qed.
Theorem sugar_star e G a m p : SM fs O C true e G a m (SZeroOrMore p) <-> SM fs O C true e G a m (SChoicePair (SOneOrMore p) SEmpty).
Proof.
  split; intros H; inversion H; subst; try (constructor; assumption); try (apply SM_choice_r; constructor).
  match goal with K : SM _ _ _ _ _ _ _ _ SEmpty |- _ => inversion K; subst end. constructor.
Qed.
Theorem sugar_mixed e G a m p : SM fs O C true e G a m (SMixed p) <-> SM fs O C true e G a m (SInterleavePair p SText).
Proof.
  split; intros H; inversion H; subst.
  - eapply SM_inter; [|eassumption|eassumption|constructor; assumption]. rewrite app_nil_r. apply Permutation_refl.
  - match goal with K : SM _ _ _ _ _ _ _ _ SText |- _ => inversion K; subst end. rewrite app_nil_r in *. eapply SM_mixed; [eassumption| |assumption].
    eapply (proj1 (SM_perm_atts fs O C true)); eassumption.
Qed.

(** C01, C02 for a schema as written *)
Theorem source_accepted_valid d name r st : compile_grammar O C fs d name = fok (r, st) ->
  rng_schema (cell_defs st) (start_of r st) -> in_limits (cell_defs st) (start_of r st) ->
  forall x root, doc_fits (cell_defs st) (start_of r st) x -> Document x root -> plain_for (cell_defs st) (start_of r st) root ->
  accepts O (cell_defs st) (start_of r st) (doc_tokens x) -> schema_valid fs O C name root.
Proof. intros H HR HL x root Hs HD Hp HA. apply (compiled_meaning O C fs Hfs _ _ _ _ H). eapply accepted_valid; eassumption. Qed.
Theorem source_valid_accepted d name r st : compile_grammar O C fs d name = fok (r, st) ->
  rng_schema (cell_defs st) (start_of r st) -> in_limits (cell_defs st) (start_of r st) ->
  forall x root, doc_fits (cell_defs st) (start_of r st) x -> Document x root -> plain_for (cell_defs st) (start_of r st) root -> harmless O (cell_defs st) [root] (start_of r st) ->
  schema_valid fs O C name root -> accepts O (cell_defs st) (start_of r st) (doc_tokens x) \/ overflows O (cell_defs st) (start_of r st) (doc_tokens x).
Proof. intros H HR HL x root Hs HD Hp Hh HV. eapply valid_accepted; try eassumption. apply (compiled_meaning O C fs Hfs _ _ _ _ H). exact HV. Qed.
End Doc.
