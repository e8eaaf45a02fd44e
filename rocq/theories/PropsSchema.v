(** * PropsSchema: the property theorems on schema compilation (C28-C33, C57, C59). *)
From Coq Require Import Permutation String.
From Verif Require Import Base Datatype Facets Store Deriv Lang Compile Syntax SchemaCompile Spec SourceSpec SourceScope SchemaOrder SchemaSpec SchemaMain SchemaVisit SchemaAttr SchemaTerm SchemaDoc SchemaCombine SchemaExamples SchemaGood SchemaGoodEx SchemaProgress.
From Verif Require Import Main Infoset Scope Doc Verdicts Examples.

(** ** C28: the compiled schema accepts the documents the schema, as written, describes.
    Missing: the features of [files_ok], which the compiler gets wrong (RefutedSchema.v). *)
Theorem C28_compiled_meaning_partial : forall O C fs, files_ok fs -> forall d name r st, compile_grammar O C fs d name = fok (r, st) ->
  forall root, rng_valid O (cell_defs st) (start_of r st) root <-> schema_valid fs O C name root.
Proof. exact compiled_meaning. Qed.
Print Assumptions C28_compiled_meaning_partial.
Example C28_instance O C : forall root, rng_valid O (cell_defs (main_st O C)) (start_of (main_r O C) (main_st O C)) root <-> schema_valid ex_files O C (P "main.rnc") root.
Proof. exact (C28_compiled_meaning_partial O C _ ex_files_ok _ _ _ _ (main_compiles O C)). Qed.
(** with [external], of a pattern and of a grammar (C42) *)
Example C28_external_instance O C : exists r st, compile_grammar O C far_files 5 (P "far.rnc") = fok (r, st) /\
  forall root, rng_valid O (cell_defs st) (start_of r st) root <-> schema_valid far_files O C (P "far.rnc") root.
Proof.
  destruct (far_compiles O C) as (r & st & H). exists r, st. split; [exact H|]. exact (C28_compiled_meaning_partial O C _ far_files_ok _ _ _ _ H).
Qed.
Example C28_external_document O C : schema_valid far_files O C (P "far.rnc") far_root.
Proof. exact (far_valid O C). Qed.
(** the abbreviations of section 4: p? = p | empty, p* = p+ | empty, mixed p = p & text *)
Theorem C28_optional : forall O C fs e G a m p, SM fs O C true e G a m (SOptional p) <-> SM fs O C true e G a m (SChoicePair p SEmpty).
Proof. exact sugar. Qed.
Theorem C28_zero_or_more : forall O C fs e G a m p, SM fs O C true e G a m (SZeroOrMore p) <-> SM fs O C true e G a m (SChoicePair (SOneOrMore p) SEmpty).
Proof. exact sugar_star. Qed.
Theorem C28_mixed : forall O C fs e G a m p, SM fs O C true e G a m (SMixed p) <-> SM fs O C true e G a m (SInterleavePair p SText).
Proof. exact sugar_mixed. Qed.
Print Assumptions C28_mixed.
(** C01, C02 for the schema as written *)
Theorem C28_accepted_is_valid_partial : forall O C fs, files_ok fs -> forall d name r st, compile_grammar O C fs d name = fok (r, st) ->
  rng_schema (cell_defs st) (start_of r st) -> in_limits (cell_defs st) (start_of r st) ->
  forall x root, doc_fits (cell_defs st) (start_of r st) x -> Document x root -> plain_for (cell_defs st) (start_of r st) root ->
  accepts O (cell_defs st) (start_of r st) (doc_tokens x) -> schema_valid fs O C name root.
Proof. exact source_accepted_valid. Qed.
Example C28_source_instance O C : schema_valid src_files O C (P "cards.rnc") ex_root.
Proof. exact (C28_accepted_is_valid_partial O C _ src_files_ok _ _ _ _ (src_compiles O C) src_rng src_limits _ _ (scope_fits _ _ _ ex_scope) ex_document (fun _ => ex_plain) (src_accepts O)). Qed.
Theorem C28_valid_is_accepted_partial : forall O C fs, files_ok fs -> forall d name r st, compile_grammar O C fs d name = fok (r, st) ->
  rng_schema (cell_defs st) (start_of r st) -> in_limits (cell_defs st) (start_of r st) ->
  forall x root, doc_fits (cell_defs st) (start_of r st) x -> Document x root -> plain_for (cell_defs st) (start_of r st) root -> harmless O (cell_defs st) [root] (start_of r st) ->
  schema_valid fs O C name root -> accepts O (cell_defs st) (start_of r st) (doc_tokens x) \/ overflows O (cell_defs st) (start_of r st) (doc_tokens x).
Proof. exact source_valid_accepted. Qed.
Example C28_source_instance2 (O : oracles) (C : coracles) : accepts O src_defs ex_start (doc_tokens ex_doc) \/ overflows O src_defs ex_start (doc_tokens ex_doc).
Proof. exact (C28_valid_is_accepted_partial O C _ src_files_ok _ _ _ _ (src_compiles O C) src_rng src_limits _ _ (scope_fits _ _ _ ex_scope) ex_document (fun _ => ex_plain) ltac:(intros a nc p H; exfalso; cbn in H; intuition discriminate) (C28_source_instance O C)). Qed.
Print Assumptions C28_valid_is_accepted_partial.

(** ** C29: definitions of one name are combined, in any order; a second [=], or [|=] with [&=], is an error. *)
Theorem C29_order_partial : forall O C fs, files_ok fs -> forall f f' ds l l' d d' r r' st st',
  fs f = inl (Schema ds (TGrammar l)) -> fs f' = inl (Schema ds (TGrammar l')) -> same_dir f f' -> Permutation l l' ->
  compile_grammar O C fs d f = fok (r, st) -> compile_grammar O C fs d' f' = fok (r', st') ->
  forall root, rng_valid O (cell_defs st) (start_of r st) root <-> rng_valid O (cell_defs st') (start_of r' st') root.
Proof. exact order_irrelevant. Qed.
Print Assumptions C29_order_partial.
Example C29_order_instance O C : exists r st r' st', compile_grammar O C ex_files 5 (P "main.rnc") = fok (r, st) /\ compile_grammar O C ex_files 5 (P "rev.rnc") = fok (r', st') /\
  forall root, rng_valid O (cell_defs st) (start_of r st) root <-> rng_valid O (cell_defs st') (start_of r' st') root.
Proof.
  destruct (all_compile O C "main.rnc"%string ltac:(cbn; auto)) as (r & st & H). destruct (all_compile O C "rev.rnc"%string ltac:(cbn; auto)) as (r' & st' & H').
  exists r, st, r', st'. split; [exact H|]. split; [exact H'|].
  refine (C29_order_partial O C ex_files ex_files_ok (P "main.rnc") (P "rev.rnc") _ _ _ _ _ _ _ _ _ eq_refl eq_refl (same_dir_flat _ _) _ H H'). apply Permutation_rev.
Qed.
(** two definitions, wherever they stand, are one definition by the choice or the interleave of their bodies *)
Theorem C29_combined_partial : forall O C fs, files_ok fs -> forall f f' ds n h1 h2 c p q l l' rest d d' r r' st st',
  fs f = inl (Schema ds (TGrammar l)) -> Permutation l (GDefine n h1 p :: GDefine n h2 q :: rest) ->
  fs f' = inl (Schema ds (TGrammar l')) -> Permutation l' (GDefine n (one_method h1 h2) (both c p q) :: rest) ->
  combining h1 h2 c -> same_dir f f' ->
  compile_grammar O C fs d f = fok (r, st) -> compile_grammar O C fs d' f' = fok (r', st') ->
  forall root, rng_valid O (cell_defs st) (start_of r st) root <-> rng_valid O (cell_defs st') (start_of r' st') root.
Proof. exact combined_meaning. Qed.
Print Assumptions C29_combined_partial.
Example C29_combined_instance O C : exists r st r' st', compile_grammar O C ex_files 5 (P "main.rnc") = fok (r, st) /\ compile_grammar O C ex_files 5 (P "one.rnc") = fok (r', st') /\
  forall root, rng_valid O (cell_defs st) (start_of r st) root <-> rng_valid O (cell_defs st') (start_of r' st') root.
Proof.
  destruct (all_compile O C "main.rnc"%string ltac:(cbn; auto)) as (r & st & H). destruct (all_compile O C "one.rnc"%string ltac:(cbn; auto)) as (r' & st' & H').
  exists r, st, r', st'. split; [exact H|]. split; [exact H'|].
  refine (C29_combined_partial O C ex_files ex_files_ok (P "main.rnc") (P "one.rnc") _ (lit "card") MChoiceC MChoiceC MChoiceC card1 leaf _ _ [_; _; _; _] _ _ _ _ _ _ eq_refl _ eq_refl _ _ (same_dir_flat _ _) H H').
  - unfold rest. apply Permutation_trans with (l' := or_def "card" card1 :: [GInclude (lt "lib.rnc") None (Some (map as_override ov)); def "start" (ref "book")] ++ or_def "card" leaf :: [GDiv [def "note" (tag "note" SText)]; def "book" book]);
      [apply (Permutation_sym (Permutation_middle [_; _] _ _))|]. constructor. apply (Permutation_sym (Permutation_middle [_; _] _ _)).
  - apply (Permutation_sym (Permutation_middle [_; _] _ _)).
  - split; [left; reflexivity | discriminate].
Qed.
(** what compiles is combinable; what is not is refused by the merge of the rules *)
Theorem C29_combinable_partial : forall O C fs, files_ok fs -> forall d name r st, compile_grammar O C fs d name = fok (r, st) ->
  forall g n, file_grammar fs name g -> combinable (map d_how (defs_named n g)).
Proof. exact compiled_combinable. Qed.
Print Assumptions C29_combinable_partial.
Theorem C29_merge : forall n hx, ((exists o, SourceTr.merge_all n None (map SourceTr.hrule hx) = fok o) <-> combinable (map fst hx)) /\
  (~ combinable (map fst hx) -> SourceTr.merge_all n None (map SourceTr.hrule hx) = ferr (EDuplicateDefinition n) \/ SourceTr.merge_all n None (map SourceTr.hrule hx) = ferr EMixesChoiceAndInterleave).
Proof. exact merge_iff. Qed.
Example C29_instance : combinable [MChoiceC; MAssign; MChoiceC] /\ ~ combinable [MAssign; MAssign] /\ ~ combinable [MChoiceC; MInterleaveC].
Proof. repeat split; cbn; intuition (try lia; try discriminate). - destruct H as [H _]. cbn in H. lia. - destruct H as [_ H]. cbn in H. intuition. Qed.

(** ** C30: every name reachable from the start is defined. *)
Theorem C30_references_defined_partial : forall O C fs, files_ok fs -> forall d name r st, compile_grammar O C fs d name = fok (r, st) ->
  forall G n, Reached fs name G n -> exists g G', G = g :: G' /\ defs_named n g <> [].
Proof. exact references_defined. Qed.
Print Assumptions C30_references_defined_partial.
Example C30_instance (O : oracles) (C : coracles) : exists g, file_grammar ex_files (P "main.rnc") g /\ Reached ex_files (P "main.rnc") [g] (lit "book") /\ defs_named (lit "book") g <> [].
Proof.
  assert (K : exists g, file_grammar ex_files (P "main.rnc") g /\ In (SDef (lit "start") MAssign (FEnv (P "main.rnc") u_decl []) (ref "book")) (defs_named (lit "start") g)).
  { eexists. split.
    - eapply Fg_grammar; [reflexivity|]. eapply Ex_include; [reflexivity | reflexivity | constructor | apply Dn_inherited; intros p u [E|[]]; discriminate E | repeat constructor | intros x [<-|[]]; left; reflexivity |].
      apply Ex_define. apply Ex_define. apply Ex_define. apply Ex_div; repeat constructor.
    - vm_compute. auto. }
  destruct K as (g & Hg & Hd). exists g. split; [exact Hg|]. assert (HR : Reached ex_files (P "main.rnc") [g] (lit "book")) by (eapply Re_step; [apply Re_start; exact Hg | exact Hd | constructor]).
  split; [exact HR|]. destruct (C30_references_defined_partial O C ex_files ex_files_ok _ _ _ _ (main_compiles O C) _ _ HR) as (g1 & G1 & E & HN). injection E as <- _. exact HN.
Qed.

(** a name used only in an external pattern, and not defined *)
Definition lost : filesys := files [(P "a.rnc", Schema [] (TGrammar [def "start" (tag "a" (SExternal (lt "p.rnc") None))])); (P "p.rnc", Schema [] (TPattern (SOptional (tag "b" (ref "lost")))))].
Example C30_external_instance O C d r st : compile_grammar O C lost d (P "a.rnc") <> fok (r, st).
Proof.
  intros H. assert (Hok : files_ok lost).
  { apply files_are_ok. change (files _) with lost. constructor; [|constructor; [|constructor]]; (split; [exact no_decls|]); cbn - [lost]; repeat split.
    intros g s Hr Hs; injection Hr as <-; injection Hs as <-; cbn; intros p l []. }
  destruct (C30_references_defined_partial O C lost Hok d _ r st H [[SDef (lit "start") MAssign (FEnv (P "a.rnc") [] []) (tag "a" (SExternal (lt "p.rnc") None))]] (lit "lost")) as (g & G' & E & HN).
  - assert (Hg : file_grammar lost (P "a.rnc") [SDef (lit "start") MAssign (FEnv (P "a.rnc") [] []) (tag "a" (SExternal (lt "p.rnc") None))]) by (eapply Fg_grammar; [reflexivity|]; repeat constructor).
    eapply Re_step; [apply Re_start; exact Hg | left; reflexivity|]. cbn [d_env d_body]. eapply Rf_child; [constructor|].
    eapply Rf_external.
    + eapply (External_file lost _ _ _ (P "p.rnc")); [reflexivity | reflexivity | apply Dn_inherited; intros p u []].
    + cbn. eapply Rf_child; [constructor|]. eapply Rf_child; [constructor|]. apply Rf_ident.
  - injection E as <- _. apply HN. reflexivity.
Qed.

(** ** C31: a definition that refers to itself outside an element is refused.
    Missing: recursion through other definitions ([C31_refuted]). *)
Theorem C31_self_reference_partial : forall O C fs d name r st, compile_grammar O C fs d name = fok (r, st) ->
  forall m f s, Chain fs m name f -> fs f = inl s -> forall n p, file_defines n p s -> ~ bare_ref n p.
Proof. exact no_self_reference. Qed.
Print Assumptions C31_self_reference_partial.
Example C31_instance O C : exists e, compile_grammar O C (files [(P "a.rnc", Schema [] (TGrammar [def "start" (tag "r" (ref "a")); def "a" (SOptional (ref "a"))]))]) 5 (P "a.rnc") = ferr e.
Proof. eexists. vm_compute. reflexivity. Qed.

(** ** C32: overriding definitions replace those of the included file; an override of nothing is an error. *)
Theorem C32_replace_partial : forall O C fs, files_ok fs -> forall main flat h f ds ov inner rest d d' r r' st st',
  fs main = inl (Schema ds (TGrammar (GInclude h None (Some (map as_override ov)) :: rest))) ->
  resolve main (lit_value h) = Some f -> fs f = inl (Schema ds (TGrammar (map as_content inner))) ->
  fs flat = inl (Schema ds (TGrammar (map as_content ov ++ map as_content (kept ov inner) ++ rest))) ->
  same_dir main f -> same_dir main flat ->
  compile_grammar O C fs d main = fok (r, st) -> compile_grammar O C fs d' flat = fok (r', st') ->
  forall root, rng_valid O (cell_defs st) (start_of r st) root <-> rng_valid O (cell_defs st') (start_of r' st') root.
Proof. exact overrides_replace. Qed.
Print Assumptions C32_replace_partial.
Example C32_instance O C : exists r st r' st', compile_grammar O C ex_files 5 (P "main.rnc") = fok (r, st) /\ compile_grammar O C ex_files 5 (P "flat.rnc") = fok (r', st') /\
  forall root, rng_valid O (cell_defs st) (start_of r st) root <-> rng_valid O (cell_defs st') (start_of r' st') root.
Proof.
  destruct (all_compile O C "main.rnc"%string ltac:(cbn; auto)) as (r & st & H). destruct (all_compile O C "flat.rnc"%string ltac:(cbn; auto)) as (r' & st' & H').
  exists r, st, r', st'. split; [exact H|]. split; [exact H'|].
  exact (C32_replace_partial O C ex_files ex_files_ok (P "main.rnc") (P "flat.rnc") (lt "lib.rnc") (P "lib.rnc") u_decl ov lib_defs rest _ _ _ _ _ _ eq_refl eq_refl eq_refl eq_refl (same_dir_flat _ _) (same_dir_flat _ _) H H').
Qed.
Theorem C32_override_defined_partial : forall O C fs, files_ok fs -> forall main ds l h ov f s c d r st,
  fs main = inl (Schema ds (TGrammar l)) -> In (GInclude h None (Some ov)) l ->
  resolve main (lit_value h) = Some f -> fs f = inl s -> file_contents s c ->
  compile_grammar O C fs d main = fok (r, st) ->
  exists inner, Expand fs (FEnv f (s_decls s) []) c inner /\ forall n how p, In (IDefine n how p) ov -> In n (names_of inner).
Proof. exact overridden_is_defined. Qed.
Print Assumptions C32_override_defined_partial.
Example C32_missing_instance O C : compile_grammar O C (files [(P "a.rnc", Schema [] (TGrammar [GInclude (lt "b.rnc") None (Some [IDefine (lit "x") MAssign SEmpty]); def "start" (tag "r" SEmpty)]));
  (P "b.rnc", Schema [] (TGrammar [def "y" SEmpty]))]) 5 (P "a.rnc") = ferr (EOverrideMissingFromInclude (lit "x")).
Proof. vm_compute. reflexivity. Qed.

(** ** C33: a cycle of includes is never accepted, and compilation ends.
    Missing for the second: [external] ([C42_external_loop_refuted]), and file names that grow ([C33_names_refuted]). *)
Theorem C33_no_cycle : forall O C fs d name r st, compile_grammar O C fs d name = fok (r, st) ->
  forall m f, Chain fs m name f -> forall k, ~ Chain fs (S k) f f.
Proof. exact no_cycle. Qed.
Print Assumptions C33_no_cycle.
Theorem C33_terminates_partial : forall O C fs L name, (forall f s, In f L -> fs f = inl s -> ~ file_external s) ->
  (forall f f', In f L -> Reads fs f f' -> In f' L) -> In name L ->
  exists r, r <> OutOfFuel /\ settles (fun d => compile_grammar O C fs d name) r.
Proof. exact compile_terminates. Qed.
Print Assumptions C33_terminates_partial.
(** three files in a circle *)
Definition ring : filesys := files [
  (P "a.rnc", Schema [] (TGrammar [GInclude (lt "b.rnc") None None; def "start" (tag "r" SEmpty)]));
  (P "b.rnc", Schema [] (TGrammar [GDiv [GInclude (lt "c.rnc") None None]]));
  (P "c.rnc", Schema [] (TGrammar [GInclude (lt "a.rnc") None None]))].
Example C33_instance O C : Chain ring 3 (P "a.rnc") (P "a.rnc") /\ exists e, compile_grammar O C ring 5 (P "a.rnc") = ferr e.
Proof.
  split; [|eexists; vm_compute; reflexivity].
  apply Chain_S with (P "b.rnc"); [eexists _, _; split; [reflexivity|]; split; [eapply If_grammar; [left; reflexivity | constructor] | reflexivity]|].
  apply Chain_S with (P "c.rnc"); [eexists _, _; split; [reflexivity|]; split; [eapply If_grammar; [left; reflexivity | eapply Hi_div; [left; reflexivity | constructor]] | reflexivity]|].
  apply Chain_S with (P "a.rnc"); [eexists _, _; split; [reflexivity|]; split; [eapply If_grammar; [left; reflexivity | constructor] | reflexivity] | constructor].
Qed.

(** ** C57: a schema with an element inside an attribute is refused, wherever in the files read it is written.
    Missing: an element that is reached through a name or a nested grammar, and the other prohibited paths ([C57_prohibited_refuted], [C57_reference_refuted]). *)
Theorem C57_no_element_in_attribute_partial : forall O C fs d name r st, compile_grammar O C fs d name = fok (r, st) ->
  forall m f s, Chain fs m name f -> fs f = inl s -> forall nc p, file_occurs (SAttribute nc p) s -> forall nc' x, ~ part (SElement nc' x) p.
Proof. exact no_element_in_attribute. Qed.
Print Assumptions C57_no_element_in_attribute_partial.
(** the attribute is in an overriding definition, the element in a choice *)
Definition deep_attr : filesys := files [
  (P "a.rnc", Schema [] (TGrammar [GInclude (lt "b.rnc") None None; def "start" (tag "r" (ref "x"))]));
  (P "b.rnc", Schema [] (TGrammar [GInclude (lt "c.rnc") None (Some [IDefine (lit "x") MAssign (SOptional (SAttribute (id "a") (SChoicePair SText (tag "e" SEmpty))))])]));
  (P "c.rnc", Schema [] (TGrammar [def "x" SEmpty]))].
Example C57_instance O C d r st : compile_grammar O C deep_attr d (P "a.rnc") <> fok (r, st).
Proof.
  intros H. eapply (C57_no_element_in_attribute_partial O C deep_attr d _ r st H 1 (P "b.rnc") _ (Chain_S _ 0 (P "a.rnc") (P "b.rnc") (P "b.rnc") _ (Chain_0 _ _)) eq_refl).
  - eapply Fo_grammar; [left; reflexivity|]. eapply Oc_override; [left; reflexivity|]. eapply Oi_child; [constructor|]. apply Oi_here.
  - eapply Pt_child; [apply Ch_choice_r | apply Pt_here].
  Unshelve. eexists _, _. split; [reflexivity|]. split; [eapply If_grammar; [left; reflexivity | constructor] | reflexivity].
Qed.
Example C57_error O C : compile_grammar O C deep_attr 5 (P "a.rnc") = ferr (EInclude (EInclude EElementAsChildOfAttribute)).
Proof. vm_compute. reflexivity. Qed.

(** ** C59: a schema that keeps the rules ([correct], SchemaGood.v) compiles, and the result has its meaning.
    Missing: the features of [files_ok], and the rules in [correct] which RELAX NG does not have; each has a
    counterexample in RefutedSchema.v. *)
Theorem C59_correct_compiles_partial : forall O C fs, files_ok fs -> forall name, correct O C fs name ->
  exists r st, settles (fun d => compile_grammar O C fs d name) (fok (r, st)).
Proof. exact correct_compiles. Qed.
Print Assumptions C59_correct_compiles_partial.
(** what the compiler answers otherwise is a reason: the schema breaks a rule *)
Theorem C59_refused_partial : forall O C fs, files_ok fs -> forall name d r, compile_grammar O C fs d name = r -> r <> OutOfFuel ->
  (forall x, r <> fok x) -> ~ correct O C fs name.
Proof. exact refused_incorrect. Qed.
Print Assumptions C59_refused_partial.
Theorem C59_correct_meaning_partial : forall O C fs, files_ok fs -> forall name, correct O C fs name ->
  exists r st, settles (fun d => compile_grammar O C fs d name) (fok (r, st)) /\
    forall root, rng_valid O (cell_defs st) (start_of r st) root <-> schema_valid fs O C name root.
Proof. exact correct_means. Qed.
Print Assumptions C59_correct_meaning_partial.
(** main.rnc: an include with an override, combined definitions, a nested grammar using [parent] *)
Example C59_instance O C : correct O C ex_files (P "main.rnc") /\ files_ok ex_files.
Proof. split; [apply main_correct | exact ex_files_ok]. Qed.
(** x.rnc: an external pattern which uses a name of the file that names it, an external pattern in an attribute, and an external
    bare grammar *)
Example C59_external_instance O C : correct O C x_files (P "x.rnc") /\ files_ok x_files.
Proof. split; [apply x_correct | exact x_files_ok]. Qed.
