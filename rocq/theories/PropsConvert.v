(** * PropsConvert: the two syntaxes (C82). *)
From Coq Require Import String.
From Verif Require Import Base Datatype Facets DatatypeSpec DatatypeProof2 Store Compile Syntax SchemaCompile SchemaExamples XmlSyntax Convert ConvertRead ConvertCompile.

(** ** C82: the syntax a schema is written in does not matter.  Every file of a schema is written in the XML syntax and read
    back; the two schemas compile to the same, or fail alike.  Missing: what [convertible] excludes, see the refutations. *)
Theorem C82_same_compiled_partial : forall U O C fs, convertible U fs -> forall d name, compile_grammar O C (in_xml U fs) d name = compile_grammar O C fs d name.
Proof. intros U O C fs H d name. exact (same_compiled U O C fs d name H). Qed.
(** every such file can be read back *)
Theorem C82_read_partial : forall U Ext s, fit_schema U Ext s -> exists t, parse U (to_xml s) = Some t.
Proof. intros U Ext s H. exact (ex_intro _ _ (read_schema U Ext s H)). Qed.

(** names, types, name classes, includes with overriding definitions *)
Definition some_decls : list decl := [DNamespace (lit "p") (UUri (lt "u")); DDatatypes (lit "d") (lt "http://www.w3.org/2001/XMLSchema-datatypes")].
Definition mixed_files : filesys := files [
  (P "a.rnc", Schema some_decls (TGrammar [GInclude (lt "b.rnc") None (Some [IDefine (lit "x") MAssign (tag "y" (SData (SdC (lit "d") (lit "short")) (Some [(None, IKId (lit "minInclusive"), lt "3")]) (Some (SValue None (lt "4")))))]);
     def "start" (SElement (CName (NmC (lit "p") (lit "r"))) (SListPair (SOneOrMore (SAttribute (CAlt (CNs (NsPrefix (lit "p")) (Some (id "no"))) (CAny (Some (id "z")))) SText)) (SInterleavePair (ref "x") SEmpty)));
     GAnnotation (Annot (NmId (IKId (lit "doc"))) [] []); GDiv [or_def "w" (SChoicePair (SList (SData SdString None None)) (SValue (Some SdToken) (lt "")))]]));
  (P "b.rnc", Schema [DNamespace (lit "p") (UUri (lt "v"))] (TGrammar [def "x" (SElement (CName (NmC (lit "p") (lit "q"))) SEmpty)]))].
Lemma a_name s : is_valid_ncname s && negb (existsb (N.eqb 5760) s) = true -> xml_name s.
Proof.
  intros H. apply andb_prop in H as [H1 H2]. split; [apply ncname_spec; exact H1|]. intros Hi. apply negb_true_iff in H2. assert (existsb (N.eqb 5760) s = true); [|congruence].
  apply existsb_exists. exists 5760%N. split; [exact Hi | reflexivity].
Qed.
Ltac fits := repeat match goal with
  | |- xml_name _ => apply a_name; vm_compute; reflexivity
  | |- _ /\ _ => split
  | |- True => exact I
  | |- _ <> _ => discriminate
  | |- ?a = ?a => reflexivity
  | |- [] = [] \/ _ => left; reflexivity
  | |- _ \/ ?u _ = true => right; assumption
  | |- Forall _ [] => constructor
  | |- Forall _ (_ :: _) => constructor
  | |- NoDup [] => constructor
  | |- NoDup (_ :: _) => constructor
  | |- ~ In _ _ => cbn; intuition discriminate
  | |- ~ (_ /\ _) => let K := fresh in intros [K ?]; first [discriminate K | congruence]
  | |- forall l, _ <> SGrammar l => discriminate
  | |- _ => progress cbn [fit_schema s_decls s_top fit_decls fit_pat fit_con fit_inc fit_nc fit_name fit_param fit_type type_of all fold_right map fst snd e_lib e_ns env_of flat_map decl_lib decl_ns app default_of uri_of params_of ik_string lib_of or_nothing some_decls tag id ref def or_def lt]
  | |- _ => progress cbv beta iota
  | |- _ => progress unfold fit_schema, fit_decls, fit_type, fit_param, in_list, tag, id, ref, def, or_def
  end.
Example C82_instance U : U xsd_lib = true -> convertible U mixed_files.
Proof.
  intros HU f s E. apply files_in in E. cbn [In] in E. destruct E as [E|[E|[]]]; apply (f_equal snd) in E; cbn [snd] in E; subst s.
  all: fits.
  repeat constructor; discriminate.
Qed.
Definition some_oracles : oracles := Build_oracles (fun _ _ => false) (fun c => (48 <=? c)%N && (c <=? 57)%N) (fun _ => false) (fun _ => false) (fun _ => false) (fun _ => None).
Example C82_instance_compiles C : exists r st, compile_grammar some_oracles C mixed_files 2 (P "a.rnc") = Ok (inl (r, st)) /\ loaded st = [P "a.rnc"; P "b.rnc"].
Proof. eexists _, _. split; vm_compute; reflexivity. Qed.
(** external *)
Definition external_files : filesys := files [(P "a.rnc", Schema [] (TPattern (tag "r" (SExternal (lt "b.rnc") None)))); (P "b.rnc", Schema [] (TGrammar [def "start" (tag "s" SEmpty)]))].
Example C82_external_instance U : convertible U external_files.
Proof.
  assert (H : forall f s, external_files f = inl s -> s_decls s = []).
  { intros f s E. apply files_in in E. cbn [In] in E. destruct E as [E|[E|[]]]; apply (f_equal snd) in E; cbn [snd] in E; subst s; reflexivity. }
  intros f s E. apply files_in in E. cbn [In] in E. destruct E as [E|[E|[]]]; apply (f_equal snd) in E; cbn [snd] in E; subst s; fits.
  intros g g' s' _. apply H.
Qed.

(** what is excluded.  A default namespace (the compiler forgets it, C41) *)
Theorem C82_default_refuted : forall O C U, let fs := files [(P "a.rnc", Schema [DDefault None (UUri (lt "u"))] (TPattern (tag "r" SEmpty)))] in
  compile_grammar O C (in_xml U fs) 1 (P "a.rnc") <> compile_grammar O C fs 1 (P "a.rnc").
Proof. intros O C U fs H. vm_compute in H. discriminate H. Qed.
(** the type token of another library is taken for the built-in one *)
Theorem C82_token_refuted : forall C, let U := fun _ => true in let fs := files [(P "a.rnc", Schema [] (TPattern (tag "r" (SData (SdC (lit "xsd") (lit "token")) None None))))] in
  compile_grammar some_oracles C (in_xml U fs) 1 (P "a.rnc") <> compile_grammar some_oracles C fs 1 (P "a.rnc").
Proof. intros C U fs H. vm_compute in H. discriminate H. Qed.
(** the declarations of a file referred to by external (they are forgotten, C42) *)
Theorem C82_external_refuted : forall O C U, let fs := files [(P "a.rnc", Schema [] (TPattern (tag "r" (SExternal (lt "b.rnc") None)))); (P "b.rnc", Schema u_decl (TPattern (SElement (CName (NmC (lit "u") (lit "s"))) SEmpty)))] in
  compile_grammar O C (in_xml U fs) 2 (P "a.rnc") <> compile_grammar O C fs 2 (P "a.rnc").
Proof. intros O C U fs H. vm_compute in H. discriminate H. Qed.
(** a prefix in an overriding definition (C44) *)
Theorem C82_override_refuted : forall O C U, let fs := files [(P "a.rnc", Schema u_decl (TGrammar [GInclude (lt "b.rnc") None (Some [IDefine (lit "start") MAssign (SElement (CName (NmC (lit "u") (lit "s"))) SEmpty)])]));
    (P "b.rnc", Schema [] (TGrammar [def "start" (tag "r" SEmpty)]))] in
  compile_grammar O C (in_xml U fs) 2 (P "a.rnc") <> compile_grammar O C fs 2 (P "a.rnc").
Proof. intros O C U fs H. vm_compute in H. discriminate H. Qed.
(** a name that begins with U+1680, the empty parameter: not read back *)
Theorem C82_names_refuted : forall U, NCName [5760%N; 97%N] /\ parse U (to_xml (Schema [] (TPattern (SIdent [5760%N; 97%N])))) = Some (Schema [] (TPattern (SIdent [97%N]))).
Proof. intros U. split; [apply ncname_spec; vm_compute; reflexivity | vm_compute; reflexivity]. Qed.
Theorem C82_param_refuted : forall U, U xsd_lib = true -> parse U (to_xml (Schema [] (TPattern (SData (SdC (lit "xsd") (lit "string")) (Some [(None, IKId (lit "pattern"), lt "")]) None)))) = None.
Proof. intros U HU. vm_compute in HU |- *. rewrite ?HU. reflexivity. Qed.

Print Assumptions C82_same_compiled_partial.
Print Assumptions C82_read_partial.
Print Assumptions C82_default_refuted.
Print Assumptions C82_token_refuted.
Print Assumptions C82_external_refuted.
Print Assumptions C82_override_refuted.
Print Assumptions C82_names_refuted.
Print Assumptions C82_param_refuted.
