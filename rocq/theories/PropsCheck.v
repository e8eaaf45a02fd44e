(** * PropsCheck: what is reported wherever it is written in the files read (C69-C72).  No condition on the schema files. *)
From Coq Require Import String.
From Verif Require Import Base Datatype Facets Store Lang Compile Syntax SchemaCompile SourceSpec SchemaSpec SchemaOrder SchemaMain SchemaDoc SchemaCheck SchemaExamples.

(** ** C69: datatypes and their parameters.  [dt_names fs name n d]: the datatype written [n] is [d]; a prefix is [xsd] or declared in a file that is read *)
Theorem C69_data_checked : forall O C fs d name r st, compile_grammar O C fs d name = fok (r, st) ->
  forall m f s, Chain fs m name f -> fs f = inl s -> forall n ps ex, file_occurs (SData n ps ex) s ->
  exists dn x, dt_names fs name n dn /\ Facets.datatype_name O C dn (values_of ps) = Ok (inl x).
Proof. intros O C fs d name r st H m f s Hm Hf n ps ex. exact (all_checked O C fs name d r st H m f s Hm Hf (SData n ps ex)). Qed.
Print Assumptions C69_data_checked.
Theorem C69_value_checked : forall O C fs d name r st, compile_grammar O C fs d name = fok (r, st) ->
  forall m f s, Chain fs m name f -> fs f = inl s -> forall n v, file_occurs (SValue n v) s ->
  exists dn x, dt_names fs name (match n with Some n => n | None => SdToken end) dn /\ Facets.datatype_value dn (lit_value v) = Ok (inl x).
Proof. intros O C fs d name r st H m f s Hm Hf n v. exact (all_checked O C fs name d r st H m f s Hm Hf (SValue n v)). Qed.
Print Assumptions C69_value_checked.
(** the override in main.rnc *)
Example C69_instance O C : exists r st, compile_grammar O C ex_files 5 (P "main.rnc") = fok (r, st) /\ file_occurs word main_rnc.
Proof.
  eexists _, _. split; [exact (main_compiles O C)|]. eapply Fo_grammar; [left; reflexivity|]. eapply Oc_override; [left; reflexivity|]. eapply Oi_child; [constructor | apply Oi_here].
Qed.
Definition bad_word : spat := SData (SdC (lit "xsd") (lit "NoName")) None None.
Example C69_instance_bad O C : ~ (exists d r st, compile_grammar O C (files [(P "a.rnc", Schema [] (TGrammar [def "start" (tag "r" SEmpty); GDiv [def "unused" (tag "x" bad_word)]]))]) d (P "a.rnc") = fok (r, st)).
Proof.
  intros (d & r & st & H). destruct (C69_data_checked _ _ _ _ _ _ _ H 0 (P "a.rnc") _ (Chain_0 _ _) eq_refl (SdC (lit "xsd") (lit "NoName")) None None) as (dn & x & (u & Hu & ->) & E).
  - eapply Fo_grammar; [right; left; reflexivity|]. eapply Oc_div; [left; reflexivity|]. apply Oc_define. eapply Oi_child; [constructor | apply Oi_here].
  - destruct Hu as (g & s & [(m & Hm) Hs] & Hb). apply files_in in Hs. destruct Hs as [[= <- <-]|[]]. cbn [s_decls] in Hb. remember (lit "xsd") as q eqn:Eq. destruct Hb as [|? ? []]. discriminate E.
Qed.

(** ** C70: namespace prefixes.  [ns_known fs name ds p]: [p] is [xml], declared by [ds], or named by an [inherit] in a file that is read *)
Theorem C70_prefixes_declared : forall O C fs d name r st, compile_grammar O C fs d name = fok (r, st) ->
  forall m f s, Chain fs m name f -> fs f = inl s -> forall nc q p, file_occurs (SElement nc q) s \/ file_occurs (SAttribute nc q) s -> uses_prefix p nc ->
  ns_known fs name (s_decls s) p.
Proof.
  intros O C fs d name r st H m f s Hm Hf nc q p [Ho|Ho] Hp; [exact (all_checked O C fs name d r st H m f s Hm Hf (SElement nc q) Ho p Hp) | exact (all_checked O C fs name d r st H m f s Hm Hf (SAttribute nc q) Ho p Hp)].
Qed.
Print Assumptions C70_prefixes_declared.
Example C70_instance O C : exists r st, compile_grammar O C ex_files 5 (P "main.rnc") = fok (r, st) /\ file_occurs book main_rnc /\ uses_prefix (lit "u") (CName (NmC (lit "u") (lit "book"))).
Proof.
  eexists _, _. split; [exact (main_compiles O C)|]. split; [|reflexivity]. eapply Fo_grammar; [do 5 right; left; reflexivity|]. apply Oc_define, Oi_here.
Qed.
(** an undeclared prefix, in a file without includes *)
Example C70_instance_bad O C : ~ (exists d r st, compile_grammar O C (files [(P "a.rnc", Schema [] (TGrammar [def "start" (tag "r" SEmpty); def "unused" (SAttribute (CAny (Some (CNs (NsPrefix (lit "u")) None))) SText)]))]) d (P "a.rnc") = fok (r, st)).
Proof.
  intros (d & r & st & H). edestruct (C70_prefixes_declared _ _ _ _ _ _ _ H 0 (P "a.rnc") _ (Chain_0 _ _) eq_refl (CAny (Some (CNs (NsPrefix (lit "u")) None))) SText (lit "u")) as [[u Hu]|(g & s & [_ Hs] & Hh)].
  - right. eapply Fo_grammar; [right; left; reflexivity|]. apply Oc_define, Oi_here.
  - cbn. left. reflexivity.
  - cbn [s_decls] in Hu. remember (lit "u") as q eqn:Eq. destruct Hu as [|? ? []|? ? []]. discriminate Eq.
  - apply files_in in Hs. destruct Hs as [[= <- <-]|[]]. inversion Hh as [? ? g Hin Hg|]; subst. destruct Hin as [<-|[<-|[]]]; inversion Hg as [| |? ? ? Hq|]; subst; inversion Hq as [? ? Hc Hk|]; subst; inversion Hc; subst; inversion Hk as [? ? Hc' ?|]; subst; inversion Hc'.
Qed.

(** ** C71: [parent] outside of a nested grammar.  [Outer fs name f]: [f] is [name], or included outside of nested grammars *)
Theorem C71_parent_reported : forall O C fs name d r st, compile_grammar O C fs d name = fok (r, st) ->
  forall f, Outer fs name f -> forall s l, fs f = inl s -> (f = name -> exists ds, s = Schema ds (TGrammar l)) -> file_contents s l -> forall g, In g l -> ~ top_parent g.
Proof. exact no_outer_parent. Qed.
Print Assumptions C71_parent_reported.
Theorem C71_root_parent_reported : forall O C fs name d r st ds p i, compile_grammar O C fs d name = fok (r, st) -> fs name = inl (Schema ds (TPattern p)) -> ~ part (SParent i) p.
Proof. exact no_root_parent. Qed.
Example C71_instance O C : exists r st, compile_grammar O C ex_files 5 (P "main.rnc") = fok (r, st) /\ Outer ex_files (P "main.rnc") (P "lib.rnc").
Proof.
  eexists _, _. split; [exact (main_compiles O C)|].
  eapply Ou_include with (g := GInclude (lt "lib.rnc") None (Some (map as_override ov))); [apply Ou_root | reflexivity | intros _; eexists; reflexivity | constructor | left; reflexivity | constructor | reflexivity].
Qed.

(** ** C72: includes.  The file an include names exists, can be read, and is a grammar *)
Theorem C72_included_exist : forall O C fs name d r st, compile_grammar O C fs d name = fok (r, st) -> forall m f s h, Chain fs m name f -> fs f = inl s -> in_file h s ->
  exists f' s' l, resolve f (lit_value h) = Some f' /\ fs f' = inl s' /\ file_contents s' l.
Proof. exact all_exist. Qed.
Print Assumptions C72_included_exist.
Example C72_instance O C : exists r st, compile_grammar O C ex_files 5 (P "main.rnc") = fok (r, st) /\ in_file (lt "lib.rnc") main_rnc.
Proof. eexists _, _. split; [exact (main_compiles O C)|]. eapply If_grammar; [left; reflexivity | constructor]. Qed.
