(** * PropsXml: the XML syntax of schemas (C50-C54). *)
From Coq Require Import String.
From Verif Require Import Base Datatype DatatypeSpec Facets Syntax Store Deriv Lang Compile SchemaCompile Spec SourceSpec SourceScope SchemaSpec SchemaMain SchemaDoc SchemaExamples.
From Verif Require Import Main Infoset Scope Doc Verdicts Examples.
From Verif Require Import XmlSyntax RngXml XmlScope XmlBase XmlProof XmlCheck XmlAnnot XmlDoc XmlRefuse XmlExamples.

(** ** C50: a document is read as the schema it stands for, and refused if it stands for none *)
Theorem C50_parse_partial : forall U X s, XScope U X -> (parse U X = Some s <-> Stands U X s).
Proof. exact parse_ok. Qed.
Print Assumptions C50_parse_partial.
(** it stands for at most one schema *)
Theorem C50_unique_partial : forall U X s s', XScope U X -> Stands U X s -> Stands U X s' -> s = s'.
Proof. exact stands_unique. Qed.
(** the conditions can be tested *)
Theorem C50_scope_tested : forall U X, check U [] X = true -> XScope U X.
Proof. exact check_ok. Qed.
(** reading files is reading the schemas they stand for *)
Theorem C50_files_partial : forall U t fs, xml_ok U t -> (forall f, match t f with Some X => exists s, fs f = inl s /\ Stands U X s | None => fs f = inr 0 end) -> forall f, xml_files U t f = fs f.
Proof. exact xml_are_files. Qed.
(** a document accepted by the validator built from schema files in the XML syntax is described by those schemas *)
Theorem C50_files_to_verdict_partial : forall U O C t, xml_ok U t -> forall d name r st,
  compile_grammar O C (xml_files U t) d name = fok (r, st) -> rng_schema (cell_defs st) (start_of r st) -> in_limits (cell_defs st) (start_of r st) ->
  forall x root, doc_fits (cell_defs st) (start_of r st) x -> Document x root -> plain_for (cell_defs st) (start_of r st) root ->
  accepts O (cell_defs st) (start_of r st) (doc_tokens x) -> schema_valid (xml_files U t) O C name root.
Proof. exact xml_meaning. Qed.
Print Assumptions C50_files_to_verdict_partial.
Example C50_instance : XScope any_uri main_rng /\ parse any_uri main_rng = Some main_schema /\ Stands any_uri main_rng main_schema.
Proof. exact (conj main_scope (conj main_parsed main_stands)). Qed.
Example C50_instance_refused : XScope any_uri (El s0 "group" [] []) /\ parse any_uri (El s0 "group" [] []) = None /\ forall s, ~ Stands any_uri (El s0 "group" [] []) s.
Proof. exact ex_refused. Qed.
Example C50_files_instance : xml_ok any_uri ex_xml /\ forall O C, exists r st, compile_grammar O C (xml_files any_uri ex_xml) 5 (P "main.rng") = fok (r, st).
Proof. exact (conj ex_xml_ok ex_xml_compile). Qed.
(** with <externalRef> *)
Example C50_external_instance : xml_ok any_uri ext_xml /\ forall O C, exists r st, compile_grammar O C (xml_files any_uri ext_xml) 5 (P "ext.rng") = fok (r, st).
Proof. exact (conj ext_xml_ok ext_xml_compile). Qed.

(** ** C51: annotations and the order of attributes do not matter, outside <name>, <value>, <param> *)
Theorem C51_annotations_partial : forall U X Y s, Alike MorePrefixes X Y -> parse U X = Some s -> parse U Y = Some s.
Proof. exact annotations_kept. Qed.
Theorem C51_same_partial : forall U X Y, Alike SamePrefixes X Y -> parse U X = parse U Y.
Proof. exact annotations_same. Qed.
Print Assumptions C51_same_partial.
Example C51_instance : Alike MorePrefixes plain_rng main_rng /\ parse any_uri plain_rng = Some main_schema.
Proof. exact ex_alike. Qed.

(** ** C52: the file an href names, with xml:base *)
Theorem C52_base_partial : forall up href r, Forall distinct up -> bases_clean up -> href <> [] -> (rebase_path up href = r <-> Resolved up href r).
Proof. exact rebase_ok. Qed.
Print Assumptions C52_base_partial.
Example C52_instance : Forall distinct ex_bases /\ bases_clean ex_bases /\ rebase_path ex_bases (lit "a.rng") = lit "dir/sub/a.rng" /\ Resolved ex_bases (lit "a.rng") (lit "dir/sub/a.rng").
Proof. exact ex_base. Qed.

(** ** C53: documents with foreign structure are refused; no condition on the document *)
Theorem C53_accepted_proper : forall U X s, parse U X = Some s -> forall nm atts sc kids, Seen X (XElt (Some rng_uri) nm atts sc kids) -> Proper nm atts kids.
Proof. exact accepted_proper. Qed.
Print Assumptions C53_accepted_proper.
Example C53_instance : parse any_uri main_rng = Some main_schema /\ Seen main_rng (El s1 "param" [A "name" "maxLength"] [T "9"]).
Proof. exact ex_seen. Qed.
