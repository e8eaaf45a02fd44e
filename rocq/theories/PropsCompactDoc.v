(** * PropsCompactDoc: from the texts of the schema files to the verdict (C34 with C28 and C01). *)
From Coq Require Import String.
From Verif Require Import Base Datatype Syntax Facets Store Deriv Lang Compile SchemaCompile Spec SourceSpec SourceScope SchemaSpec SchemaMain SchemaDoc SchemaExamples.
From Verif Require Import Main Infoset Scope Doc Verdicts Examples CompactText CompactPrint CompactMain CompactDoc.

(** reading files of texts is reading the schemas they denote *)
Theorem C34_files : forall t fs, (forall f, match t f with Some s => exists x, fs f = inl x /\ Text x s | None => fs f = inr 0 end) -> forall f, text_files t f = fs f.
Proof. exact texts_are_files. Qed.
(** a document accepted by the validator built from schema texts is described by those schemas *)
Theorem C34_texts_to_verdict_partial : forall O C t, (forall f s, t f = Some s -> exists x, Text x s /\ schema_ok (text_files t) f x) -> forall d name r st,
  compile_grammar O C (text_files t) d name = fok (r, st) -> rng_schema (cell_defs st) (start_of r st) -> in_limits (cell_defs st) (start_of r st) ->
  forall x root, doc_fits (cell_defs st) (start_of r st) x -> Document x root -> plain_for (cell_defs st) (start_of r st) root ->
  accepts O (cell_defs st) (start_of r st) (doc_tokens x) -> schema_valid (text_files t) O C name root.
Proof. exact text_meaning. Qed.
Print Assumptions C34_texts_to_verdict_partial.
Example C34_files_instance : (forall f s, ex_texts f = Some s -> exists x, Text x s /\ schema_ok (text_files ex_texts) f x) /\ forall O C, exists r st, compile_grammar O C (text_files ex_texts) 5 (P "main.rnc") = fok (r, st).
Proof. exact (conj ex_texts_ok ex_texts_compile). Qed.
