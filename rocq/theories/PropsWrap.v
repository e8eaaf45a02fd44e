(** * PropsWrap: a file that is one pattern [grammar { ... }] (C82).  Only statements.

    At the top of SchemaWrap.v: [unwrapped fs], the files with [grammar { l }] replaced by the contents [l]
    where it is the whole of a file: the form such a schema has in the XML syntax. *)
From Coq Require Import String.
From Verif Require Import Base Datatype Facets Store Lang Compile Syntax SchemaCompile Spec SourceSpec SourceScope SchemaMain SchemaExamples RefutedSchema SchemaWrap SchemaWrapEx.
From Verif Require Import XmlSyntax Convert ConvertCompile.

(** ** C82: [grammar { ... }] as a whole file means what the contents mean as a file, if those compile *)
Theorem C82_grammar_meaning : forall O C fs d name r st, compile_grammar O C (unwrapped fs) d name = fok (r, st) ->
  forall root, schema_valid fs O C name root <-> schema_valid (unwrapped fs) O C name root.
Proof. exact unwrapped_valid. Qed.
(** so the compiled schemas, which differ, accept the same documents; and so does the schema written in the XML syntax.
    Missing: the features outside [files_ok] and [convertible]; that one compiles when the other does ([C82_parent_refuted]) *)
Theorem C82_grammar_partial : forall O C fs, files_ok fs -> files_ok (unwrapped fs) -> forall d d' name r st r' st',
  compile_grammar O C fs d name = fok (r, st) -> compile_grammar O C (unwrapped fs) d' name = fok (r', st') ->
  forall root, rng_valid O (cell_defs st) (start_of r st) root <-> rng_valid O (cell_defs st') (start_of r' st') root.
Proof. exact unwrapped_verdict. Qed.
Theorem C82_grammar_xml_partial : forall U O C fs, files_ok fs -> files_ok (unwrapped fs) -> convertible U (unwrapped fs) -> forall d d' name r st r' st',
  compile_grammar O C fs d name = fok (r, st) -> compile_grammar O C (in_xml U (unwrapped fs)) d' name = fok (r', st') ->
  forall root, rng_valid O (cell_defs st) (start_of r st) root <-> rng_valid O (cell_defs st') (start_of r' st') root.
Proof. intros U O C fs H1 H2 HU d d' name r st r' st' K1 K2. rewrite (same_compiled U O C _ d' name HU) in K2. exact (unwrapped_verdict O C fs H1 H2 d d' name r st r' st' K1 K2). Qed.
(** grammar { start = element a { parent start? } } compiles, although there is no grammar around it; as a grammar file it does not *)
Theorem C82_parent_refuted : forall O C, (exists r st, all_depths O C out_files (P "a.rnc") (fok (r, st))) /\ exists e, all_depths O C (unwrapped out_files) (P "a.rnc") (ferr e).
Proof. exact out_differs. Qed.
(** grammar { include "b.rnc" { y = element z { text } } start = element r { x, grammar { start = parent y }* } }
    with b.rnc  grammar { x = element q { empty } y = element w { empty } } *)
Example C82_grammar_instance U O C : files_ok wrapped_files /\ files_ok (unwrapped wrapped_files) /\ convertible U (unwrapped wrapped_files) /\
  exists r st r' st', compile_grammar O C wrapped_files 5 (P "a.rnc") = fok (r, st) /\ compile_grammar O C (unwrapped wrapped_files) 5 (P "a.rnc") = fok (r', st') /\ st <> st'.
Proof. exact (conj wrapped_ok (conj unwrapped_ok (conj (wrapped_convertible U) (wrapped_compile O C)))). Qed.
Example C82_grammar_unwrapped : unwrapped wrapped_files (P "a.rnc") = inl (Schema nil (TGrammar wrap_a)).
Proof. reflexivity. Qed.

Print Assumptions C82_grammar_meaning.
Print Assumptions C82_grammar_partial.
Print Assumptions C82_grammar_xml_partial.
Print Assumptions C82_parent_refuted.
