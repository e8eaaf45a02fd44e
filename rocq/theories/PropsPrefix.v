(** * PropsPrefix: namespace prefixes declared more than once in a schema file (C90).  Only statements.

    At the top of SchemaPrefix.v: [first_declared fs], the files without the second and later
    declarations of a prefix ([default namespace p = u] stays as the default namespace); [declares d p],
    the declaration gives a namespace to the prefix. *)
From Coq Require Import String.
From Verif Require Import Base Datatype Facets Store Lang Compile Syntax SchemaCompile Spec SourceSpec SourceScope SchemaMain SchemaExamples RefutedSchema SchemaPrefix.

(** ** C90: declaring a prefix for two namespaces, or xml for another than its own, is no error *)
Theorem C90_refuted : exists s, dup_files (P "a.rnc") = inl s /\
  (exists p u u', binds_ns (s_decls s) p u /\ binds_ns (s_decls s) p u' /\ u <> u') /\
  (exists u, binds_ns (s_decls s) (lit "xml") u /\ u <> lit "http://www.w3.org/XML/1998/namespace") /\
  forall O C, exists r st, all_depths O C dup_files (P "a.rnc") (fok (r, st)).
Proof. exact dup_refuted. Qed.
(** exactly: the later declarations of a prefix are not looked at, in every file system *)
Theorem C90_first : forall O C fs d name, compile_grammar O C fs d name = compile_grammar O C (first_declared fs) d name.
Proof. exact first_compile. Qed.
Theorem C90_once : forall l l1 d l2 d' l3 p, firsts nil l = l1 ++ d :: l2 ++ d' :: l3 -> declares d p -> ~ declares d' p.
Proof. exact (fun l => firsts_once l nil). Qed.
(** so the compiled schema means the schema with the first declarations only.  Missing: the features outside [files_ok] *)
Theorem C90_meaning_partial : forall O C fs, files_ok (first_declared fs) -> forall d name r st, compile_grammar O C fs d name = fok (r, st) ->
  forall root, rng_valid O (cell_defs st) (start_of r st) root <-> schema_valid (first_declared fs) O C name root.
Proof. exact first_meaning. Qed.
Example C90_instance O C : files_ok (first_declared twice_files) /\ (exists r st, compile_grammar O C twice_files 5 (P "a.rnc") = fok (r, st)) /\
  first_declared twice_files (P "a.rnc") = inl (Schema u_decl (TGrammar (def "start" (SElement (pref "u" "a") SEmpty) :: nil))).
Proof. exact (conj twice_ok (conj (twice_compile O C) eq_refl)). Qed.

Print Assumptions C90_refuted.
Print Assumptions C90_first.
Print Assumptions C90_once.
Print Assumptions C90_meaning_partial.
