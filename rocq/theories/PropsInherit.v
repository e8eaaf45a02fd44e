(** * PropsInherit: what [inherit = p] of an include does (C46).  Only statements.

    At the top of SchemaInherit.v: [uninherited fs], the files with [inherit] of every include taken
    away; [one_meaning fs m], every prefix is declared for one namespace wherever it is declared;
    [prefix_error e], an undeclared prefix is reported, in the file or in one it includes. *)
From Coq Require Import String.
From Verif Require Import Base Datatype Facets Store Lang Compile Syntax SchemaCompile Spec SourceSpec SourceScope SchemaMain SchemaExamples RefutedSchema SchemaInherit SchemaInheritEx.

(** ** C46: where prefixes have one meaning, [inherit] is ignored, but for its prefix having to be declared.
    Missing: it ought to set the default namespace ([C46_inherit_refuted]); prefixes with several meanings ([C46_shadow_refuted]). *)
Theorem C46_ignored_partial : forall O C fs m, one_meaning fs m -> forall d name r st,
  compile_grammar O C (uninherited fs) d name = fok (r, st) ->
  compile_grammar O C fs d name = fok (r, st) \/ exists e, compile_grammar O C fs d name = ferr e /\ prefix_error e.
Proof. exact compile_sim. Qed.
Theorem C46_meaning_partial : forall O C fs m, one_meaning fs m -> files_ok (uninherited fs) -> forall d d' name r st r' st',
  compile_grammar O C fs d name = fok (r, st) -> compile_grammar O C (uninherited fs) d' name = fok (r', st') ->
  r' = r /\ st' = st /\ forall root, rng_valid O (cell_defs st) (start_of r st) root <-> schema_valid (uninherited fs) O C name root.
Proof. exact inherit_meaning. Qed.
(** a prefix the included file declares is overwritten: namespace u = "u" include "b.rnc" inherit = u, and in b.rnc
    namespace u = "v" start = element u:a { empty } *)
Theorem C46_shadow_refuted : forall O C, exists r st, all_depths O C v_files (P "a.rnc") (fok (r, st)) /\
  schema_valid v_files O C (P "a.rnc") (empty_el "v" "a") /\ ~ rng_valid O (cell_defs st) (start_of r st) (empty_el "v" "a").
Proof. exact shadowed. Qed.
Example C46_instance O C : one_meaning both_files u_meaning /\ files_ok (uninherited both_files) /\
  exists r st, compile_grammar O C both_files 5 (P "a.rnc") = fok (r, st) /\ compile_grammar O C (uninherited both_files) 5 (P "a.rnc") = fok (r, st).
Proof. exact (conj both_one (conj both_ok (both_compile O C))). Qed.
(** the second case occurs *)
Example C46_error_instance O C : compile_grammar O C no_u_files 5 (P "a.rnc") = ferr (EUndefinedNamespacePrefix (lit "u")) /\
  exists r st, compile_grammar O C (uninherited no_u_files) 5 (P "a.rnc") = fok (r, st).
Proof. exact (no_u_reported O C). Qed.

Print Assumptions C46_ignored_partial.
Print Assumptions C46_meaning_partial.
Print Assumptions C46_shadow_refuted.
