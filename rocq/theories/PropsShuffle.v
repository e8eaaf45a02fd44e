(** * PropsShuffle: the order of what stands in the grammar files of a schema (C29).  Only statements.

    At the top of SchemaShuffle.v: [shuffled fs fs'], the same files but for the order of the definitions,
    divs and includes which make up grammar files (any number of the files, each in its own new order). *)
From Coq Require Import Permutation String.
From Verif Require Import Base Datatype Facets Store Lang Compile Syntax SchemaCompile Spec SourceSpec SourceScope SchemaSpec SchemaMain SchemaExamples SchemaGood SchemaKeptEx SchemaProgress SchemaKept SchemaShuffle.
From Verif Require Import Main.

(** ** C29: a schema compiles in every order or in none.
    Missing: the order inside [grammar { ... }] and div; the schemas in which the lenient rules of C88 differ from the strict ones. *)
Theorem C29_shuffled_compiles_partial : forall O C fs fs' name, files_ok fs -> tidy fs name -> shuffled fs fs' ->
  ((exists d r st, compile_grammar O C fs d name = fok (r, st)) <-> (exists d r st, compile_grammar O C fs' d name = fok (r, st))).
Proof. exact shuffled_compiles. Qed.
(** and accepts the same documents *)
Theorem C29_shuffled_meaning_partial : forall O C fs fs', files_ok fs -> shuffled fs fs' -> forall d d' name r st r' st',
  compile_grammar O C fs d name = fok (r, st) -> compile_grammar O C fs' d' name = fok (r', st') ->
  forall root, rng_valid O (cell_defs st) (start_of r st) root <-> rng_valid O (cell_defs st') (start_of r' st') root.
Proof. exact shuffled_meaning. Qed.
(** the specification itself does not depend on the order *)
Theorem C29_shuffled_valid : forall O C fs fs' name root, shuffled fs fs' -> schema_valid fs O C name root -> schema_valid fs' O C name root.
Proof. intros O C fs fs' name root. exact (sh_valid fs fs' O C name root). Qed.

(** main.rnc and lib.rnc backwards: the include last, start and the two card in the other order *)
Example C29_shuffled_instance O C : files_ok ex_files /\ tidy ex_files (P "main.rnc") /\ shuffled ex_files (reversed ex_files) /\ reversed ex_files (P "main.rnc") <> ex_files (P "main.rnc") /\
  exists d r st, compile_grammar O C (reversed ex_files) d (P "main.rnc") = fok (r, st).
Proof.
  split; [exact ex_files_ok|]. split; [exact main_tidy|]. split; [apply reversed_shuffled|]. split; [discriminate|].
  apply (C29_shuffled_compiles_partial O C _ _ _ ex_files_ok main_tidy (reversed_shuffled ex_files)). do 3 eexists. exact (main_compiles O C).
Qed.

Print Assumptions C29_shuffled_compiles_partial.
Print Assumptions C29_shuffled_meaning_partial.
Print Assumptions C29_shuffled_valid.
