(** * PropsRename: the names of definitions (C92).  Only statements.

    At the top of SchemaRename.v: [ren_files ren fs], the files with every name [n] of a definition replaced by [ren n],
    where it is defined, overridden or referred to, in all the files; [ren_error], the same in an error. *)
From Coq Require Import String.
From Verif Require Import Base Datatype Facets Store Lang Compile Syntax SchemaCompile SourceSpec SchemaMain SchemaExamples SchemaRename.

(** ** C92: with other names (start keeps its own; two definitions do not get the same) a schema compiles to the same
    definitions, or fails with the same error; the empty string is no name *)
Theorem C92_renamed : forall ren, (forall a b, ren a = ren b -> a = b) -> ren (lit "start") = lit "start" -> ren nil = nil -> forall O C fs d name,
  (forall r st, compile_grammar O C fs d name = fok (r, st) ->
     exists st', compile_grammar O C (ren_files ren fs) d name = fok (r, st') /\ map snd (cells st') = map snd (cells st) /\ loaded st' = loaded st) /\
  (forall e, compile_grammar O C fs d name = ferr e -> compile_grammar O C (ren_files ren fs) d name = ferr (ren_error ren e)) /\
  (forall p, compile_grammar O C fs d name = Panic p -> compile_grammar O C (ren_files ren fs) d name = Panic p) /\
  (compile_grammar O C fs d name = OutOfFuel -> compile_grammar O C (ren_files ren fs) d name = OutOfFuel).
Proof. exact renamed. Qed.
Theorem C92_renamed_back : forall ren, (forall a b, ren a = ren b -> a = b) -> ren (lit "start") = lit "start" -> ren nil = nil -> forall O C fs d name r st',
  compile_grammar O C (ren_files ren fs) d name = fok (r, st') -> exists st, compile_grammar O C fs d name = fok (r, st).
Proof. exact renamed_back. Qed.
(** the validator is built from the same start and the same patterns, whence the same verdict on every document *)
Theorem C92_same_validator : forall ren, (forall a b, ren a = ren b -> a = b) -> ren (lit "start") = lit "start" -> ren nil = nil -> forall O C fs d name r st r' st',
  compile_grammar O C fs d name = fok (r, st) -> compile_grammar O C (ren_files ren fs) d name = fok (r', st') ->
  start_of r' st' = start_of r st /\ cell_defs st' = cell_defs st.
Proof. intros ren H1 H2 H3 O C fs d name r st r' st' K K'. destruct (renamed_defs ren H1 H2 H3 O C fs d name r st r' st' K K') as [E1 E2]. unfold start_of. rewrite E1, E2. split; reflexivity. Qed.

(** main.rnc and lib.rnc with an x before every name but start *)
Example C92_instance O C : (forall a b, with_x a = with_x b -> a = b) /\ with_x (lit "start") = lit "start" /\ ren_files with_x ex_files (P "main.rnc") <> ex_files (P "main.rnc") /\
  exists r st, compile_grammar O C (ren_files with_x ex_files) 5 (P "main.rnc") = fok (r, st) /\ In (lit "xbook") (map fst (cells st)).
Proof.
  split; [exact with_x_inj|]. split; [reflexivity|]. split; [discriminate|]. eexists _, _. split; [vm_compute; reflexivity|]. vm_compute. tauto.
Qed.

Print Assumptions C92_renamed.
Print Assumptions C92_renamed_back.
Print Assumptions C92_same_validator.
