(** * PropsLocal: what a compiled schema depends on (C81). *)
From Coq Require Import String.
From Verif Require Import Base Datatype Facets Store Compile Syntax SchemaCompile SchemaExamples SchemaLocal.

(** ** C81: [Compiler::loaded] lists the schema itself and the files it depends on, and nothing else: each file once, each of
    them readable; any change elsewhere in the file system leaves the compiled schema as it is; taking away any one of the
    listed files makes the compilation fail. *)
Theorem C81_listed : forall O C fs d name r st, compile_grammar O C fs d name = Ok (inl (r, st)) ->
  In name (loaded st) /\ NoDup (loaded st) /\ Forall (fun f => exists s, fs f = inl s) (loaded st).
Proof. intros O C fs d name r st E. destruct (compile_local O C fs fs d name r st E) as (H1 & H2 & _). exact (conj H1 H2). Qed.
Theorem C81_only : forall O C fs fs' d name r st, compile_grammar O C fs d name = Ok (inl (r, st)) -> (forall f, In f (loaded st) -> fs' f = fs f) ->
  compile_grammar O C fs' d name = Ok (inl (r, st)).
Proof. intros O C fs fs' d name r st E. exact (proj1 (proj2 (proj2 (compile_local O C fs fs' d name r st E)))). Qed.
Theorem C81_needed : forall O C fs fs' d name r st f e, compile_grammar O C fs d name = Ok (inl (r, st)) -> In f (loaded st) -> fs' f = inr e ->
  (forall g, In g (loaded st) -> g <> f -> fs' g = fs g) -> forall x, compile_grammar O C fs' d name <> Ok (inl x).
Proof. intros O C fs fs' d name r st f e E H1 H2 H3. exact (proj2 (proj2 (proj2 (compile_local O C fs fs' d name r st E))) f e H1 H2 H3). Qed.
(** b.rnc is read twice, d.rnc never *)
Definition shared : filesys := files [
  (P "a.rnc", Schema [] (TGrammar [GInclude (lt "b.rnc") None None; GInclude (lt "c.rnc") None None; def "start" (tag "r" (SExternal (lt "e.rnc") None))]));
  (P "b.rnc", Schema [] (TGrammar [or_def "x" SEmpty]));
  (P "c.rnc", Schema [] (TGrammar [GDiv [GInclude (lt "b.rnc") None None]]));
  (P "d.rnc", Schema [] (TGrammar []));
  (P "e.rnc", Schema [] (TPattern SText))].
Example C81_instance O C : exists r st, compile_grammar O C shared 3 (P "a.rnc") = Ok (inl (r, st)) /\ loaded st = [P "a.rnc"; P "b.rnc"; P "c.rnc"; P "e.rnc"].
Proof. eexists _, _. split; vm_compute; reflexivity. Qed.

Print Assumptions C81_listed.
Print Assumptions C81_only.
Print Assumptions C81_needed.
