(** * PropsDefault: what a default namespace declaration does (C41). *)
From Coq Require Import String.
From Verif Require Import Base Datatype Facets Store Lang Compile Syntax SchemaCompile Spec SourceSpec SourceScope SchemaOrder SchemaMain SchemaDefault SchemaQual SchemaExamples.

(** ** C41: exactly: the default namespace is not looked at.  [undefaulted fs]: the files without [default namespace] ([default namespace p = u] declares the prefix [p] only) *)
Theorem C41_ignored : forall O C fs d name, compile_grammar O C fs d name = compile_grammar O C (undefaulted fs) d name.
Proof. exact undefault_compile. Qed.
Print Assumptions C41_ignored.
(** so the compiled schema means the schema without its default namespace.  Missing: the features of [files_ok] *)
Theorem C41_meaning_partial : forall O C fs, files_ok (undefaulted fs) -> forall d name r st, compile_grammar O C fs d name = fok (r, st) ->
  forall root, rng_valid O (cell_defs st) (start_of r st) root <-> schema_valid (undefaulted fs) O C name root.
Proof. exact undefault_meaning. Qed.
Print Assumptions C41_meaning_partial.
(** and the schema as written, if in every file all element names are prefixed or the default namespace is "" *)
Theorem C41_prefixed_partial : forall O C fs, (forall f s, fs f = inl s -> indifferent s) -> files_ok (undefaulted fs) ->
  forall d name r st, compile_grammar O C fs d name = fok (r, st) ->
  forall root, rng_valid O (cell_defs st) (start_of r st) root <-> schema_valid fs O C name root.
Proof. exact prefixed_meaning. Qed.
Print Assumptions C41_prefixed_partial.

(** a.rnc has default namespace "u" and names with prefix; b.rnc has default namespace "" and a name without *)
Definition two_decls : list decl := [DDefault (Some (lit "d")) (UUri (lt "u")); DNamespace (lit "p") (UUri (lt "v"))].
Definition two_list : list (path * schema) := [
  (P "a.rnc", Schema two_decls (TGrammar [GInclude (lt "b.rnc") None None; def "start" (SElement (CName (NmC (lit "d") (lit "r"))) (SListPair (SElement (CName (NmC (lit "p") (lit "x"))) SText) (ref "y")))]));
  (P "b.rnc", Schema [DDefault None (UUri (lt ""))] (TGrammar [def "y" (tag "y" SEmpty)]))].
Definition two_files : filesys := files two_list.
Example C41_instance O C : (forall f s, two_files f = inl s -> indifferent s) /\ files_ok (undefaulted two_files) /\ exists r st, compile_grammar O C two_files 5 (P "a.rnc") = fok (r, st).
Proof.
  split; [|split].
  - intros f s H. apply files_in in H. destruct H as [[= <- <-]|[[= <- <-]|[]]].
    + split; [intros p [E|[E|[]]]; discriminate E|]. left. cbn. tauto.
    + split; [intros p [E|[]]; discriminate E|]. right. split; [cbn; tauto|]. exists None, (lt ""). split; [left; reflexivity|]. intros p' l' [[= <- <-]|[]]. reflexivity.
  - intros f s H. apply undefaulted_in in H. destruct H as (s0 & H & ->). apply files_in in H. destruct H as [[= <- <-]|[[= <- <-]|[]]].
    + split; [|cbn; repeat split; exact I]. split; [intros p u [E|[E|[]]]; discriminate E|].
      intros p u u' H H'. destruct H as [|? ? [E|[E|[]]]|? ? [E|[E|[]]]]; try discriminate E; try (injection E as <- <-); inversion H' as [|? ? [E'|[E'|[]]]|? ? [E'|[E'|[]]]]; try discriminate; try (injection E' as <-); reflexivity.
    + split; [|cbn; repeat split; exact I]. split; [intros p u []|]. intros p u u' H H'. destruct H as [|? ? []|? ? []]. inversion H' as [|? ? []|? ? []]. reflexivity.
  - eexists _, _. vm_compute. reflexivity.
Qed.
