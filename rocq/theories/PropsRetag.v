(** * PropsRetag: the prefixes of namespaces and of datatype libraries (C93).  Only statements.

    At the top of SchemaRetag.v: [pre_files pn dn fs], the files with every namespace prefix [p] replaced by [pn p] and every
    prefix of a datatype library by [dn p], where it is declared, inherited or used, in all the files; [pre_error], the same
    in an error. *)
From Coq Require Import String.
From Verif Require Import Base Datatype Facets Store Lang Compile Syntax SchemaCompile SourceSpec SchemaMain SchemaExamples SchemaInheritEx SchemaRetag.

(** ** C93: with other prefixes (xml and xsd keep their own; two prefixes do not become the same) a schema compiles to the very
    same, or fails with the same error *)
Theorem C93_prefixes : forall pn dn, (forall a b, pn a = pn b -> a = b) -> (forall a b, dn a = dn b -> a = b) ->
  pn (lit "xml") = lit "xml" -> dn (lit "xsd") = lit "xsd" -> forall O C fs d name,
  (forall r, compile_grammar O C fs d name = fok r -> compile_grammar O C (pre_files pn dn fs) d name = fok r) /\
  (forall e, compile_grammar O C fs d name = ferr e -> compile_grammar O C (pre_files pn dn fs) d name = ferr (pre_error pn dn e)) /\
  (forall p, compile_grammar O C fs d name = Panic p -> compile_grammar O C (pre_files pn dn fs) d name = Panic p) /\
  (compile_grammar O C fs d name = OutOfFuel -> compile_grammar O C (pre_files pn dn fs) d name = OutOfFuel).
Proof. exact retagged. Qed.
Theorem C93_prefixes_back : forall pn dn, (forall a b, pn a = pn b -> a = b) -> (forall a b, dn a = dn b -> a = b) ->
  pn (lit "xml") = lit "xml" -> dn (lit "xsd") = lit "xsd" -> forall O C fs d name r,
  compile_grammar O C (pre_files pn dn fs) d name = fok r -> compile_grammar O C fs d name = fok r.
Proof. exact retagged_back. Qed.
(** in particular: one prefix for another, the two exchanged *)
Theorem C93_exchanged : forall p q p' q', ~ In (lit "xml") (p :: q :: nil) -> ~ In (lit "xsd") (p' :: q' :: nil) -> forall O C fs d name r,
  compile_grammar O C fs d name = fok r <-> compile_grammar O C (pre_files (swapped p q) (swapped p' q') fs) d name = fok r.
Proof. exact exchanged. Qed.

(** a.rnc and b.rnc of [both_files], with the prefix w for u: the include inherits w *)
Example C93_instance O C : ~ In (lit "xml") (lit "u" :: lit "w" :: nil) /\ ~ In (lit "xsd") (lit "d" :: lit "e" :: nil) /\
  pre_files (swapped (lit "u") (lit "w")) (swapped (lit "d") (lit "e")) both_files (P "a.rnc") =
    inl (Schema (DNamespace (lit "w") (UUri (lt "u")) :: nil) (TGrammar (GInclude (lt "b.rnc") (Some (IKId (lit "w"))) None :: nil))) /\
  (exists r st, compile_grammar O C both_files 5 (P "a.rnc") = fok (r, st) /\
     compile_grammar O C (pre_files (swapped (lit "u") (lit "w")) (swapped (lit "d") (lit "e")) both_files) 5 (P "a.rnc") = fok (r, st)) /\
  compile_grammar O C (pre_files (swapped (lit "u") (lit "w")) (swapped (lit "d") (lit "e")) no_u_files) 5 (P "a.rnc") = ferr (EUndefinedNamespacePrefix (lit "w")).
Proof.
  split; [intros [K|[K|[]]]; discriminate K|]. split; [intros [K|[K|[]]]; discriminate K|]. split; [reflexivity|].
  split; [eexists _, _; split; vm_compute; reflexivity | vm_compute; reflexivity].
Qed.

Print Assumptions C93_prefixes.
Print Assumptions C93_prefixes_back.
Print Assumptions C93_exchanged.
