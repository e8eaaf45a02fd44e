(** * SchemaWrapEx: files which meet the hypotheses of C82 about [grammar { ... }]. *)
From Coq Require Import String.
From Verif Require Import Base Datatype Facets Store Lang Compile Syntax SchemaCompile Spec SourceSpec SourceScope SchemaOrder SchemaMain SchemaTerm SchemaExamples RefutedSchema SchemaWrap.
From Verif Require Import XmlSyntax Convert PropsConvert.

(** a.rnc   grammar { include "b.rnc" { y = element z { text } } start = element r { x, grammar { start = parent y }* } }
    b.rnc   grammar { x = element q { empty } y = element w { empty } } *)
Definition wrap_a : list gcontent := [GInclude (lt "b.rnc") None (Some [IDefine (lit "y") MAssign (tag "z" SText)]);
  def "start" (tag "r" (SListPair (ref "x") (SZeroOrMore (SGrammar [def "start" (SParent (lit "y"))]))))].
Definition wrap_b : list gcontent := [def "x" (tag "q" SEmpty); def "y" (tag "w" SEmpty)].
Definition wrapped_files : filesys := files [(P "a.rnc", Schema [] (TPattern (SGrammar wrap_a))); (P "b.rnc", Schema [] (TPattern (SGrammar wrap_b)))].
Definition bare_files : filesys := files [(P "a.rnc", Schema [] (TGrammar wrap_a)); (P "b.rnc", Schema [] (TGrammar wrap_b))].
Lemma bare_decls : decls_ok [].
Proof. split; [intros p u []|]. intros p u u' H H'. inversion H as [|? ? []|? ? []]; inversion H' as [|? ? []|? ? []]; congruence. Qed.
Lemma wrapped_ok : files_ok wrapped_files.
Proof. intros f s H. apply files_in in H. destruct H as [[= <- <-]|[[= <- <-]|[]]]; (split; [exact bare_decls | cbn; repeat split; exact I]). Qed.
Lemma unwrapped_ok : files_ok (unwrapped wrapped_files).
Proof.
  intros f s H. unfold unwrapped in H. destruct (wrapped_files f) as [s0|] eqn:E; [|discriminate H]. injection H as <-. apply files_in in E. destruct E as [[= <- <-]|[[= <- <-]|[]]];
  (split; [exact bare_decls | cbn; repeat split; exact I]).
Qed.
Lemma wrapped_compile O C : exists r st r' st', compile_grammar O C wrapped_files 5 (P "a.rnc") = fok (r, st) /\ compile_grammar O C (unwrapped wrapped_files) 5 (P "a.rnc") = fok (r', st') /\ st <> st'.
Proof. eexists _, _, _, _. split; [vm_compute; reflexivity|]. split; [vm_compute; reflexivity | discriminate]. Qed.
Lemma wrapped_convertible U : convertible U (unwrapped wrapped_files).
Proof.
  intros f s H. unfold unwrapped in H. destruct (wrapped_files f) as [s0|] eqn:E; [|discriminate H]. injection H as <-. apply files_in in E. destruct E as [[= <- <-]|[[= <- <-]|[]]]; cbn [s_decls s_top bare_top]; unfold wrap_a, wrap_b; fits.
Qed.
(** grammar { start = element a { parent start? } }: there is no grammar outside; the file compiles, its contents do not *)
Definition out_pat : list gcontent := [def "start" (tag "a" (SOptional (SParent (lit "start"))))].
Definition out_files : filesys := files [(P "a.rnc", Schema [] (TPattern (SGrammar out_pat)))].
Lemma out_differs : forall O C, (exists r st, all_depths O C out_files (P "a.rnc") (fok (r, st))) /\ exists e, all_depths O C (unwrapped out_files) (P "a.rnc") (ferr e).
Proof. intros O C. split; [eexists _, _|eexists]; any_depth. Qed.
