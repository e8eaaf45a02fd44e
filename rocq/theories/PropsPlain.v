(** * PropsPlain: what is only a way of writing (C91).  Only statements.

    At the top of SchemaPlain.v: [plain_files fs], the files with every pattern, name class, definition and
    declaration in plain form: without parentheses, with [,] [&] and [|] grouped to the right, a string without
    type as token, strings in one piece, no div (but in the braces of an include), no annotations. *)
From Coq Require Import String.
From Verif Require Import Base Datatype Facets Store Lang Compile Syntax SchemaCompile SourceSpec SchemaTerm SchemaExamples RefutedSchema SchemaPlain SchemaPlainEx.

(** ** C91: two schemas with the same plain form compile to the same, or fail alike, to every depth of nesting.
    Missing: parentheses around the whole of an included file ([C91_parentheses_refuted]); div in the braces of an include, which the compiler
    does not implement (C44_div_refuted in RefutedSchema.v). *)
Theorem C91_alike_partial : forall O C fs fs' d name, (forall f, plain_files fs f = plain_files fs' f) -> compile_grammar O C fs d name = compile_grammar O C fs' d name.
Proof. exact alike_compile. Qed.
Theorem C91_plain_partial : forall O C fs d name, compile_grammar O C (plain_files fs) d name = compile_grammar O C fs d name.
Proof. intros O C fs d name. exact (plain_compiles O C fs d name). Qed.
(** operators of one kind may be grouped at will *)
Theorem C91_regroup : forall a b c, plain (SListPair (SGroup (SListPair a b)) c) = plain (SListPair a (SListPair b c)) /\
  plain (SInterleavePair (SGroup (SInterleavePair a b)) c) = plain (SInterleavePair a (SInterleavePair b c)) /\
  plain (SChoicePair (SGroup (SChoicePair a b)) c) = plain (SChoicePair a (SChoicePair b c)).
Proof. exact plain_regroup. Qed.
(** a div is its contents, an annotation nothing *)
Theorem C91_div : forall l1 l2 l3 a, plain_top (TGrammar (l1 ++ GDiv l2 :: GAnnotation a :: l3)) = plain_top (TGrammar (l1 ++ l2 ++ l3)).
Proof. intros l1 l2 l3 a. exact (f_equal TGrammar (plain_div l1 l2 l3 a)). Qed.
(** include "b.rnc" with b.rnc = ( grammar { ... } ) is refused; without the parentheses it compiles *)
Theorem C91_parentheses_refuted : exists p, forall O C, (exists r st, all_depths O C (paren_files p) (P "a.rnc") (fok (r, st))) /\
  exists e, all_depths O C (paren_files (SGroup p)) (P "a.rnc") (ferr e).
Proof. exact (ex_intro _ paren_pat parens_differ). Qed.

(** the schemas written out in SchemaPlainEx.v *)
Example C91_instance O C : (forall f, plain_files loose_files f = plain_files tidy_files f) /\ loose_files (P "a.rnc") <> tidy_files (P "a.rnc") /\
  exists r st, compile_grammar O C loose_files 5 (P "a.rnc") = fok (r, st).
Proof. split; [exact loose_tidy|]. split; [discriminate|]. rewrite (C91_alike_partial O C _ _ 5 (P "a.rnc") loose_tidy). exact (tidy_compiles O C). Qed.

Print Assumptions C91_alike_partial.
Print Assumptions C91_plain_partial.
Print Assumptions C91_regroup.
Print Assumptions C91_div.
Print Assumptions C91_parentheses_refuted.
