(** * SchemaPlainEx: a schema and its plain form; parentheses around a whole file (C91). *)
From Coq Require Import String.
From Verif Require Import Base Datatype Facets Store Lang Compile Syntax SchemaCompile SourceSpec SchemaTerm SchemaExamples RefutedSchema SchemaPlain.
Definition note : annot := Annot (NmC (lit "a") (lit "note")) [] [].
(** a.rnc   div { start = element (r) { (x, ((y | x) | y)), z } a:note [] div { x = element list { ("a" ~ "b") | "c" } } }
            y = (element y { xsd:string { a:note [] minLength = "1" ~ "2" } })
            include "b" ~ ".rnc" { a:note [] z = element z { empty } }
    b.rnc   div { div { z = element w { empty } } } *)
Definition loose_a : schema := Schema [] (TGrammar [
  GDiv [def "start" (SElement (CParen (CName (NmId (IKId (lit "r"))))) (SListPair (SGroup (SListPair (ref "x") (SGroup (SChoicePair (SGroup (SChoicePair (ref "y") (ref "x"))) (ref "y"))))) (ref "z")));
        GAnnotation note; GDiv [def "x" (SElement (CName (NmId (IKKw (lit "list")))) (SChoicePair (SGroup (SValue None [lit "a"; lit "b"])) (SValue None (lt "c"))))]];
  def "y" (SGroup (tag "y" (SData (SdC (lit "xsd") (lit "string")) (Some [(Some (Initial [] [note]), IKId (lit "minLength"), [lit "1"; lit "2"])]) None)));
  GInclude [lit "b"; lit ".rnc"] None (Some [IAnnotation note; IDefine (lit "z") MAssign (tag "z" SEmpty)])]).
Definition loose_b : schema := Schema [] (TGrammar [GDiv [GDiv [def "z" (tag "w" SEmpty)]]]).
(** a.rnc   start = element r { x, ((y | (x | y)), z) }
            x = element list { token "ab" | token "c" }
            y = element y { xsd:string { minLength = "12" } }
            include "b.rnc" { z = element z { empty } }
    b.rnc   z = element w { empty } *)
Definition tidy_a : schema := Schema [] (TGrammar [
  def "start" (tag "r" (SListPair (ref "x") (SListPair (SChoicePair (ref "y") (SChoicePair (ref "x") (ref "y"))) (ref "z"))));
  def "x" (tag "list" (SChoicePair (SValue (Some SdToken) (lt "ab")) (SValue (Some SdToken) (lt "c"))));
  def "y" (tag "y" (SData (SdC (lit "xsd") (lit "string")) (Some [(None, IKId (lit "minLength"), lt "12")]) None));
  GInclude (lt "b.rnc") None (Some [IDefine (lit "z") MAssign (tag "z" SEmpty)])]).
Definition tidy_b : schema := Schema [] (TGrammar [def "z" (tag "w" SEmpty)]).
Definition loose_files : filesys := files [(P "a.rnc", loose_a); (P "b.rnc", loose_b)].
Definition tidy_files : filesys := files [(P "a.rnc", tidy_a); (P "b.rnc", tidy_b)].
Lemma loose_tidy f : plain_files loose_files f = plain_files tidy_files f.
Proof.
  unfold plain_files, loose_files, tidy_files, files. cbn [find].
  repeat (destruct (path_eqb _ _); [reflexivity|]). reflexivity.
Qed.
Lemma tidy_compiles O C : exists r st, compile_grammar O C tidy_files 5 (P "a.rnc") = fok (r, st).
Proof. eexists _, _. vm_compute. reflexivity. Qed.
(** a.rnc  include "b.rnc" start = x    b.rnc  ( grammar { x = element q { empty } } ) *)
Definition paren_files (p : spat) : filesys := files [(P "a.rnc", Schema [] (TGrammar [GInclude (lt "b.rnc") None None; def "start" (ref "x")])); (P "b.rnc", Schema [] (TPattern p))].
Definition paren_pat : spat := SGrammar [def "x" (tag "q" SEmpty)].
Lemma parens_differ : forall O C, (exists r st, all_depths O C (paren_files paren_pat) (P "a.rnc") (fok (r, st))) /\ exists e, all_depths O C (paren_files (SGroup paren_pat)) (P "a.rnc") (ferr e).
Proof. intros O C. split; [eexists _, _|eexists]; any_depth. Qed.
