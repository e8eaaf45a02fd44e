(** * SchemaInheritEx: examples for C46. *)
From Coq Require Import Permutation String.
From Verif Require Import Base Datatype Facets Store Lang Compile Syntax SchemaCompile Spec SourceSpec SourceScope SchemaOrder SchemaSpec SchemaMain SchemaTerm SchemaExamples RefutedSchema SchemaInherit.

(** a.rnc: namespace u = "u"; include "b.rnc" inherit = u      b.rnc: namespace u = "u"; start = element u:a { empty } *)
Definition both_files : filesys := files [
  (P "a.rnc", Schema u_decl (TGrammar [GInclude (lt "b.rnc") (Some (IKId (lit "u"))) None]));
  (P "b.rnc", Schema u_decl (TGrammar [def "start" (SElement (pref "u" "a") SEmpty)]))].
Definition u_meaning (p : str) : str := if str_eqb p (lit "xml") then xml_uri else lit "u".
Lemma both_one : one_meaning both_files u_meaning.
Proof.
  split; [reflexivity|]. intros f s H p u. apply files_in in H. destruct H as [[= <- <-]|[[= <- <-]|[]]]; cbn [s_decls u_decl]; intros [[E|[]]|[E|[]]]; (discriminate E || (injection E as <- <-; reflexivity)).
Qed.
Lemma both_ok : files_ok (uninherited both_files).
Proof.
  intros f s H. unfold uninherited in H. destruct (both_files f) as [s0|] eqn:E; [|discriminate H]. injection H as <-. apply files_in in E. destruct E as [[= <- <-]|[[= <- <-]|[]]].
  - split; [exact u_decl_ok | cbn; repeat split; exact I].
  - split; [exact u_decl_ok | cbn; repeat split; exact I].
Qed.
Lemma both_compile O C : exists r st, compile_grammar O C both_files 5 (P "a.rnc") = fok (r, st) /\ compile_grammar O C (uninherited both_files) 5 (P "a.rnc") = fok (r, st).
Proof. eexists _, _. split; vm_compute; reflexivity. Qed.

(** b.rnc declares u otherwise: its own declaration is not looked at *)
Definition v_files : filesys := files [
  (P "a.rnc", Schema u_decl (TGrammar [GInclude (lt "b.rnc") (Some (IKId (lit "u"))) None]));
  (P "b.rnc", Schema [DNamespace (lit "u") (UUri (lt "v"))] (TGrammar [def "start" (SElement (pref "u" "a") SEmpty)]))].
Lemma shadowed : forall O C, exists r st, all_depths O C v_files (P "a.rnc") (fok (r, st)) /\
  schema_valid v_files O C (P "a.rnc") (empty_el "v" "a") /\ ~ rng_valid O (cell_defs st) (start_of r st) (empty_el "v" "a").
Proof.
  intros O C. eexists _, _. split; [any_depth|]. split.
  - eexists. split.
    + eapply Fg_grammar; [reflexivity|]. eapply Ex_include with (inherited := lit "u"); [reflexivity | reflexivity | constructor | apply (Bn_ns _ (lit "u") (lt "u")); left; reflexivity | repeat constructor | intros x [] | constructor].
    + eapply one_start; [reflexivity|]. apply src_empty. split; [|reflexivity]. apply (Bn_ns _ (lit "u") (lt "v")). left; reflexivity.
  - cbn. intros H. inversion H; subst.
    match goal with H : in_class _ ?x, E : _ ++ Elm ?x _ _ :: _ = _ |- _ => rename H into HC, E into EQ end.
    destruct ws1 as [|y ws1]; [|destruct ws1; discriminate EQ]. apply (f_equal (fun l => match l with Elm n _ _ :: _ => uri n | _ => [] end)) in EQ. destruct HC as [HC _]. cbn in EQ, HC. rewrite EQ in HC. discriminate HC.
Qed.
(** the prefix is not declared: reported, also where the rest compiles *)
Definition no_u_files : filesys := files [
  (P "a.rnc", gram [GInclude (lt "b.rnc") (Some (IKId (lit "u"))) None]);
  (P "b.rnc", gram [def "start" (tag "a" SEmpty)])].
Lemma no_u_reported : forall O C, compile_grammar O C no_u_files 5 (P "a.rnc") = ferr (EUndefinedNamespacePrefix (lit "u")) /\
  exists r st, compile_grammar O C (uninherited no_u_files) 5 (P "a.rnc") = fok (r, st).
Proof. intros O C. split; [|eexists _, _]; vm_compute; reflexivity. Qed.
