(** * RefutedXmlNs: the namespace of an XML schema is not handed to the files it includes, with witnesses.

    RELAX NG 4.7 replaces an <include> by a <div> with the contents of the included file, 4.6 an <externalRef>
    by the root of the file it names, and 4.8 gives every element without an attribute ns that of its parent. *)
From Coq Require Import String.
From Verif Require Import Base Datatype Facets Syntax Store Lang Compile SchemaCompile Spec SourceSpec SourceScope SchemaSpec SchemaMain SchemaTerm SchemaExamples RefutedSchema.
From Verif Require Import XmlSyntax RngXml XmlScope XmlBase XmlProof XmlCheck XmlAnnot XmlDoc XmlRefuse XmlExamples RefutedXml.

(** two files, and the one file they stand for *)
Definition two (x y : xnod) (f : path) : option xnod := if path_eqb (P "main.rng") f then Some x else if path_eqb (P "b.rng") f then Some y else None.
Definition single (x : xnod) (f : path) : option xnod := if path_eqb (P "main.rng") f then Some x else None.
Definition a_elem : xnod := X "element" [A "name" "a"] [X "empty" [] []].
(** t compiles, and rejects a root which the schema of the file t' accepts *)
Definition rejects_for (t t' : path -> option xnod) (root : item) : Prop := forall O C,
  exists r st r' st', all_depths O C (xml_files any_uri t) (P "main.rng") (fok (r, st)) /\ all_depths O C (xml_files any_uri t') (P "main.rng") (fok (r', st')) /\
    schema_valid (xml_files any_uri t') O C (P "main.rng") root /\ rng_valid O (cell_defs st') (start_of r' st') root /\ ~ rng_valid O (cell_defs st) (start_of r st) root.

Lemma named_root O defs a m i x k nc p : M O defs true a m (MElement nc p) -> m = [Elm x i k] -> in_class nc x.
Proof.
  intros H E. inversion H as [| | | | | | | | | | | | |nc' p' nm a' k' w1 w2 HC Hk HW H1 H2| | | | |]; subst.
  destruct w1 as [|y w1]; [|destruct w1; discriminate].
  match goal with E : [] ++ _ = _ |- _ => injection E as -> -> -> _ end. exact HC.
Qed.

(** main.rng  <grammar ns="u"><include href="b.rng"/></grammar>
    b.rng     <grammar><start><element name="a"><empty/></element></start></grammar> *)
Definition inc_main : xnod := X "grammar" [A "ns" "u"] [X "include" [A "href" "b.rng"] []].
Definition inc_part : xnod := X "grammar" [] [X "start" [] [a_elem]].
(** <grammar ns="u"><div><start><element name="a"><empty/></element></start></div></grammar> *)
Definition inc_one : xnod := X "grammar" [A "ns" "u"] [X "div" [] [X "start" [] [a_elem]]].

Lemma empty_root O defs nc x : in_class nc x -> M O defs true [] [Elm x [] []] (MElement nc MEmpty).
Proof. intros H. apply (M_element O defs true nc MEmpty x [] [] [] []); [exact H | split; [intros [] | exact I] | apply W_1; constructor | left; reflexivity | left; reflexivity]. Qed.

Theorem C50_include_ns_refuted : rejects_for (two inc_main inc_part) (single inc_one) (empty_el "u" "a").
Proof.
  intros O C. eexists _, _, _, _. split; [any_depth|]. split; [any_depth|]. split; [|split].
  - eexists. split.
    + eapply Fg_grammar; [vm_compute; reflexivity|]. repeat econstructor.
    + eapply one_start; [reflexivity|]. apply src_empty. vm_compute. split; reflexivity.
  - apply empty_root. split; reflexivity.
  - cbn. intros H. eapply named_root in H; [|reflexivity]. destruct H as [H _]. discriminate H.
Qed.

(** main.rng  <choice ns="u"><externalRef href="b.rng"/></choice>
    b.rng     <element name="a"><empty/></element>             together  <choice ns="u"><element name="a"><empty/></element></choice> *)
Definition ext_main : xnod := X "choice" [A "ns" "u"] [X "externalRef" [A "href" "b.rng"] []].
Definition ext_one : xnod := X "choice" [A "ns" "u"] [a_elem].
Theorem C50_external_ns_refuted : rejects_for (two ext_main a_elem) (single ext_one) (empty_el "u" "a").
Proof.
  intros O C. eexists _, _, _, _. split; [any_depth|]. split; [any_depth|]. split; [|split].
  - eexists. split.
    + eapply Fg_pattern; vm_compute; reflexivity.
    + eapply one_start; [reflexivity|]. apply src_empty. vm_compute. split; reflexivity.
  - apply empty_root. split; reflexivity.
  - cbn. intros H. eapply named_root in H; [|reflexivity]. destruct H as [H _]. discriminate H.
Qed.

Print Assumptions C50_include_ns_refuted.
Print Assumptions C50_external_ns_refuted.
