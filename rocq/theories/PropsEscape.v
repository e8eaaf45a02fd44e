(** * PropsEscape: [parent] outside of every nested grammar is reported, external patterns included (C71). *)
From Coq Require Import String.
From Verif Require Import Base Datatype Facets Store Compile Syntax SchemaCompile SourceSpec SchemaSpec SchemaCheck SchemaExamples SchemaEscape.

(** ** C71: also when [parent] stands in an external pattern, however many files are between ([Escapes]).  [Outer], [top_body]: definitions outside of nested grammars *)
Theorem C71_parent_reported_external : forall O C fs name d r st, compile_grammar O C fs d name = Ok (inl (r, st)) ->
  forall f, Outer fs name f -> forall s l, fs f = inl s -> (f = name -> exists ds, s = Schema ds (TGrammar l)) -> file_contents s l -> forall g p, In g l -> top_body p g -> ~ Escapes fs f p.
Proof. exact no_outer_escape. Qed.
Theorem C71_root_parent_reported_external : forall O C fs name d r st ds p, compile_grammar O C fs d name = Ok (inl (r, st)) -> fs name = inl (Schema ds (TPattern p)) -> ~ Escapes fs name p.
Proof. exact no_root_escape. Qed.
(** lib.rnc is included by main.rnc; a definition in it has the external pattern p.rnc, which has the external pattern q.rnc, which has a parent *)
Definition fleeing : filesys := files [(P "main.rnc", Schema [] (TGrammar [GInclude (lt "lib.rnc") None None; def "start" (tag "a" SText)]));
  (P "lib.rnc", Schema [] (TGrammar [GDiv [def "unused" (tag "b" (SExternal (lt "p.rnc") None))]]));
  (P "p.rnc", Schema [] (TPattern (SChoicePair SText (SExternal (lt "q.rnc") None)))); (P "q.rnc", Schema [] (TPattern (tag "x" (SParent (lit "start")))))].
Example C71_instance_external O C d r st : compile_grammar O C fleeing d (P "main.rnc") <> Ok (inl (r, st)).
Proof.
  intros H. eapply (C71_parent_reported_external O C fleeing _ d r st H (P "lib.rnc")).
  - eapply Ou_include with (g := GInclude (lt "lib.rnc") None None); [apply Ou_root | reflexivity | intros _; eexists; reflexivity | constructor | left; reflexivity | constructor | reflexivity].
  - reflexivity.
  - discriminate.
  - constructor.
  - left. reflexivity.
  - eapply Tb_div; [left; reflexivity | apply Tb_define].
  - eapply Es_child; [constructor|]. eapply (Es_external fleeing _ _ _ (P "p.rnc")); [reflexivity | reflexivity|]. eapply Es_child; [apply Ch_choice_r|].
    eapply (Es_external fleeing _ _ _ (P "q.rnc")); [reflexivity | reflexivity|]. eapply Es_child; [constructor | apply Es_here].
Qed.
(** the same p.rnc and q.rnc inside a nested grammar: [parent] is that of the enclosing grammar *)
Definition caught : filesys := files [(P "main.rnc", Schema [] (TGrammar [def "up" (tag "u" SText); def "start" (tag "a" (SGrammar [def "start" (SExternal (lt "p.rnc") None)]))]));
  (P "p.rnc", Schema [] (TPattern (SChoicePair SText (SExternal (lt "q.rnc") None)))); (P "q.rnc", Schema [] (TPattern (tag "x" (SParent (lit "up")))))].
Example C71_instance_caught O C : exists r st, compile_grammar O C caught 5 (P "main.rnc") = Ok (inl (r, st)).
Proof. eexists _, _. vm_compute. reflexivity. Qed.

Print Assumptions C71_parent_reported_external.
Print Assumptions C71_root_parent_reported_external.
