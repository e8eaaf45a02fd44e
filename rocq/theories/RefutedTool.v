(** * RefutedTool: where the tool and the diagnostics do not have the listed properties. *)
From Coq Require Import String.
From Verif Require Import Base Datatype Facets Store Deriv Events Lang Doc Accept Compile Syntax SchemaCompile Scope Infoset Main Reach Verdicts SourceSpec SourceScope SchemaSpec SchemaMain SchemaDoc SchemaExamples Examples.
From Verif Require Import Diag DiagProof FuelMono Tool ToolProof Expected ToolExamples.

(** ** C36: a faulty schema gives 101, not 1: two declarations of one datatype prefix; conflicting facets *)
Definition dup_rnc : schema := Schema [DDatatypes (lit "d") (lt "u"); DDatatypes (lit "d") (lt "v")] (TPattern (tag "r" SEmpty)).
Definition conflict_rnc : schema := Schema [] (TPattern (tag "r" (SData (SdC (lit "xsd") (lit "string")) (Some [(None, IKId (lit "minLength"), lt "3"); (None, IKId (lit "maxLength"), lt "2")]) None))).
Theorem C36_schema_refuted : forall O C order docs,
  (exists p, settles (tool O C order (files [(P "a.rnc", dup_rnc)]) (P "a.rnc") docs) (Panic p)) /\
  (exists p, settles (tool O C order (files [(P "a.rnc", conflict_rnc)]) (P "a.rnc") docs) (Panic p)).
Proof. intros O C order docs. split; eexists; (eapply tool_schema; [vm_compute; reflexivity | reflexivity]). Qed.
Print Assumptions C36_schema_refuted.
(** a document with an XML error in its only line gives 101, not 2: [<book><] *)
Definition cut_doc : document := Document_ (L "<book><") [TElementStart [] (L "book"); TElementEnd EndOpen] (Some 1) (fun _ => (0, 0)).
Theorem C36_xml_refuted : forall O C order, compiles O C src_files (P "cards.rnc") 1 src_st /\ fails O (cell_defs src_st) (start_of 1 src_st) (Some cut_doc) /\
  exists p, settles (tool O C order src_files (P "cards.rnc") [Some cut_doc]) (Panic p).
Proof.
  intros O C order. split; [apply src_compiles_all|]. split.
  - exists cut_doc. split; [reflexivity|]. left. split; [discriminate|]. eexists. settle_with 40.
  - eexists. eapply tool_docs; [exact (src_compiles O C)|]. settle_with 40.
Qed.
Print Assumptions C36_xml_refuted.
(** a document that ends before its root does, without an XML error, gives 0 *)
Definition open_doc : document := Document_ (L "<book>") [TElementStart [] (L "book"); TElementEnd EndOpen] None (fun _ => (0, 0)).
Theorem C36_open_refuted : forall O C order, settles (tool O C order src_files (P "cards.rnc") [Some open_doc]) (Ok 0).
Proof. intros O C order. eapply tool_docs; [exact (src_compiles O C)|]. settle_with 40. Qed.
Print Assumptions C36_open_refuted.

(** ** C55 *)
Definition named (s : string) : nameclass := NNamed [] (L s).
Definition leaf (s : string) : mpat := MElement (named s) MEmpty.
(** the state after [<r>] *)
Definition inside (O : oracles) (p : mpat) (v : validator) : Prop := check O [] (MElement (named "r") p) [TElementStart [] (L "r"); TElementEnd EndOpen] 40 = Ok (v, None).
Definition offers (v : validator) (s : string) : Prop := exists h, heads 40 (v_store v) (v_cur v) = Ok h /\ describe h = lit s.
Definition takes (O : oracles) (v : validator) (s : string) : Prop := exists v', Events.run O 40 v (start_tag [] (L s) [] EndEmpty) = Ok (v', None).
Definition refuses (O : oracles) (v : validator) (s : string) : Prop := exists v' e, Events.run O 40 v (start_tag [] (L s) [] EndEmpty) = Ok (v', Some e).
(** element r { a?, b }: b may come, only a is named *)
Theorem C55_omits_refuted : forall O, exists v, inside O (MGroup [MOptional (leaf "a"); leaf "b"]) v /\ offers v "Element a" /\ takes O v "b".
Proof. intros O. eexists. split; [vm_compute; reflexivity|]. split; [eexists; split; vm_compute; reflexivity | eexists; vm_compute; reflexivity]. Qed.
(** element r { a, b }: b is named, but may not come *)
Theorem C55_lists_refuted : forall O, exists v, inside O (MGroup [leaf "a"; leaf "b"]) v /\ offers v "Element b a" /\ refuses O v "b" /\ takes O v "a".
Proof. intros O. eexists. split; [vm_compute; reflexivity|]. split; [eexists; split; vm_compute; reflexivity|]. split; [eexists _, _; vm_compute; reflexivity | eexists; vm_compute; reflexivity]. Qed.
(** element r { text, b }: the help for a wrong element is "Remove this" although b must come *)
Theorem C55_remove_refuted : forall O, exists v, inside O (MGroup [MText; leaf "b"]) v /\ takes O v "b" /\ refuses O v "c" /\
  exists s, diagnostic 40 id_order v (L "<r><c/>") (DVal (ENotAllowed (TElementStart [] (L "c"))) (3, 5)) = Ok (s, Some (lit "Remove this")).
Proof. intros O. eexists. split; [vm_compute; reflexivity|]. split; [eexists; vm_compute; reflexivity|]. split; [eexists _, _; vm_compute; reflexivity | eexists; vm_compute; reflexivity]. Qed.
Print Assumptions C55_omits_refuted.
Print Assumptions C55_lists_refuted.
Print Assumptions C55_remove_refuted.

(** ** C56: the row of an XML error counts from 1, the lines of the file from 0 *)
(** an error in the last line always panics *)
Lemma last_line text : forall pos, List.length (line_starts pos text) = List.length (filter (fun c => (c =? 10)%N) text).
Proof. induction text as [|c text IH]; intros pos; cbn [line_starts filter]; [reflexivity|]. destruct (c =? 10)%N; cbn [List.length]; rewrite IH; reflexivity. Qed.
Theorem C56_xml_refuted : forall n order v text row, row = S (List.length (filter (fun c => (c =? 10)%N) text)) ->
  exists p, diagnostic n order v text (DXml row) = Panic p.
Proof.
  intros n order v text row ->. exists PUnreachable. cbn [diagnostic]. unfold line_span. cbn [nth_error].
  rewrite (proj2 (nth_error_None _ _)); [reflexivity|]. rewrite last_line. lia.
Qed.
Print Assumptions C56_xml_refuted.
(** an error elsewhere is shown in the next line: [<a><] in the first of two lines *)
Theorem C56_line_refuted : forall n order v, let text := L "<a><" ++ [10%N] ++ L "</a>" in exists s h, diagnostic n order v text (DXml 1) = Ok (s, h) /\ 5 <= fst s.
Proof. intros n order v. eexists _, _. split; [reflexivity | cbn; lia]. Qed.
Print Assumptions C56_line_refuted.
