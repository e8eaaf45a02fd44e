(** * ToolExamples: instances for the theorems on the tool and on diagnostics. *)
From Coq Require Import String.
From Verif Require Import Base Datatype Facets Store Deriv Events Lang Compile Syntax SchemaCompile SourceScope SchemaMain SchemaTerm SchemaExamples Scope Infoset Doc Accept Main Steps Reach Verdicts Examples Diag DiagProof FuelMono Tool ToolProof Expected.

Lemma tool_docs O C order fs name docs r st k : compile_grammar O C fs 5 name = fok (r, st) ->
  settles (fun m => docs_loop O order m (cell_defs st) (start_of r st) docs) k -> settles (tool O C order fs name docs) k.
Proof.
  intros H [n K]. exists (n + 5). intros m L. unfold tool. rewrite (compile_mono O C fs 5 m name) by (try lia; rewrite H; intro X; discriminate X). rewrite H. cbn. apply K. lia.
Qed.
Lemma tool_schema O C order fs name docs e k : compile_grammar O C fs 5 name = ferr e -> rbind (schema_diagnostic e) (fun _ => Ok 1) = k -> settles (tool O C order fs name docs) k.
Proof.
  intros H K. exists 5. intros m L. unfold tool. rewrite (compile_mono O C fs 5 m name) by (try lia; rewrite H; intro X; discriminate X). rewrite H. exact K.
Qed.
(** a document the schema of SchemaExamples accepts, and one it rejects *)
Definition good_doc : document := Document_ (L "<book>...") (doc_tokens ex_doc) None (fun _ => (0, 0)).
Definition bad_doc : document := Document_ (L "<book><card><name>A</name><name>B</name></card></book>") (doc_tokens ex_bad) None (fun _ => (26, 31)).
Lemma src_compiles_all O C : compiles O C src_files (P "cards.rnc") 1 src_st.
Proof. exact (compile_up O C _ _ 5 _ (src_compiles O C)). Qed.
Lemma good_passes O : passes O src_defs ex_start (Some good_doc).
Proof. exists good_doc. split; [reflexivity|]. split; [reflexivity|]. exact (src_accepts O). Qed.
Lemma bad_rejects O : rejects O src_defs ex_start (d_toks bad_doc).
Proof. eexists; eexists. settle_with 40. Qed.
Lemma bad_stream : stream_ok false (d_toks bad_doc).
Proof. cbn. auto. Qed.
Lemma bad_placed : positioned bad_doc.
Proof. split; [intros k; cbn; lia|]. cbn. repeat constructor. Qed.
(** the validator's state at the second [name] of [bad_doc], its report, and the help *)
Definition bad_prefix : list token := firstn 9 (doc_tokens ex_bad).
Definition bad_token : token := nth 9 (doc_tokens ex_bad) (TComment []).
Definition id_order : list pat -> list pat := fun l => l.
Lemma bad_report O : exists v e, check O ex_defs ex_start (bad_prefix ++ [bad_token]) 40 = Ok (v, Some e) /\ (exists w, check O ex_defs ex_start bad_prefix 40 = Ok (w, None)) /\
  stream_ok false (bad_prefix ++ [bad_token]).
Proof. eexists _, _. split; [vm_compute; reflexivity|]. split; [eexists; vm_compute; reflexivity | cbn; auto]. Qed.
(** [<card> ... ] after [<book>]: a card may come, and the list says so *)
Lemma card_expected O : exists v v' h, reachable O ex_defs ex_start v /\ Events.run O 40 v (start_tag [] (L "card") [([], L "id", L "k")] EndOpen) = Ok (v', None) /\
  heads 40 (v_store v) (v_cur v) = Ok h /\ NoSkip (v_store v) (v_cur v) /\ describe h = lit "Element card".
Proof.
  destruct (check O ex_defs ex_start [TElementStart [] (L "book"); TElementEnd EndOpen] 40) as [[v e]| |] eqn:E; [|vm_compute in E; discriminate E ..].
  exists v. pose proof (check_reachable _ _ _ _ _ _ _ E) as HR. vm_compute in E. injection E as <- _. eexists _, _. split; [exact HR|]. split; [vm_compute; reflexivity|]. split; [vm_compute; reflexivity|]. split; [|vm_compute; reflexivity].
  apply (no_skip_ok 40). vm_compute. reflexivity.
Qed.
