(** * PropsTool: the command line tool and the diagnostics (C36, C55, C56).  Only statements; proofs
    are in ToolProof.v and Expected.v, instances in ToolExamples.v.

    Vocabulary: [tool O C order fs name docs] (Tool.v): the exit code of [rng validate name docs...];
    a panic of the process is a [Panic] (status 101).  [compiles] (ToolProof.v): the schema
    compiler accepts the files.  [passes], [fails]: a readable document without, with an error. *)
From Coq Require Import String.
From Verif Require Import Base Datatype Facets Store Deriv Events Lang Doc Accept Compile Syntax SchemaCompile Scope Infoset Main Reach Verdicts SourceSpec SourceScope SchemaSpec SchemaMain SchemaDoc SchemaExamples Examples.
From Verif Require Import Diag DiagProof FuelMono Tool ToolProof Expected ToolExamples.

(** ** C36 *)
(** 0: exactly if the schema compiles and every document is read to its end without an error *)
Theorem C36_exit_zero : forall O C order fs name docs, settles (tool O C order fs name docs) (Ok 0) <->
  exists r st, compiles O C fs name r st /\ Forall (passes O (cell_defs st) (start_of r st)) docs.
Proof. exact exit_zero. Qed.
Print Assumptions C36_exit_zero.
Example C36_exit_zero_instance O C order : settles (tool O C order src_files (P "cards.rnc") [Some good_doc; Some good_doc]) (Ok 0).
Proof. apply C36_exit_zero. exists 1, src_st. split; [apply src_compiles_all | repeat constructor; apply good_passes]. Qed.
(** 1: exactly if the schema is faulty.  Missing: faults the compiler's diagnostic has no text for, on which it panics ([C36_schema_refuted]). *)
Theorem C36_exit_one_partial : forall O C order fs name docs, settles (tool O C order fs name docs) (Ok 1) <->
  exists e, settles (fun n => compile_grammar O C fs n name) (ferr e) /\ schema_diagnostic e = Ok tt.
Proof. exact exit_one. Qed.
Print Assumptions C36_exit_one_partial.
Example C36_exit_one_instance O C order : settles (tool O C order (files [(P "a.rnc", Schema [] (TPattern (tag "r" (ref "nowhere"))))]) (P "a.rnc") [None]) (Ok 1).
Proof. apply C36_exit_one_partial. eexists. split; [apply (compile_up _ _ _ _ 5); vm_compute; reflexivity | reflexivity]. Qed.
(** 2: only if the schema compiles, some document fails and those before it pass *)
Theorem C36_exit_two : forall O C order fs name docs, settles (tool O C order fs name docs) (Ok 2) ->
  exists r st pre o post, compiles O C fs name r st /\ docs = pre ++ o :: post /\
    Forall (passes O (cell_defs st) (start_of r st)) pre /\ fails O (cell_defs st) (start_of r st) o.
Proof. exact exit_two. Qed.
Print Assumptions C36_exit_two.
(** and if a document is rejected by the validator.  Missing: documents with an XML error, on which the
    diagnostic panics or not depending on the number of lines ([C36_xml_refuted]). *)
Theorem C36_rejected_partial : forall O C order fs name r st pre d post, compiles O C fs name r st ->
  rng_schema (cell_defs st) (start_of r st) -> in_limits (cell_defs st) (start_of r st) ->
  Forall (passes O (cell_defs st) (start_of r st)) pre -> rejects O (cell_defs st) (start_of r st) (d_toks d) ->
  stream_ok false (d_toks d) -> positioned d ->
  settles (tool O C order fs name (pre ++ Some d :: post)) (Ok 2).
Proof. exact exit_two_back. Qed.
Print Assumptions C36_rejected_partial.
Example C36_rejected_instance O C order : settles (tool O C order src_files (P "cards.rnc") [Some good_doc; Some bad_doc; None]) (Ok 2).
Proof. exact (C36_rejected_partial O C order _ _ _ _ [Some good_doc] bad_doc [None] (src_compiles_all O C) src_rng src_limits (Forall_cons _ (good_passes O) (Forall_nil _)) (bad_rejects O) bad_stream bad_placed). Qed.
(** there is no other exit code *)
Theorem C36_codes : forall O C order fs name docs k, settles (tool O C order fs name docs) (Ok k) -> k = 0 \/ k = 1 \/ k = 2.
Proof. exact exit_codes. Qed.
Print Assumptions C36_codes.
(** the verdict is the one of the RELAX NG specification, on the schema as written (with C01, C02, C28) *)
Theorem C36_zero_is_valid_partial : forall O C order fs name docs, files_ok fs ->
  (forall r st, compiles O C fs name r st -> rng_schema (cell_defs st) (start_of r st) /\ in_limits (cell_defs st) (start_of r st)) ->
  settles (tool O C order fs name docs) (Ok 0) ->
  forall d x root, In (Some d) docs -> reads d x -> Document x root ->
  (forall r st, compiles O C fs name r st -> doc_fits (cell_defs st) (start_of r st) x /\ plain_for (cell_defs st) (start_of r st) root) -> schema_valid fs O C name root.
Proof. exact exit_zero_valid. Qed.
Print Assumptions C36_zero_is_valid_partial.
Lemma src_only O C r st : compiles O C src_files (P "cards.rnc") r st -> r = 1 /\ st = src_st.
Proof. intros H. pose proof (settles_fun _ _ _ H (src_compiles_all O C)) as E. injection E as -> ->. split; reflexivity. Qed.
Example C36_zero_is_valid_instance O C : schema_valid src_files O C (P "cards.rnc") ex_root.
Proof.
  refine (C36_zero_is_valid_partial O C id_order src_files (P "cards.rnc") [Some good_doc; Some good_doc] src_files_ok _ (C36_exit_zero_instance O C id_order) good_doc ex_doc ex_root (or_introl eq_refl) (conj eq_refl eq_refl) ex_document _).
  - intros r st H. apply src_only in H as [-> ->]. exact (conj src_rng src_limits).
  - intros r st H. split; [apply scope_fits, ex_scope | intros _; exact ex_plain].
Qed.
Theorem C36_two_is_invalid_partial : forall O C order fs name docs, files_ok fs ->
  (forall r st, compiles O C fs name r st -> rng_schema (cell_defs st) (start_of r st) /\ in_limits (cell_defs st) (start_of r st)) ->
  settles (tool O C order fs name docs) (Ok 2) ->
  (forall d, In (Some d) docs -> exists x root, reads d x /\ Document x root /\
     forall r st, compiles O C fs name r st -> doc_fits (cell_defs st) (start_of r st) x /\ plain_for (cell_defs st) (start_of r st) root /\ harmless O (cell_defs st) [root] (start_of r st)) ->
  exists d x root, In (Some d) docs /\ reads d x /\ Document x root /\ ~ schema_valid fs O C name root.
Proof. exact exit_two_invalid. Qed.
Print Assumptions C36_two_is_invalid_partial.
Example C36_two_is_invalid_instance O C : exists d x root, In (Some d) [Some bad_doc] /\ reads d x /\ Document x root /\ ~ schema_valid src_files O C (P "cards.rnc") root.
Proof.
  refine (C36_two_is_invalid_partial O C id_order src_files (P "cards.rnc") [Some bad_doc] src_files_ok _
    (C36_rejected_partial O C id_order _ _ _ _ [] bad_doc [] (src_compiles_all O C) src_rng src_limits (Forall_nil _) (bad_rejects O) bad_stream bad_placed) _).
  - intros r st H. apply src_only in H as [-> ->]. exact (conj src_rng src_limits).
  - intros d [[= <-]|[]]. exists ex_bad, ex_bad_root. split; [split; reflexivity|]. split; [exact ex_bad_document|].
    intros r st H. apply src_only in H as [-> ->]. split; [apply scope_fits, ex_bad_scope|]. split; [intros _; exact ex_bad_plain|]. intros a nc p K; exfalso; cbn in K; intuition discriminate.
Qed.

(** ** C55: the elements named by the help of a diagnostic *)
(** an element whose start tag would be accepted is listed.  Missing: expected patterns with an optional
    part followed by something, where elements that may come are left out ([C55_omits_refuted]). *)
Theorem C55_acceptable_is_listed_partial : forall O defs start v, reachable O defs start v -> forall prefix local atts e n v', e = EndOpen \/ e = EndEmpty ->
  Events.run O n v (start_tag prefix local atts e) = Ok (v', None) -> forall m h, heads m (v_store v) (v_cur v) = Ok h -> NoSkip (v_store v) (v_cur v) ->
  exists nm nc p, current_element (v_stack v') = Ok (inl nm) /\ In (PElement nc p) h /\ contains nc nm = true.
Proof. exact covered. Qed.
Print Assumptions C55_acceptable_is_listed_partial.
Example C55_instance (O : oracles) : exists v', v_stack v' <> [] /\ exists nm nc p h, current_element (v_stack v') = Ok (inl nm) /\ In (PElement nc p) h /\ contains nc nm = true /\ describe h = lit "Element card".
Proof.
  destruct (card_expected O) as (v & v' & h & HR & Hrun & Hh & HN & Hd).
  destruct (C55_acceptable_is_listed_partial O ex_defs ex_start v HR _ _ _ _ _ _ (or_introl eq_refl) Hrun _ _ Hh HN) as (nm & nc & p & H1 & H2 & H3).
  exists v'. split; [|exists nm, nc, p, h; auto]. intros E. rewrite E in H1. discriminate H1.
Qed.
(** what is listed occurs in the rest of the current element's content.  Missing: that it may come next ([C55_lists_refuted]). *)
Theorem C55_listed_occurs_partial : forall st id m h x, heads m st id = Ok h -> In x h -> exists g, Part st id g /\ nth_error (pats st) g = Some x.
Proof. exact listed_part. Qed.
Print Assumptions C55_listed_occurs_partial.
Example C55_occurs_instance : heads 9 (Store [PElement (NNamed [] (L "a")) 1; PEmpty; PText; PInterleave 0 2 false] [] []) 3 = Ok [PElement (NNamed [] (L "a")) 1].
Proof. reflexivity. Qed.
(** the text ([class_text] writes one name class): the first four in the order of the set, and how many more there are *)
Theorem C55_text : forall order, let l := flat_map element_class order in
  (l = [] -> help_text (describe order) = lit "Remove this") /\
  (l <> [] -> List.length l <= 4 -> help_text (describe order) = lit "Expected Element " ++ joined (mentioned l)) /\
  (4 < List.length l -> exists s, Numeral (List.length l - 4) s /\
     help_text (describe order) = lit "Expected Element " ++ joined (firstn 4 (mentioned l)) ++ lit " .. or one of " ++ s ++ lit " more").
Proof. exact help_described. Qed.
Print Assumptions C55_text.
Example C55_text_instance : help_text (describe (map (fun s => PElement (NNamed [] (L s)) 0) ["a"; "b"; "c"; "d"; "e"; "f"]%string)) = lit "Expected Element a b c d .. or one of 2 more".
Proof. reflexivity. Qed.

(** ** C56: a diagnostic can be made for whatever the validator reports, and it points into the file.
    Missing: XML errors ([C56_xml_refuted] and [C56_xml_label]). *)
Theorem C56_diagnostic_partial : forall O order defs start, rng_schema defs start -> in_limits defs start -> forall toks t v e n, stream_ok false (toks ++ [t]) ->
  check O defs start (toks ++ [t]) n = Ok (v, Some e) -> (exists w, check O defs start toks n = Ok (w, None)) ->
  forall text sp, fst sp <= snd sp <= utf8_len text -> match t with TText s x => s + utf8_len x <= utf8_len text | _ => True end ->
  exists s h, settles (fun m => diagnostic m order v text (DVal e sp)) (Ok (s, h)) /\ fst s <= snd s <= utf8_len text.
Proof. exact diagnostic_total. Qed.
Print Assumptions C56_diagnostic_partial.
Example C56_instance (O : oracles) : exists v e s h, settles (fun m => diagnostic m id_order v (L "<book><card><name>A</name><name>B</name></card></book>") (DVal e (26, 31))) (Ok (s, h)) /\ fst s <= snd s <= 54.
Proof.
  destruct (bad_report O) as (v & e & H1 & H2 & H3). exists v, e.
  exact (C56_diagnostic_partial O id_order ex_defs ex_start ex_rng ex_limits _ _ v e 40 H3 H1 H2 (L "<book><card><name>A</name><name>B</name></card></book>") (26, 31) ltac:(cbn; lia) I).
Qed.
(** the label of an XML error: row [row], which the tokenizer counts from 1, is looked up counting from 0, and the
    number of the row is used as the column; where there is no such place the diagnostic cannot be made *)
Theorem C56_xml_label : forall n order v text row s h, diagnostic n order v text (DXml row) = Ok (s, h) <->
  exists pre line, is_line text row pre line /\ row <= utf8_len line /\ s = (utf8_len pre + row, utf8_len pre + row) /\ h = None.
Proof. exact xml_label. Qed.
Print Assumptions C56_xml_label.
Example C56_xml_label_instance : is_line (L "<a><" ++ [10%N] ++ L "</a>") 1 (L "<a><" ++ [10%N]) (L "</a>").
Proof. exists []. split; [reflexivity|]. split; [reflexivity|]. split; [right; exists (L "<a><"); reflexivity|]. left. split; [vm_compute; intuition discriminate | reflexivity]. Qed.
