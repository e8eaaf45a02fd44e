(** * PropsText: bytes, white space, lines, and the exit status of the tool (C12, C36, C54, C74).  Only statements;
    specifications are in TextSpec.v, proofs in TextFacts.v. *)
From Coq Require Import String.
From Verif Require Import Base Datatype Facets Store Deriv Events Syntax Compile SchemaCompile SchemaMain SchemaExamples Main Examples Diag Tool ToolProof ToolExamples XmlSyntax TextSpec TextFacts.

(** ** C74: a position counts bytes: the length of a text in the model is the length of its UTF-8 encoding (RFC 3629), for
    every text of code points *)
Theorem C74_bytes : forall s, Forall (fun c => (c < 1114112)%N) s -> exists bs, Utf8_text s bs /\ utf8_len s = List.length bs.
Proof. exact utf8_text_exists. Qed.
Print Assumptions C74_bytes.
Theorem C74_bytes_unique : forall s bs, Utf8_text s bs -> utf8_len s = List.length bs.
Proof. exact utf8_text. Qed.
Print Assumptions C74_bytes_unique.
Example C74_bytes_instance : Utf8_text [65%N; 233%N; 8364%N; 128512%N] ([65] ++ [195; 169] ++ [226; 130; 172] ++ [240; 159; 152; 128] ++ [])%N /\ utf8_len [65%N; 233%N; 8364%N; 128512%N] = 10.
Proof.
  split; [|reflexivity]. apply Ut_cons; [apply U_one; lia|]. apply Ut_cons; [apply (U_two 3 41); lia|]. apply Ut_cons; [apply (U_three 2 2 44); lia|].
  apply Ut_cons; [apply (U_four 0 31 24 0); lia | constructor].
Qed.

(** ** C12: the white space that separates the items of a list is that of Unicode *)
Theorem C12_white_space : forall c, is_uni_ws c = true <-> In c white_space_table.
Proof. exact white_space_ok. Qed.
Print Assumptions C12_white_space.

(** ** C54: the span of an XML syntax error, exactly: it starts [col] after the end of the characters of the first [row]
    lines, line ends not counted, and ends at the number of characters after [col] in line [row]; where line [row] (or the last
    one, if there are fewer) has fewer than [col] bytes it cannot be computed.  A text is its bytes. *)
Theorem C54_exact : forall text ls row col s e, Lines text ls ->
  (error_span text row col = Some (s, e) <->
   exists len, len = match rev (firstn row ls) with [] => 0 | l :: _ => List.length l end /\ col <= len /\ s = total_length (firstn row ls) + col /\ e = len - col).
Proof. exact error_span_ok. Qed.
Print Assumptions C54_exact.
Theorem C54_lines_exist : forall text, exists ls, Lines text ls.
Proof. exact lines_exist. Qed.
Print Assumptions C54_lines_exist.
(** line ends are not counted, so that from the second line on the span is wrong by the line ends before it, too *)
Example C54_exact_instance : Lines (lit "<a" ++ [13%N; 10%N] ++ lit "b cd>") [lit "<a"; lit "b cd>"] /\ error_span (lit "<a" ++ [13%N; 10%N] ++ lit "b cd>") 2 3 = Some (10, 2).
Proof.
  assert (H : Lines (lit "<a" ++ [13%N; 10%N] ++ lit "b cd>") [lit "<a"; lit "b cd>"]).
  { apply (Ln_crlf (lit "<a") (lit "b cd>") [lit "b cd>"]); [cbn; intuition discriminate|]. apply Ln_last; [discriminate | cbn; intuition discriminate]. }
  split; [exact H|]. apply (C54_exact _ _ 2 3 10 2 H). exists 5. repeat split. cbn. lia.
Qed.

(** ** C36: the exit status of the process *)
Theorem C36_status_codes : forall O C order fs name docs k, exits O C order fs name docs k -> k = 0 \/ k = 1 \/ k = 2 \/ k = 101.
Proof. exact exits_codes. Qed.
Print Assumptions C36_status_codes.
Theorem C36_status_zero : forall O C order fs name docs, exits O C order fs name docs 0 <->
  exists r st, compiles O C fs name r st /\ Forall (passes O (cell_defs st) (start_of r st)) docs.
Proof. exact exits_zero. Qed.
Print Assumptions C36_status_zero.
(** the status below 3 is the exit code of the tool, 101 is a panic *)
Theorem C36_status_code : forall O C order fs name docs k, k < 3 -> (exits O C order fs name docs k <-> settles (tool O C order fs name docs) (Ok k)).
Proof. exact exits_code. Qed.
Print Assumptions C36_status_code.
Theorem C36_status_crash : forall O C order fs name docs, exits O C order fs name docs 101 <-> exists p, settles (tool O C order fs name docs) (Panic p).
Proof. exact exits_crash. Qed.
Print Assumptions C36_status_crash.
(** a document that cannot be read ends the process with 101, whatever comes after it *)
Theorem C36_unreadable : forall O C order fs name r st pre post, compiles O C fs name r st -> Forall (passes O (cell_defs st) (start_of r st)) pre ->
  exits O C order fs name (pre ++ None :: post) 101.
Proof. exact exits_unreadable. Qed.
Print Assumptions C36_unreadable.
Example C36_unreadable_instance O C order : exits O C order src_files (P "cards.rnc") [Some good_doc; None; Some good_doc] 101.
Proof. exact (C36_unreadable O C order _ _ _ _ [Some good_doc] [Some good_doc] (src_compiles_all O C) (Forall_cons _ (good_passes O) (Forall_nil _))). Qed.
