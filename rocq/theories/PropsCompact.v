(** * PropsCompact: the property theorems on the compact syntax parser (C34, C35, C48, C49). *)
From Coq Require Import String.
From Verif Require Import Base Datatype Syntax CompactParse CompactTotal CompactText CompactReadTop CompactSound CompactPrint CompactNames CompactMain.

(** ** C34: parsing the canonical text of a schema returns that schema *)
Theorem C34_parse_print : forall x, Printable x -> parse_compact (print_schema x) = Parsed x.
Proof. exact parse_print. Qed.
Print Assumptions C34_parse_print.
Example C34_instance : parse_compact (print_schema big) = Parsed big.
Proof. exact (C34_parse_print _ big_printable). Qed.
(** with any layout, comments, quoting and annotations: [Text x s] (CompactText.v) *)
Theorem C34_every_text_partial : forall x s, Text x s -> parse_compact s = Parsed x.
Proof. exact schema_read. Qed.
Print Assumptions C34_every_text_partial.
Example C34_text_instance : parse_compact laid_out = Parsed (Schema [] (TGrammar [GDefine (lit "start") MAssign SEmpty])).
Proof. exact (C34_every_text_partial _ _ laid_out_text). Qed.
Theorem C34_unambiguous : forall x y s, Text x s -> Text y s -> x = y.
Proof. exact unambiguous. Qed.
Theorem C34_layout : forall x s s', Text x s -> Text x s' -> parse_compact s = parse_compact s'.
Proof. exact same_schema. Qed.
Print Assumptions C34_layout.

(** ** C49: nothing else is accepted: what is parsed is a text of the compact syntax, and denotes the schema returned *)
Theorem C49_accepted_text : forall x s, parse_compact s = Parsed x -> LaxText x s.
Proof. exact schema_sound. Qed.
Print Assumptions C49_accepted_text.
Example C49_instance : LaxText (Schema [] (TGrammar [GDefine (lit "start") MAssign SEmpty])) laid_out.
Proof. exact (C49_accepted_text _ _ C34_text_instance). Qed.

(** ** C35: keywords and identifiers *)
Theorem C35_definition : forall w, Ident w -> parse_compact (w ++ lit " = empty" ++ LF) = Parsed (Schema [] (TGrammar [GDefine w MAssign SEmpty])).
Proof. exact def_read. Qed.
Example C35_instance : parse_compact (lit "elements" ++ lit " = empty" ++ LF) = Parsed (Schema [] (TGrammar [GDefine (lit "elements") MAssign SEmpty])).
Proof. exact (C35_definition (lit "elements") ltac:(ident)). Qed.
Theorem C35_reference_partial : forall w, Ident w -> no_type_keyword w ->
  parse_compact (lit "start = " ++ w ++ LF) = Parsed (Schema [] (TGrammar [GDefine (lit "start") MAssign (SIdent w)])).
Proof. exact ref_read. Qed.
Example C35_reference_instance : parse_compact (lit "start = texts" ++ LF) = Parsed (Schema [] (TGrammar [GDefine (lit "start") MAssign (SIdent (lit "texts"))])).
Proof. exact (C35_reference_partial (lit "texts") ltac:(ident) ltac:(notype)). Qed.
(** every name a parsed schema refers to is an identifier, and every name it defines is one, or [start] *)
Theorem C35_names : forall x s, parse_compact s = Parsed x -> Forall use_ok (schema_uses x).
Proof. exact schema_names. Qed.
Print Assumptions C35_names.
Example C35_names_instance : Forall use_ok (schema_uses big).
Proof. exact (C35_names _ _ C34_instance). Qed.
Theorem C35_keyword : forall k, In k Keywords -> k <> lit "start" -> parse_compact (k ++ lit " = empty" ++ LF) = ParseError.
Proof. exact keyword_not_defined. Qed.
Theorem C35_keyword_reference : forall k, In k Keywords -> forall h, parse_compact (lit "start = " ++ k ++ LF) <> Parsed (Schema [] (TGrammar [GDefine (lit "start") h (SIdent k)])).
Proof. exact keyword_not_reference. Qed.

(** ** C48: the parser answers on every text *)
Theorem C48_terminates : forall text, parse_compact text <> ParseFuel.
Proof. exact parse_total. Qed.
Print Assumptions C48_terminates.
Theorem C48_no_panic_partial : forall text p, ~ OpenComment text -> ~ HasFollow text -> parse_compact text <> ParsePanic p.
Proof. exact parse_no_panic. Qed.
Print Assumptions C48_no_panic_partial.
Theorem C48_panics : forall text p, parse_compact text = ParsePanic p -> (p = PUnimplemented /\ OpenComment text) \/ (p = PUnwrapNone /\ HasFollow text).
Proof. exact parse_panic. Qed.
Example C48_instance : forall p, parse_compact (lit "<grammar/>") <> ParsePanic p.
Proof.
  intros p. apply C48_no_panic_partial.
  - intros (a & b & E & _). apply (f_equal (existsb (N.eqb 35))) in E. rewrite !existsb_app in E. cbn in E. rewrite orb_true_r in E. vm_compute in E. discriminate E.
  - intros (a & b & E). apply (f_equal (filter (N.eqb 62))) in E. rewrite !filter_app in E.
    change (filter (N.eqb 62) (lit ">>")) with [62%N; 62%N] in E. change (filter (N.eqb 62) (lit "<grammar/>")) with [62%N] in E.
    apply (f_equal (@List.length N)) in E. rewrite !app_length in E. cbn [List.length] in E. lia.
Qed.
