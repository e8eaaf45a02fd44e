#!/usr/bin/env python3
"""Writes MANIFEST.json from the table below."""
import json, os
C = {}
def claim(pid, status, theorems, note=""):
    C[pid] = {"property": pid, "status": status, "theorems": theorems.split(), "note": note}

claim("C01", "partial", "C01_accepted_is_valid_partial C01_accepted_as_read_partial C01_refuted",
      "Soundness against RELAX NG section 9.3 for every restricted schema and every document in doc_fits (single-declaration prefixes, no default namespace, references decoded, text in several pieces only where the schema has no data). Outside that scope the code is wrong: C01_refuted, C14_refuted, C15_refuted, C16_refuted.")
claim("C02", "partial", "C02_valid_is_accepted_partial C02_decides_partial C02_decides_any_white_space_partial C02_no_lists C02_recursion_refuted",
      "Completeness under the same scope, schemas whose recursion is harmless; C02_recursion_refuted shows a schema where a valid document is rejected (stale nullable flag).")
claim("C03", "partial", "C03_rejected_prefix_is_hopeless_partial", "Same scope as C02.")
claim("C04", "partial", "C04_total_partial C04_refuted", "Every document over a legal schema settles (or hits the documented limit); C04_refuted: an alias definition panics.")
claim("C05", "proved", "C05_name_class")
claim("C06", "partial", "C06_attribute_order_partial C06_any_document_partial", "For every document whose data content is not split (C06_any_document_partial: no doc_reads needed).")
claim("C07", "proved", "C07_invisible_tokens")
claim("C08", "proved", "C08_empty_element_tag")
claim("C09", "proved", "C09_rejected_token")
claim("C10", "proved", "C10_handles_stable C10_handles_shared C10_limit")
claim("C11", "partial", "C11_attribute_value C11_attribute_value_any_white_space C11_literal_value_partial C11_literal_value_exact C16_attribute_refuted", "Exact for all values, taken literally (C11_literal_value_exact); references in attribute values are not decoded (C16_attribute_refuted).")
claim("C12", "partial", "C12_list_partial C12_list_exact C12_white_space C12_refuted", "C12_list_exact: every string, the tokens being the runs between Unicode white space; C12_refuted: so NBSP splits, which XML white space does not.")
claim("C13", "proved", "C13_except")
claim("C14", "partial", "C02_decides_partial C47_verdict_on_reading_partial C47_unreadable_rejected C14_refuted C14_undeclared_refuted", "C47 states the exact resolution rule; Prefix scoping holds within doc_reads (part of C02_decides_partial); refuted in general: closed elements' declarations stay.")
claim("C15", "partial", "C02_decides_partial C47_verdict_on_reading_partial C15_refuted", "C47 states the exact resolution rule; Holds for documents without default namespace (part of C02_decides_partial); refuted: xmlns is ignored.")
claim("C16", "partial", "C16_references_decoded_partial C16_bad_reference_reported_partial C16_refuted C16_attribute_refuted C16_faulty_refuted C16_twice_refuted", "Decoding of text within doc_scope; undefined, malformed, out-of-range and unclosed references are reported after any decodable text. Refuted by an entity whose value is as long as its reference, by attribute values, and by &#+65;, &#0; and a lone final ampersand. Of two declarations of an entity the last is taken (refuted).")
claim("C37", "partial", "C37_undefined_entity_position C37_unclosed_position_partial C37_refuted", "Ranges of undefined and unclosed references are exact, in document coordinates; faulty numeric references are reported relative to the token (C37_refuted).")
claim("C17", "partial", "C17_empty_element_partial C17_refuted", "Exact: an empty element is accepted iff its content pattern matches the empty sequence. Refuted: <foo/> is rejected for data accepting the empty string.")
claim("C18", "partial", "C18_next_token_fits_partial C18_balanced_is_complete_partial C18_refuted", "Proved: an accepted stream is always the beginning of one document (no surplus end tag, one root, only white space outside it), and is complete once its tags balance. Refuted: a truncated document passes.")
claim("C19", "partial", "C19_pieces_partial C38_content_decides_partial C01_accepted_as_read_partial C19_refuted C19_false_accept_refuted", "C01_accepted_as_read_partial bounds what any accepted split content is taken as. Holds wherever the schema gives the element no data, value or list: the verdict is that of the joined text. Refuted for data content: text split by a comment is matched piecewise.")
claim("C20", "partial", "C20_collapse_partial C20_exact C20_words_exist C20_idempotent C20_refuted", "Words by ASCII white space, all strings (C20_exact); by XML white space for strings without form feed; refuted for form feed.")
claim("C21", "partial", "C21_string C21_token_partial C21_token_exact", "token: all strings, with form feed counted as white space (C21_token_exact).")
claim("C22", "partial", "C22_fixed_width C22_integer_partial C22_integer_exact C22_positive_exact C22_underscore_refuted C22_positive_refuted C22_white_space_refuted",
      "Fixed-width types proved in full; integer for strings without underscore (exact set in C22_integer_exact).")
claim("C23", "partial", "C23_string C27_ncname C23_normalized_partial C23_normalized_exact C23_normalized_refuted C23_token_refuted", "string and NCName in full; normalizedString collapses instead of replacing; NMTOKEN, NMTOKENS, token panic at validation.")
claim("C24", "partial", "C22_fixed_width C22_integer_exact C24_decimal C24_double_refuted C24_order_refuted C24_digits_refuted", "totalDigits and fractionDigits are ignored (refuted). All bounds are enforced for integer types and decimal; refuted for double, and conflicts are reported depending on order.")
claim("C25", "partial", "C25_total_partial C83_panic C83_outcome C83_types C25_refuted", "No panic unless a length facet follows maxLength/length or a bound is repeated; C83_panic: exactly when it panics.")
claim("C26", "proved", "C26_boolean C26_language C26_datetime C26_datetime_differs", "C26_datetime_differs records where this shape differs from XML Schema's.")
claim("C27", "proved", "C27_ncname")
claim("C28", "partial", "C28_compiled_meaning_partial C28_optional C28_zero_or_more C28_mixed C28_accepted_is_valid_partial C28_valid_is_accepted_partial",
      "The compiled schema has the meaning of the source schema, through files, includes, nested grammars and combination, for the features the compiler supports correctly (files_ok: default namespace \"\", no inherit, datatype prefixes declared in their own file, external patterns as in ext_ok).")
claim("C29", "partial", "C29_order_partial C29_combined_partial C29_combinable_partial C29_merge C29_shuffled_compiles_partial C29_shuffled_meaning_partial C29_shuffled_valid", "For files in files_ok; C29_order_partial and C29_combined_partial compare two schemas that both compile; C29_shuffled_compiles_partial: for tidy schemas, any order of the contents of any of the grammar files compiles if one does; C29_combinable_partial: whatever compiles is combinable.")
claim("C30", "partial", "C30_references_defined_partial C30_unused_refuted", "Every name reachable from start, through includes, nested grammars and external patterns, is defined when compilation succeeds; refuted for names in unused definitions of a nested grammar, which are not reported.")
claim("C31", "partial", "C31_self_reference_partial C31_refuted C31_pattern_refuted C31_parent_refuted C31_unused_refuted", "Direct self reference outside an element is refused in every file; recursion through another definition is not (refuted), and two legal forms are refused (refuted).")
claim("C32", "partial", "C32_replace_partial C32_override_defined_partial C32_replaced_body_refuted", "For files in files_ok; the names in a replaced definition must still be defined (refuted).")
claim("C33", "partial", "C33_no_cycle C33_no_return C33_terminates_partial C33_terminates_external_partial C33_names_refuted C33_override_refuted", "A cycle of includes and externals is never accepted (every file system); termination over finitely many file names, provided no bare grammar comes back to itself by externals (C42_external_loop_refuted); refuted when a file reaches itself under ever longer names; an overriding definition that reads the overridden file again is called a cycle (refuted).")
claim("C41", "partial", "C41_ignored C41_meaning_partial C41_prefixed_partial C41_default_namespace_refuted C41_inherit_decl_refuted", "Refuted. Exactly: the declaration is ignored (C41_ignored, every file system), so the compiled schema means the schema without it; that is the schema as written when all element names are prefixed (C41_prefixed_partial).")
claim("C42", "partial", "C28_compiled_meaning_partial C28_accepted_is_valid_partial C28_valid_is_accepted_partial C42_external_refuted C42_relative_refuted C42_external_loop_refuted",
      "The C28 theorems cover external patterns: the specification (SourceSpec.External) reads the file with its own declarations and place, and the compiled schema agrees when the file is a pattern without datatype declarations, or bare grammar contents with the same declarations in the same directory (ext_ok). Refuted outside: the declarations and the place of a bare grammar file are those of the referring file; a loop is not reported.")
claim("C43", "partial", "C43_nested_start_refuted C28_compiled_meaning_partial C59_correct_compiles_partial", "Refuted for recursion through start; otherwise nested grammars compile (C59) and mean what is written (C28).")
claim("C44", "partial", "C44_prefix_refuted C44_two_refuted C44_div_refuted C32_replace_partial C28_compiled_meaning_partial", "Refuted for overrides using prefixes of the including file, two definitions of one name, and div; the others have their meaning (C28, C32).")
claim("C45", "partial", "C45_xsd_refuted C45_undeclared_refuted C69_data_checked", "Refuted; what holds is C69: a prefix is xsd or declared in some file that is read.")
claim("C46", "partial", "C46_inherit_refuted C46_ignored_partial C46_meaning_partial C46_shadow_refuted", "Refuted. What it does instead: where every prefix has one meaning, nothing, but for its prefix having to be declared; otherwise it overwrites a prefix the included file declares (refuted).")
claim("C38", "partial", "C38_content_decides_partial C38_reading_decides_partial", "For documents read as XML prescribes (doc_reads), or read alike at all; character data in pieces only outside data content.")
claim("C47", "partial", "C47_verdict_on_reading_partial C47_verdict_any_white_space_partial C47_settles C47_unreadable_rejected C47_one_reading C47_reading_is_content_partial C47_accepted_any_content_partial C47_whole_pieces", "Exact for documents whose data content is not split; for any document accepted implies the condensed reading is valid; C47_settles and C47_unreadable_rejected for all documents.")
claim("C39", "partial", "C39_pattern_partial C39_refuted", "The last pattern parameter constrains every type; the earlier ones are dropped (refuted).")
claim("C40", "partial", "C40_duration_partial C40_duration_exact C40_refuted", "Exact accepted set (C40_duration_exact, without regular expressions); refuted: anything starting with P passes.")
claim("C34", "partial", "C34_parse_print C34_every_text_partial C34_unambiguous C34_layout C34_files C34_texts_to_verdict_partial C34_default_refuted C34_separator_refuted C34_annotated_definition_refuted C34_annotated_name_refuted C34_escape_refuted",
      "Proved for every printable schema (C34_parse_print) and for every text of the compact grammar within the restrictions listed in CompactText.v (any layout, comments, quoting, annotations); each restriction has a counterexample.")
claim("C35", "partial", "C35_definition C35_reference_partial C35_names C35_keyword C35_keyword_reference C35_reference_refuted C35_quoted_refuted C35_quoted_name_refuted",
      "Definitions: every identifier. References: identifiers not beginning with string or token (refuted otherwise). A quoted keyword keeps its backslash (refuted).")
claim("C48", "partial", "C48_terminates C48_no_panic_partial C48_panics C48_comment_refuted C48_follow_refuted",
      "Termination for every text; panics only for texts whose last line contains # or which contain >>, and does in both cases.")
claim("C49", "partial", "C49_accepted_text C49_mixed_operators_refuted C49_except_refuted C49_name_except_refuted",
      "Every accepted text is a text of the relation LaxText (CompactText.v), which differs from the standard's grammar in the three refuted points and optional white space.")

claim("C50", "partial", "C50_parse_partial C50_unique_partial C50_scope_tested C50_files_partial C50_files_to_verdict_partial C50_attribute_namespace_refuted C50_name_prefix_refuted C50_name_prefix_compile_refuted C50_value_comment_refuted C50_value_interrupted_refuted C50_token_library_refuted C50_data_ns_refuted C50_empty_ns_refuted C50_empty_param_refuted C50_string_after_pi_refuted C50_unknown_attribute_refuted C50_text_refuted C50_external_children_refuted C50_nsname_refuted C50_xmlns_refuted C50_nbsp_refuted C50_start_refuted C50_include_ns_refuted C50_external_ns_refuted",
      "For every document in XScope (a testable condition: C50_scope_tested) the parser answers exactly the schema the document stands for (RngXml.v), or refuses. Each restriction of XScope has a counterexample. The ns of an externalRef or include is not handed on to the file it names (C50_include_ns_refuted, C50_external_ns_refuted).")
claim("C51", "partial", "C51_annotations_partial C51_same_partial C51_refuted", "Everywhere except inside name, value and param elements, where a comment changes the result (C51_refuted).")
claim("C52", "partial", "C52_base_partial C52_refuted", "Bases without . segment at the end and non-empty hrefs; C52_refuted: xml:base=\"dir/.\".")
claim("C53", "proved", "C53_accepted_proper", "No condition on the document; the vocabulary is the relation Proper in XmlRefuse.v. Unknown attributes are accepted (C50_unknown_attribute_refuted) and are not part of this property.")
claim("C54", "partial", "C54_exact C54_lines_exist C54_panic_refuted C54_order_refuted C54_outside_refuted", "Refuted; C54_exact says what the span is instead.")

claim("C36", "partial", "C36_exit_zero C36_exit_one_partial C36_exit_two C36_rejected_partial C36_codes C36_zero_is_valid_partial C36_two_is_invalid_partial C36_status_codes C36_status_zero C36_status_code C36_status_crash C36_unreadable C36_schema_refuted C36_xml_refuted C36_open_refuted",
      "Code 0 characterised for every schema and every list of documents; 1 up to two schema errors on which the compiler's diagnostic panics; 2 for documents rejected by the validator; a document with an XML error in its last line ends in a panic (refuted).")
claim("C55", "partial", "C55_acceptable_is_listed_partial C55_listed_occurs_partial C55_text C55_omits_refuted C55_lists_refuted C55_remove_refuted",
      "Every acceptable element is listed unless an optional part is followed by something; refuted there, and elements that may not come next are listed.")
claim("C56", "partial", "C56_diagnostic_partial C56_xml_label C56_xml_refuted C56_line_refuted", "Every error of the validator proper; XML errors panic or are shown in the wrong line (refuted).")
claim("C57", "partial", "C57_no_element_in_attribute_partial C57_no_element_in_attribute_everywhere_partial C57_no_element_in_attribute_external_partial C57_prohibited_refuted C57_reference_refuted", "An element written inside an attribute, or reached inside it through external patterns of other files, is refused, in every file read; the other prohibited paths, and elements behind a reference or in a nested grammar, are accepted (refuted).")
claim("C58", "partial", "C58_positions_partial C58_compact_partial C58_external_refuted C58_parent_refuted", "For file systems without external references to bare grammar files; the errors about parent, reached from an included file, may panic (refuted), and an external grammar longer than the referring file panics (refuted).")
claim("C59", "partial", "C59_correct_compiles_partial C59_refused_partial C59_correct_meaning_partial C32_replaced_body_refuted C31_parent_refuted C31_unused_refuted C33_override_refuted C43_nested_start_refuted C44_prefix_refuted C44_two_refuted C44_div_refuted C45_xsd_refuted C42_external_refuted", "Every schema in files_ok that keeps the rules in SchemaGood.v compiles and has its meaning. Some of those rules are stricter than RELAX NG, because the compiler is; each has a counterexample. External patterns and bare grammars are followed; the one restriction without counterexample is that a bare grammar is not referred to from an overriding definition or from an external pattern.")
claim("C60", "proved", "C33_no_cycle", "The full statement; termination and the reports are C33.")
claim("C61", "proved", "C22_fixed_width", "For the types of int_kind: short, int, long, unsignedShort, unsignedInt, unsignedLong. Only the last pattern parameter counts (C39_refuted).")
claim("C62", "proved", "C23_string", "Regular expressions of pattern parameters are an oracle.")
claim("C63", "proved", "C24_decimal", "Reading a decimal (BigDecimal) is an oracle.")
claim("C64", "proved", "C21_string", "")
claim("C65", "proved", "C48_terminates C48_panics", "Stack exhaustion is not modelled.")
claim("C66", "proved", "C34_parse_print C34_unambiguous C34_layout", "Printable (CompactPrint.v) says which schemas have a text.")
claim("C67", "proved", "C35_names C35_keyword", "")
claim("C68", "proved", "C36_exit_zero C36_exit_two C36_codes", "")
claim("C69", "proved", "C69_data_checked C69_value_checked C69_data_checked_everywhere C69_value_checked_everywhere", "No condition on the files; files reached by include, and (everywhere) by any mixture of include and external.")
claim("C70", "proved", "C70_prefixes_declared C70_prefixes_declared_everywhere", "As C69.")
claim("C71", "proved", "C71_parent_reported C71_root_parent_reported C71_parent_reported_external C71_root_parent_reported_external", "As C69; external patterns are looked into.")
claim("C72", "proved", "C72_included_exist C72_files_exist_everywhere", "As C69.")
claim("C73", "partial", "C73_same_schema C73_placed_partial C73_start_refuted", "For every accepted text. The position of the name in a start rule is empty (refuted); positions inside annotations, and of the literals of data and value patterns, are not modelled.")
claim("C74", "partial", "C73_placed_partial C58_compact_partial C74_bytes C74_bytes_unique", "In-range for every accepted text, as far as positions are modelled (C73); panics across files as in C58.")
claim("C75", "partial", "C75_relative C75_relative_root C75_relative_here_partial C75_absolute C75_dot_refuted", "Relative and absolute hrefs; a dot at the start of an href in a file of the current directory stays, and '..' is never resolved (refuted).")
claim("C76", "partial", "C76_value_panics C76_refuted", "Exact characterisation of the panics; the claim that there are none is refuted.")
claim("C77", "partial", "C77_data_panics C77_builtin C23_token_refuted", "Exact: validation panics for NMTOKEN, NMTOKENS and token of the XML Schema library and for no other type.")
claim("C78", "partial", "C78_id_exact C78_refuted C78_date C78_uri", "Exact; ID and IDREF are not restricted to NCNames (refuted). date and anyURI are as the external engines say.")
claim("C79", "partial", "C79_qname C79_refused C76_refuted", "Values without prefix; prefixed values and prefixed document strings panic.")
claim("C80", "partial", "C80_fixed_width C80_integer C80_positive C80_string C80_normalized C80_decimal_partial C80_string_bounded C80_number_bounded C80_panic_refuted C80_decimal_refuted", "Exact for all integer and string types. For decimal, exclusive bounds are reported as the bound plus or minus one (refuted); an exclusive bound at the end of the type's range panics (refuted), for types that then have no values.")
claim("C81", "proved", "C81_listed C81_only C81_needed", "For every schema that compiles, file systems that do not change while compiling.")
claim("C82", "partial", "C82_same_compiled_partial C82_read_partial C82_default_refuted C82_token_refuted C82_external_refuted C82_override_refuted C82_names_refuted C82_param_refuted C82_grammar_meaning C82_grammar_partial C82_grammar_xml_partial C82_parent_refuted", "Equality of the whole result of compiling, errors included, for all convertible schemas. Excluded, each with a refutation: default namespaces, the type token of a library, declarations of a file referred to by external, prefixes in overriding definitions, names containing U+1680, empty parameters; also excluded: inherit. A file that is one grammar pattern: its contents as a file have the same meaning and accept the same documents, in both syntaxes (C82_grammar_*), where both compile.")
claim("C83", "proved", "C83_accepted C83_error C83_panic C83_outcome C83_types", "For every type name of the XML Schema library and every list of parameters. The regex and f64 engines are parameters.")
claim("C84", "partial", "C84_error_positions_partial C84_forget_partial C84_labels_partial C84_diagnostic C84_undefined_refuted C84_first_seen_refuted C84_no_parent_refuted C84_recursive_parent_refuted C84_recursive_include_refuted C84_external_refuted C84_library_refuted", "For file systems without external references to bare grammar files. Proved for every kind of error, with the exceptions the relation says admits and the refutations exhibit: an undefined reference is shown at the start of the main file, the duplicate and the first definition are swapped, errors about parent are shown in another file, a non-recursive external inside an override is called recursive. An unsupported library of a data pattern named by a prefix is shown at 0..0; facet errors are shown at the parameter at which compilation fails.")
claim("C85", "proved", "C85_right_before C85_mistake_not_before C85_agrees C85_every_wrong_text C85_exact_refuted C85_declaration_refuted", "For every text. The position is not always where the mistake is (C85_exact_refuted, C85_declaration_refuted): only that it is never after it.")
claim("C86", "partial", "C86_files_read C86_relative_refuted", "The list is exactly the files the includes and externals of the files read name, names in a bare grammar read by external being taken relative to the referring file; relative to the file they are written in the statement is refuted.")
claim("C87", "partial", "C87_snapshot C87_history C87_listed C87_read C87_repeated C87_one_moment_refuted C87_edit_refuted", "With unchanging files: in full (C87_history, C87_listed). With files that change: a call answers as a fresh compiler on files each as it was at one moment (C87_snapshot), never read twice; so an edited schema is not seen again by the same compiler (C87_repeated, C87_edit_refuted), and one call may mix files of different moments (C87_one_moment_refuted).")
claim("C88", "partial", "C88_kept_partial C88_exact_partial C88_start_refuted C30_unused_refuted", "For every file system in files_ok: what compiles keeps every rule of SchemaGood.v, in the lenient form (lawful); on tidy schemas exactly the correct schemas compile. Refuted where the forms differ: a pattern file may use the name start, a nested grammar may use undefined names in definitions that are never reached.")

claim("C89", "partial", "C89_read_once_partial C89_written_once_partial C89_valid_once C89_refuted", "The tokenizer does not report attributes that occur twice and the validator does not look: element e { attribute id { text }, attribute * - id { text }* } accepts <e id=\"1\" x=\"1\" x=\"2\"/>. A name the schema cannot give to two attributes of one element is never accepted twice.")
claim("C90", "partial", "C90_refuted C90_first C90_once C90_meaning_partial", "Refuted. Exactly: the first declaration of a prefix counts, the later ones are not looked at (every file system).")
claim("C91", "partial", "C91_alike_partial C91_plain_partial C91_regroup C91_div C91_parentheses_refuted", "Equality of the whole result, errors and panics included, for every file system (no files_ok). Refuted for parentheses around the whole of an included file; div in the braces of an include panics (C44_div_refuted).")
claim("C92", "proved", "C92_renamed C92_renamed_back C92_same_validator", "One renaming for all the files. Which of several undefined names is reported is not specified by the code (a HashMap); the model takes the first.")
claim("C93", "proved", "C93_prefixes C93_prefixes_back C93_exchanged", "One replacement for all the files: include with inherit copies the declaration of a prefix from file to file, and datatype prefixes are looked up in the including file.")
claim("C94", "proved", "C94_moved C94_same_definitions C94_absolute_hrefs", "The file system is a function from paths, so hard and symbolic links and .. are outside: hrefs with .. are excluded. The directory has a name: the case of no directory at all, where a leading . stays, is C75_dot_refuted.")
claim("C95", "proved", "C95_verdict C95_error", "For token sequences as the tokenizer gives them; the tokenizer itself is not modelled.")
claim("C96", "proved", "C96_verdict C96_error C96_document", "For token sequences as the tokenizer gives them, attributes only in start tags; the tokenizer itself is not modelled.")
claim("C97", "proved", "C97_verdict C97_error", "For token sequences as the tokenizer gives them; the tokenizer itself is not modelled. Of a token the model keeps only the offset of a text.")
here = os.path.dirname(os.path.abspath(__file__))
json.dump({"claims": [C[k] for k in sorted(C)]}, open(os.path.join(here, "..", "MANIFEST.json"), "w"), indent=1)
