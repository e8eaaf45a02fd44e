{"id": "C01", "title": "Accepted documents match the schema", "statement": "If validate_next returns Ok for every token of a complete, well-formed document, then the document belongs to the language of the schema (RELAX NG section 9.3: group, choice, interleave, oneOrMore, element, attribute, data, value, list, text, empty).", "quantifier": "every compiled schema (whose definitions recurse only through elements) and every document token sequence, of any depth and length", "why_tests_cant": "The set of schemas and documents is infinite and the interesting behaviour is in the nesting; a test fixes one schema and one document.", "anchors": ["relaxng-validator/src/lib.rs: Validator::validate, text_deriv, start_tag_open_deriv, att_deriv, start_tag_close_deriv, end_tag_deriv"]}
{"id": "C02", "title": "Documents matching the schema are accepted", "statement": "If a document belongs to the language of the schema then validate_next returns Ok for each of its tokens.", "quantifier": "every compiled schema and every document in its language", "why_tests_cant": "The set of schemas and documents is infinite and the interesting behaviour is in the nesting; a test fixes one schema and one document.", "anchors": ["relaxng-validator/src/lib.rs: Validator::validate and the derivative functions"]}
{"id": "C03", "title": "Validation never rejects prematurely", "statement": "If validate_next reports NotAllowed at some token, then no continuation of the tokens read so far is a document of the schema's language: the rejected prefix is really hopeless.", "quantifier": "every schema, every token prefix and every continuation of it", "why_tests_cant": "Quantifies over all continuations of a prefix.", "anchors": ["relaxng-validator/src/lib.rs: Validator::validate, Schema::after, Schema::choice, Schema::group"]}
{"id": "C04", "title": "Validation is total on legal schemas", "statement": "For a schema whose definitions recurse only through element, whose definitions all exist and which uses only implemented datatypes, Validator::new and every validate_next return normally: no panic (apart from the documented 2^16 pattern limit) and no unbounded recursion.", "quantifier": "every such schema and every token sequence", "why_tests_cant": "Absence of panics and termination over all inputs.", "anchors": ["relaxng-validator/src/lib.rs: Validator::new, compile, apply_after, resolve_ref, push"]}
{"id": "C05", "title": "Name classes contain exactly the names of RELAX NG section 9.2", "statement": "A start tag or attribute name is accepted by a name class iff the name is in the set denoted by the class: name, nsName minus except, anyName minus except, union.", "quantifier": "every name class (any nesting of except and choice) and every qualified name", "why_tests_cant": "Name classes nest arbitrarily.", "anchors": ["relaxng-validator/src/lib.rs: contains, is_ns_match"]}
{"id": "C06", "title": "Attribute order is irrelevant", "statement": "The verdict on a document does not depend on the order of the attributes in a start tag, for schemas satisfying RELAX NG restriction 7.1.2 (no oneOrMore//group//attribute).", "quantifier": "every schema, every document, every permutation of every start tag's attributes", "why_tests_cant": "All permutations of attribute lists of any length.", "anchors": ["relaxng-validator/src/lib.rs: att_deriv, close_element_start"]}
{"id": "C07", "title": "Comments, processing instructions and declarations are invisible", "statement": "Inserting or deleting comments, processing instructions, XML declarations and DTD start/end/empty tokens anywhere between other tokens does not change the verdict on the other tokens nor the validator's state.", "quantifier": "every schema and token sequence, every insertion point", "why_tests_cant": "All insertion points in all streams.", "anchors": ["relaxng-validator/src/lib.rs: Validator::validate arms Comment, ProcessingInstruction, Declaration, DtdStart, DtdEnd, EmptyDtd"]}
{"id": "C08", "title": "An empty-element tag means an empty element", "statement": "<a .../> is accepted exactly when <a ...></a> is, and both leave the validator in the same state.", "quantifier": "every schema, every position in a document, every tag name and attribute list", "why_tests_cant": "Equality of two code paths on all states.", "anchors": ["relaxng-validator/src/lib.rs: Validator::validate ElementEnd::Empty/Open/Close"]}
{"id": "C09", "title": "A rejected token leaves the expectation unchanged", "statement": "When validate_next returns an error for a token, the pattern the validator is currently expecting (used for the 'Expected ...' help) is the one it had before the token.", "quantifier": "every reachable validator state and every token", "why_tests_cant": "All reachable states.", "anchors": ["relaxng-validator/src/lib.rs: Validator::validate, diagnostic"]}
{"id": "C10", "title": "Pattern handles are stable and shared", "statement": "Building a pattern that already exists returns the existing handle, handles issued earlier keep denoting the same pattern for the rest of validation, and the store panics rather than wrapping handles when more than 2^16 patterns are needed.", "quantifier": "every sequence of pattern constructions", "why_tests_cant": "Every history of the hash-consing store.", "anchors": ["relaxng-validator/src/lib.rs: Schema::push, patt, PatId(u16)"]}
{"id": "C11", "title": "Attribute values match like content strings", "statement": "An attribute pattern matches an attribute iff its name class contains the name and its value pattern matches the value as a string: either the pattern is nullable and the value is only whitespace, or the pattern matches a single text node holding the value.", "quantifier": "every attribute pattern and every attribute", "why_tests_cant": "All patterns and all strings.", "anchors": ["relaxng-validator/src/lib.rs: att_deriv, value_match"]}
{"id": "C12", "title": "list splits on whitespace", "statement": "A list pattern matches a string iff its body matches the sequence of whitespace separated tokens of the string, independent of amount and position of white space.", "quantifier": "every list pattern and every string", "why_tests_cant": "All strings, all list bodies.", "anchors": ["relaxng-validator/src/lib.rs: text_deriv Pat::List"]}
{"id": "C13", "title": "data-except excludes exactly the excepted values", "statement": "data minus except accepts a string iff the datatype accepts it and the except pattern does not match it.", "quantifier": "every datatype, every except pattern built from data/value/choice, every string", "why_tests_cant": "All strings and nestings.", "anchors": ["relaxng-validator/src/lib.rs: text_deriv Pat::DatatypeExcept"]}
{"id": "C14", "title": "Namespace prefixes are resolved by XML Namespaces scoping", "statement": "The expanded name used for an element or attribute with a prefix is the namespace declared by the innermost enclosing (open) element that declares the prefix; an undeclared prefix is an error.", "quantifier": "every document and every prefixed name in it", "why_tests_cant": "Scoping depends on the whole history of open and closed elements.", "anchors": ["relaxng-validator/src/lib.rs: ElementStack"]}
{"id": "C15", "title": "The default namespace applies to unprefixed elements", "statement": "An unprefixed element name is in the namespace given by the innermost xmlns declaration in scope; an unprefixed attribute is in no namespace.", "quantifier": "every document", "why_tests_cant": "All nestings of xmlns declarations.", "anchors": ["relaxng-validator/src/lib.rs: ElementStack::current_element, try_lookup_namespace_uri"]}
{"id": "C16", "title": "Entity and character references are decoded before matching", "statement": "The string matched for a text token is the token with every &name; replaced by its definition and every &#n; / &#xn; by the character, and malformed or undefined references are reported.", "quantifier": "every text token and every set of entity definitions", "why_tests_cant": "All strings, all entity tables; a length coincidence decides the code path.", "anchors": ["relaxng-validator/src/lib.rs: Validator::validate Token::Text, parse_entities, numeric_entity"]}
{"id": "C17", "title": "Empty elements match empty-string data", "statement": "element foo { D } accepts <foo/> and <foo></foo> whenever datatype D accepts the empty string.", "quantifier": "every datatype and element", "why_tests_cant": "All datatypes.", "anchors": ["relaxng-validator/src/lib.rs: Validator::validate last_was_start_element"]}
{"id": "C18", "title": "Only complete documents pass", "statement": "If validate_next returns None (end of input) and no error was reported, the token stream was a complete document: one root element, every element closed.", "quantifier": "every token stream", "why_tests_cant": "All truncation points.", "anchors": ["relaxng-validator/src/lib.rs: validate_next; relaxng-tool/src/main.rs"]}
{"id": "C19", "title": "Verdict does not depend on how text is split", "statement": "Splitting a run of character data into several adjacent tokens (CDATA sections, interposed comments) does not change the verdict.", "quantifier": "every document and every split of its text", "why_tests_cant": "All split points.", "anchors": ["relaxng-validator/src/lib.rs: Validator::validate Cdata/Text, text_deriv"]}
{"id": "C20", "title": "normalize_whitespace implements the token value space", "statement": "normalize_whitespace strips leading and trailing XML white space, collapses inner runs to a single space, is idempotent, and keeps exactly the non-space words of the input in order.", "quantifier": "every string", "why_tests_cant": "All strings.", "anchors": ["relaxng-model/src/datatype/relax.rs: normalize_whitespace"]}
{"id": "C21", "title": "Token and string values compare by their value space", "statement": "value patterns of type token match exactly the strings with the same normalized form; of type string exactly the identical string.", "quantifier": "every value and every candidate string", "why_tests_cant": "All pairs of strings.", "anchors": ["relaxng-model/src/datatype/relax.rs: BuiltinDatatypeValue::is_valid; relaxng-model/src/datatype/xsd.rs: XsdDatatypeValues::is_valid"]}
{"id": "C22", "title": "Bounded integer types accept exactly the decimal numerals in range", "statement": "xsd:short/int/long/unsignedShort/unsignedInt/unsignedLong/integer accept a string iff it is an optional sign (no minus for unsigned) followed by digits denoting a number within the type's range and facets.", "quantifier": "every string, every facet combination", "why_tests_cant": "All strings; overflow boundaries.", "anchors": ["relaxng-model/src/datatype/xsd.rs: XsdDatatypes::is_valid, i16/i32/i64/u16/u32/u64 from_str"]}
{"id": "C23", "title": "Length facets bound the number of characters", "statement": "After a successful facet compilation, a string is accepted by a string type with length/minLength/maxLength iff its number of characters satisfies every stated facet.", "quantifier": "every facet list that compiles and every string", "why_tests_cant": "All facet lists and strings (multi-byte characters).", "anchors": ["relaxng-model/src/datatype/xsd.rs: LengthFacet::merge, LengthFacet::is_valid"]}
{"id": "C24", "title": "Numeric bounds are all enforced and contradictory bounds are rejected", "statement": "After a successful facet compilation a number is accepted iff it satisfies every stated bound; a set of facets no number can satisfy is reported as a conflict irrespective of the order of the facets.", "quantifier": "every list of min/max facets in any order", "why_tests_cant": "All permutations of facet lists.", "anchors": ["relaxng-model/src/datatype/xsd.rs: MinMaxFacet"]}
{"id": "C25", "title": "Compiling facets never panics", "statement": "Compiling a data pattern with any list of parameters returns Ok or an error value; it never panics.", "quantifier": "every datatype name and parameter list", "why_tests_cant": "All parameter lists.", "anchors": ["relaxng-model/src/datatype/xsd.rs: Compiler::compile, LengthFacet::merge, MinMaxFacet"]}
{"id": "C26", "title": "boolean, language and dateTime accept exactly their stated shapes", "statement": "xsd:boolean accepts exactly true,false,1,0; xsd:language exactly [a-zA-Z]{1,8}(-[a-zA-Z0-9]{1,8})*; xsd:dateTime exactly -?YYYY-MM-DDThh:mm:ss followed by nothing, Z, or Z and an offset +hh:mm/-hh:mm; always matched as a whole string.", "quantifier": "every string", "why_tests_cant": "All strings; anchoring errors show only on unusual strings.", "anchors": ["relaxng-model/src/datatype/xsd.rs: LANG_RE, DATETIME_RE, DURATION_RE"]}
{"id": "C27", "title": "NCName recognises exactly the XML NCName production", "statement": "is_valid_ncname / xsd:NCName accepts a string iff it is an NCName of XML Namespaces (all code point ranges).", "quantifier": "every string over Unicode scalar values", "why_tests_cant": "1.1 million code points and all lengths.", "anchors": ["relaxng-syntax/src/compact.rs: nc_name; relaxng-model/src/datatype/xsd.rs: is_valid_ncname"]}
{"id": "C28", "title": "Compiled sugar has its RELAX NG meaning", "statement": "Optional, zeroOrMore, mixed, n-ary choice/group/interleave and references compile to patterns with the meaning of section 4: p? = p|empty, p* = p+|empty, mixed p = p & text, references denote their definition.", "quantifier": "every grammar IR with recursion through elements", "why_tests_cant": "All grammars, recursive ones included.", "anchors": ["relaxng-validator/src/lib.rs: Validator::compile, ref_placeholder, resolve_ref"]}
{"id": "C29", "title": "Combining definitions is order independent and exact", "statement": "A name defined by several |= (or &=) definitions and at most one = denotes the choice (interleave) of all its bodies whatever their order; a second = or a mixture of |= and &= is an error.", "quantifier": "every sequence of definitions of a name", "why_tests_cant": "All orders and counts of definitions.", "anchors": ["relaxng-model/src/lib.rs: merge, merge1"]}
{"id": "C30", "title": "Undefined references are reported", "statement": "If compilation of a grammar succeeds, every reference reachable from start has a definition; otherwise the undefined name is reported.", "quantifier": "every grammar", "why_tests_cant": "All grammars.", "anchors": ["relaxng-model/src/lib.rs: undefined reference checks"]}
{"id": "C31", "title": "Illegal recursion is reported", "statement": "A grammar in which a definition refers to itself, directly or through other definitions, without an intervening element is rejected at compile time.", "quantifier": "every grammar", "why_tests_cant": "Cycles of any length.", "anchors": ["relaxng-model/src/lib.rs: check_ref_recursion"]}
{"id": "C32", "title": "Include overrides replace, not add", "statement": "Definitions inside an include block replace the definitions of the same name of the included file; overriding a name the file does not define is an error.", "quantifier": "every include with every set of overrides", "why_tests_cant": "All file contents and override sets.", "anchors": ["relaxng-model/src/lib.rs: compile_include, IncludeOverrides"]}
{"id": "C33", "title": "Cyclic includes are reported", "statement": "A file which includes itself through any chain of includes is reported as an error, and include processing terminates.", "quantifier": "every finite graph of files", "why_tests_cant": "Cycles of any length.", "anchors": ["relaxng-model/src/lib.rs: check_include"]}
{"id": "C34", "title": "Compact syntax parsing inverts printing", "statement": "Parsing the canonical compact-syntax text of a pattern returns that pattern.", "quantifier": "every pattern of the printable fragment", "why_tests_cant": "All nestings of operators.", "anchors": ["relaxng-syntax/src/compact.rs: pattern, name_class, literal"]}
{"id": "C35", "title": "Keywords and identifiers are told apart by the longest name", "statement": "An identifier which merely begins with a keyword (e.g. elements, tokens) is an identifier, and a keyword is never read as an identifier unless quoted.", "quantifier": "every name", "why_tests_cant": "All names with keyword prefixes.", "anchors": ["relaxng-syntax/src/compact.rs: identifier, keyword, datatype_name"]}
{"id": "C36", "title": "The tool's exit code reports the verdict", "statement": "The rng tool exits 0 only if the schema compiled and every document was accepted, 1 if the schema is faulty and 2 if a document is invalid.", "quantifier": "every schema and every list of documents", "why_tests_cant": "All lists of documents.", "anchors": ["relaxng-tool/src/main.rs: main"]}
{"id": "C37", "title": "Text error positions are absolute", "statement": "UndefinedEntity and InvalidOrUnclosedEntity report a byte range inside the offending text token of the document.", "quantifier": "every text token at every offset", "why_tests_cant": "All offsets.", "anchors": ["relaxng-validator/src/lib.rs: parse_entities, numeric_entity"]}
{"id": "C38", "title": "Attribute and element name/datatype equality of sibling documents", "statement": "Validation depends only on expanded names, attribute values and text: two documents whose tokens resolve to the same expanded names have the same verdict, whatever prefixes they use.", "quantifier": "every pair of documents equal up to prefix renaming", "why_tests_cant": "All renamings.", "anchors": ["relaxng-validator/src/lib.rs: ElementStack, contains"]}
{"id": "C39", "title": "Every pattern parameter constrains the value", "statement": "A data pattern with pattern parameters accepts only strings matched by each of them.", "quantifier": "every list of parameters and every string", "why_tests_cant": "All parameter lists and strings.", "anchors": ["relaxng-model/src/datatype/xsd.rs: PatternFacet, Compiler"]}
{"id": "C40", "title": "duration accepts only durations", "statement": "xsd:duration accepts only strings that as a whole are of the shape of its regular expression (P...Y...M...DT...H...M...S or the alternative form).", "quantifier": "every string", "why_tests_cant": "All strings.", "anchors": ["relaxng-model/src/datatype/xsd.rs: DURATION_RE, XsdDatatypes::is_valid"]}
{"id": "C41", "title": "The schema's default namespace applies", "statement": "An element name without prefix in a schema with a default namespace declaration denotes a name in that namespace; `inherit` in a declaration is accepted.", "quantifier": "every schema with default namespace or inherit declarations", "why_tests_cant": "Which names a compiled schema accepts depends on all declarations in scope; tests sample schemas without a default namespace.", "anchors": ["relaxng-model/src/lib.rs:Compiler::compile_declaration", "relaxng-model/src/lib.rs:Context::default_namespace_uri"]}
{"id": "C42", "title": "External references mean the referenced file", "statement": "`external \"f\"` denotes the pattern of file f, with the prefixes and relative file names of f; a cycle of external references is reported.", "quantifier": "every file system and schema with external patterns", "why_tests_cant": "Depends on declarations and locations of arbitrarily many files; non-termination cannot be observed by a finite test.", "anchors": ["relaxng-model/src/lib.rs:Compiler::compile_external"]}
{"id": "C43", "title": "A nested grammar may be recursive through its start", "statement": "A reference to start inside a nested grammar denotes that grammar's start.", "quantifier": "every nested grammar", "why_tests_cant": "Any nesting and any reference position.", "anchors": ["relaxng-model/src/lib.rs:Compiler::compile_grammar_pattern"]}
{"id": "C44", "title": "Overriding definitions are ordinary definitions", "statement": "Definitions in the braces of an include may use the prefixes of their file, may be several per name, and may be grouped by div.", "quantifier": "every include with overrides", "why_tests_cant": "Any override block.", "anchors": ["relaxng-model/src/lib.rs:Compiler::compile_include", "relaxng-model/src/lib.rs:Context::define"]}
{"id": "C45", "title": "Datatype prefixes are declared per file", "statement": "A datatype prefix denotes the library its own file declares; xsd may be declared; an undeclared prefix is an error.", "quantifier": "every schema using datatype prefixes", "why_tests_cant": "Any declarations in any file.", "anchors": ["relaxng-model/src/lib.rs:Context::declare_datatype", "relaxng-model/src/lib.rs:Context::datatype_uri_for_prefix"]}
{"id": "C46", "title": "inherit sets the included file's default namespace", "statement": "`include \"f\" inherit = p` gives f, if it declares no default namespace, the namespace of p as default namespace and nothing else.", "quantifier": "every include with inherit", "why_tests_cant": "Any declarations of both files.", "anchors": ["relaxng-model/src/lib.rs:Compiler::compile_include"]}
{"id": "C47", "title": "The verdict is validity of the document as read", "statement": "For every well-formed document the validator gives a verdict; it is acceptance exactly when the document, read with the validator's own rules for prefixes, entities and attribute values, has a reading and that reading matches the schema; a document with an unresolvable prefix or reference is rejected.", "quantifier": "all restricted schemas, all documents (any prefixes, default namespaces, entities), all oracles for regular expressions and numbers", "why_tests_cant": "ranges over all documents and schemas, not just those within the features the validator treats as XML prescribes", "anchors": ["relaxng-validator/src/lib.rs: Validator::validate, ElementStack, parse_entities"]}
{"id": "C48", "title": "The compact syntax parser answers on every text", "statement": "Parsing any text as a compact syntax schema terminates with a schema or a parse error; it never panics or loops.", "quantifier": "every text, well-formed or not", "why_tests_cant": "All texts, including garbage of any length and nesting.", "anchors": ["relaxng-syntax/src/compact.rs: schema, comment, name_class", "relaxng-model/src/lib.rs: Syntax::parse"]}
{"id": "C49", "title": "The compact syntax parser accepts nothing but schemas", "statement": "Every text that parses is a text of the compact syntax grammar, and the returned schema is the one this text denotes (no part of the text is dropped or reinterpreted, except annotations).", "quantifier": "every accepted text", "why_tests_cant": "All texts the parser could accept.", "anchors": ["relaxng-syntax/src/compact.rs: schema, top_level, pattern, grammar_content"]}
{"id": "C50", "title": "A schema document in the XML syntax is read as the schema it stands for", "statement": "Parsing an XML document as a RELAX NG schema returns exactly the schema that the XML syntax of RELAX NG (with the simplifications of section 4: annotations, white space, datatypeLibrary, ns, name elements and attributes, div, except) assigns to the document, and refuses a document that stands for no schema.", "quantifier": "every XML element tree, of any depth and with any attributes", "why_tests_cant": "All documents; ns, datatypeLibrary and xml:base are inherited through arbitrarily many levels.", "anchors": ["relaxng-syntax/src/xml.rs: parse, pattern, name_class, grammar_content, include_content, datatype_library, namespace"]}
{"id": "C51", "title": "Annotations and attribute order do not change an XML schema", "statement": "Adding or removing foreign elements, foreign attributes, comments, processing instructions and white space, and permuting attributes, does not change the result of parsing a schema in the XML syntax.", "quantifier": "every pair of documents differing only in annotations and attribute order, at every place in the tree", "why_tests_cant": "Annotations can be put at every node of every document.", "anchors": ["relaxng-syntax/src/xml.rs: children, pattern, grammar_content"]}
{"id": "C52", "title": "hrefs are resolved against xml:base", "statement": "The file an include or externalRef names is its href resolved against the xml:base attributes of its ancestors, innermost first.", "quantifier": "every chain of ancestors and every relative path", "why_tests_cant": "All depths and path shapes.", "anchors": ["relaxng-syntax/src/xml.rs: xml_base, rebase"]}
{"id": "C53", "title": "An accepted XML schema uses the vocabulary of RELAX NG", "statement": "In a document accepted as a schema, every RELAX NG element that is read has a name RELAX NG defines, has the attributes RELAX NG requires for it, and has children where RELAX NG requires some and none where it allows none.", "quantifier": "every accepted document and every element in it", "why_tests_cant": "All documents the parser could accept.", "anchors": ["relaxng-syntax/src/xml.rs: pattern, name_class, grammar_content, define"]}
{"id": "C54", "title": "The span of an XML syntax error lies in the file", "statement": "When a schema file is not well-formed XML, the span of the returned error lies within the file and contains the position the XML parser reported; computing it does not panic.", "quantifier": "every text and every position in it", "why_tests_cant": "All texts and error positions.", "anchors": ["relaxng-syntax/src/xml.rs: parse, From<roxmltree::Error>"]}
{"id": "C55", "title": "The help of a diagnostic names the elements that may come next", "statement": "When a token is not allowed, the \"Expected Element ...\" help of Validator::diagnostic names the elements whose start tags would have been accepted at that point (up to four, with the number of the others) and no others; \"Remove this\" is shown only if no element may come.", "quantifier": "every schema and every position in every document", "why_tests_cant": "All states a validator can be in.", "anchors": ["relaxng-validator/src/lib.rs: diagnostic, describe_expected, heads, head, describe_nameclass"]}
{"id": "C56", "title": "A diagnostic can always be made and points into the document", "statement": "For every error validate_next returns, Validator::diagnostic returns (does not panic), and the span of its label lies in the text of the document, on the line the error is about.", "quantifier": "every schema, document and error", "why_tests_cant": "All errors at all positions.", "anchors": ["relaxng-validator/src/lib.rs: diagnostic"]}
{"id": "C57", "title": "Schemas with prohibited paths are refused", "statement": "Schema compilation reports an error for a schema in which a pattern stands where RELAX NG section 7.1 forbids it: an element or attribute inside an attribute; an element, attribute, list or text inside a list; anything but data, value and choice in the exception of a data pattern; wherever in the files read it is written, directly or behind references.", "quantifier": "every schema, of any number of files", "why_tests_cant": "All schemas; the forbidden pattern may be arbitrarily deep and in any included file or override.", "anchors": ["relaxng-model/src/lib.rs: Context::new_element, parent_attribute, new_attribute, RelaxError::ElementAsChildOfAttribute"]}
{"id": "C58", "title": "Source positions never make schema compilation fail", "statement": "If every position a parser recorded in a schema lies in the file it was recorded in, then compiling the schema gives the result it would give without positions: converting positions for references, definitions, elements, attributes, hrefs and error messages never panics, however files refer to each other.", "quantifier": "every file system, every assignment of positions to the schemas in it that fits the lengths of the files", "why_tests_cant": "All files, all positions, all include and external graphs; the failure depends on the relative lengths of two files.", "anchors": ["relaxng-model/src/lib.rs: Context::convert_span, Context::file, compile_external, acquire_parent_ref, check_ref_recursion, compile_ref, compile_define, compile_include"]}
{"id": "C59", "title": "A correct schema is never refused", "statement": "A schema that keeps the rules of RELAX NG section 4 (files found and readable, no file including itself, included files being grammars, overridden names existing, definitions of a name combinable, a start in every grammar, every referenced name defined, no name referring to itself outside an element, prefixes declared, datatypes, parameters and values known to the library) compiles: the compiler ends with a result, not with an error or a panic; and the result accepts exactly the documents the schema describes. Conversely every error is the sign of a broken rule.", "quantifier": "every file system and every schema in it", "why_tests_cant": "All correct schemas, of any size, over any number of files; an error raised without reason needs only one unforeseen combination of features.", "anchors": ["relaxng-model/src/lib.rs: Compiler::compile, compile_pattern, compile_content, compile_include, define, acquire_ref, acquire_parent_ref, check_include, check, RelaxError"]}
{"id": "C60", "title": "No accepted schema contains a cycle of includes", "statement": "If Compiler::compile succeeds for a schema file, then no file that is read through includes from it includes itself, directly or through any chain of includes.", "quantifier": "every set of schema files and every main file", "why_tests_cant": "Chains of any length through any number of files.", "anchors": ["relaxng-model/src/lib.rs: compile_include, check_include, new_include"]}
{"id": "C61", "title": "Fixed-width integer types accept exactly the numerals in range and within the facets", "statement": "After a successful facet compilation xsd:short, int, long, unsignedShort, unsignedInt and unsignedLong accept a string iff it is an optional sign (no minus for the unsigned) and decimal digits, its number is in the range of the type, satisfies every stated bound, and the string matches the last pattern parameter.", "quantifier": "every parameter list and every string", "why_tests_cant": "All numerals of any length, all combinations of facets.", "anchors": ["relaxng-model/src/datatype/xsd.rs: Short, Int, Long, UnsignedShort, UnsignedInt, UnsignedLong, MinMax*"]}
{"id": "C62", "title": "xsd:string with length facets counts characters", "statement": "After a successful facet compilation xsd:string accepts a string iff its number of characters satisfies every stated length, minLength and maxLength and it matches the last pattern parameter.", "quantifier": "every parameter list and every string", "why_tests_cant": "All strings and facet lists.", "anchors": ["relaxng-model/src/datatype/xsd.rs: StringFacets, LengthFacet"]}
{"id": "C63", "title": "Every bound on xsd:decimal is enforced", "statement": "After a successful facet compilation xsd:decimal accepts a string iff it reads as a decimal number which satisfies every minInclusive, minExclusive, maxInclusive and maxExclusive stated, and the string matches the last pattern parameter.", "quantifier": "every parameter list and every string", "why_tests_cant": "All numbers and facet lists, in any order.", "anchors": ["relaxng-model/src/datatype/xsd.rs: DecimalFacets, decimal"]}
{"id": "C64", "title": "A string value matches only itself", "statement": "A value pattern of type string (the built-in one or xsd:string) accepts a string iff it is identical to the value, white space included.", "quantifier": "every value and string", "why_tests_cant": "All strings.", "anchors": ["relaxng-model/src/datatype/relax.rs, xsd.rs: datatype_value, is_valid"]}
{"id": "C65", "title": "The compact syntax parser terminates and its only panics are the known two", "statement": "Parsing any text as a compact syntax schema ends; it panics only for a text with a # that no newline follows, or one that contains >>.", "quantifier": "every text", "why_tests_cant": "All texts.", "anchors": ["relaxng-syntax/src/compact.rs: schema"]}
{"id": "C66", "title": "A schema printed in the compact syntax is read back unchanged", "statement": "Every schema that has a compact syntax text at all (its names are names, its literals can be quoted) is returned by the parser from its canonical text; a text stands for at most one schema, and texts that differ in white space and comments give the same schema.", "quantifier": "every schema and every text of it", "why_tests_cant": "Schemas of any size and nesting.", "anchors": ["relaxng-syntax/src/compact.rs: schema"]}
{"id": "C67", "title": "Names in a parsed schema are identifiers, keywords are not", "statement": "Every name a parsed compact syntax schema refers to or defines is an identifier that is not a keyword (or start); a keyword other than start cannot be defined.", "quantifier": "every text", "why_tests_cant": "All texts and names.", "anchors": ["relaxng-syntax/src/compact.rs: identifier, identifier_or_keyword, definition"]}
{"id": "C68", "title": "Exit status 0 of the tool means every document was accepted", "statement": "rng validate exits 0 iff the schema compiles and each document is read to its end with no error; it exits 2 only if the schema compiles and some document has an error while those before it passed; a process that exits normally exits with 0, 1 or 2.", "quantifier": "every schema, every list of documents", "why_tests_cant": "All schemas and documents.", "anchors": ["relaxng-tool/src/main.rs: validate"]}
{"id": "C69", "title": "Unknown datatypes and illegal parameters are reported wherever they are written", "statement": "If compiling a schema succeeds, then every data and value pattern written anywhere in the main file or in a file it reads (through any chain of include and external; in unused definitions, divs, overrides and nested grammars too) names a datatype the compiler knows, under a prefix that is xsd or declared in a file that was read, and its parameters (or its value) are legal for that datatype.", "quantifier": "every file system, every chain of includes and externals, every pattern written in the files read", "why_tests_cant": "Schemas of any size, any include graph, any datatype and parameters.", "anchors": ["relaxng-model/src/lib.rs: Compiler::compile_pattern, compile_datatype_name, try_datatype_uri", "relaxng-model/src/datatype/xsd.rs: Compiler"]}
{"id": "C70", "title": "Undeclared namespace prefixes are reported wherever they are written", "statement": "If compiling a schema succeeds, every prefix used in a name class written in the main file or in a file it reads (through any chain of include and external) is xml, is declared in the file whose declarations are in force there, or is named by an inherit of an include in a file that was read.", "quantifier": "every file system, every chain of includes and externals, every name class at any depth, excepts included", "why_tests_cant": "Schemas of any size and any include graph.", "anchors": ["relaxng-model/src/lib.rs: Compiler::compile_nameclass, namespace_uri_for_prefix, Context::namespace_uri"]}
{"id": "C71", "title": "parent outside of every nested grammar is reported", "statement": "If compiling a schema succeeds, no parent reference is written in the main file, or in a file included outside of nested grammars, without a nested grammar around it; nor is one reached from there through external patterns.", "quantifier": "every file system, every chain of includes outside of nested grammars, every chain of external patterns", "why_tests_cant": "Schemas of any size and any include graph.", "anchors": ["relaxng-model/src/lib.rs: Compiler::compile_pattern (Pattern::Parent), Context::get_parent_ref"]}
{"id": "C72", "title": "A missing or unusable file is reported", "statement": "If compiling a schema succeeds, then each include and each external written anywhere in the main file or in a file it reads names a file that exists and was parsed, and each included file is a grammar (or bare grammar content).", "quantifier": "every file system, every chain of includes and externals", "why_tests_cant": "Any include graph, any place of an include.", "anchors": ["relaxng-model/src/lib.rs: Compiler::compile_include, resolve_include"]}
{"id": "C73", "title": "Positions in a compact schema point at what they are about", "statement": "In the result of parsing any text in the compact syntax, the position recorded for a reference, a prefix, an inherited prefix or a defined name is exactly the bytes of that name in the text; that of an element, attribute or grammar pattern reaches from its keyword to its closing brace and contains the positions of its parts; that of an href is the quoted literal. Recording positions does not change the schema parsed.", "quantifier": "every text the parser accepts, any characters (offsets count bytes)", "why_tests_cant": "All texts, any nesting, multi-byte characters anywhere before the position.", "anchors": ["relaxng-syntax/src/compact.rs: span, literal, identifier, nc_name, keyword, element_pattern, attribute_pattern, grammar_pattern, start, define, include, inherit"]}
{"id": "C74", "title": "Positions of a compact schema lie in its file", "statement": "Every position in the result of parsing a text in the compact syntax is an ordered range of byte offsets inside the text, so that converting it to a position of the file cannot fail; with C58, compiling schemas given as compact files never panics on a position except where a position of one file is looked up in another.", "quantifier": "every text the parser accepts; every file system of such texts", "why_tests_cant": "All texts and file systems.", "anchors": ["relaxng-syntax/src/compact.rs: schema", "relaxng-model/src/lib.rs: Context::convert_span"]}
{"id": "C75", "title": "hrefs lead to files relative to the file they are written in", "statement": "The href of an include or external leads to the path made of the directory of the file it is written in and the pieces of the href, or, when it begins with a slash, of the pieces alone; different spellings of one file are the same file.", "quantifier": "every file path and href", "why_tests_cant": "All paths and hrefs: repeated slashes, dots, any depth.", "anchors": ["relaxng-model/src/lib.rs: compile_include, compile_external"]}
{"id": "C76", "title": "Compiling a value pattern returns a value or an error", "statement": "Compiling a value pattern of any datatype with any string never panics.", "quantifier": "every datatype name and string", "why_tests_cant": "All names and strings; the panics depend on both.", "anchors": ["relaxng-model/src/datatype/xsd.rs: compile_value, QNameVal::try_from_val"]}
{"id": "C77", "title": "Every compiled datatype has a verdict on every string", "statement": "Once a datatype with parameters has compiled, checking any string against it returns a verdict; the built-in types string and token admit every string.", "quantifier": "every datatype, parameter list and string", "why_tests_cant": "All strings and parameter lists.", "anchors": ["relaxng-model/src/datatype/xsd.rs: XsdDatatypes::is_valid", "relaxng-model/src/datatype/relax.rs: BuiltinDatatypes::is_valid"]}
{"id": "C78", "title": "ID and IDREF are NCNames; date and anyURI are decided by their lexical rules", "statement": "A string is an ID or IDREF exactly if it is an NCName and matches the pattern parameter; a date or anyURI exactly if the calendar date or URI parser reads it and it matches the pattern parameter.", "quantifier": "every string and parameter list", "why_tests_cant": "All strings.", "anchors": ["relaxng-model/src/datatype/xsd.rs: XsdDatatypes::is_valid"]}
{"id": "C79", "title": "QName values are compared by name", "statement": "A QName value pattern admits exactly the names equal to it; a value that is not a QName is refused when the schema compiles.", "quantifier": "every value and document string", "why_tests_cant": "All names.", "anchors": ["relaxng-model/src/datatype/xsd.rs: QNameVal, XsdDatatypeValues::is_valid"]}
{"id": "C80", "title": "Facet accessors report exactly the bounds in force", "statement": "min_len, max_len, bounded and regex of a string type, and min, max, min_cloned, max_cloned and bounded of a numeric type, report exactly the bounds in force: a string is valid for the type iff it is in the lexical space, its length or value lies between the reported least and greatest, and it matches the reported pattern; bounded is false iff no bound is reported; no accessor panics.", "quantifier": "every type, every parameter list that compiles, every string", "why_tests_cant": "All parameter lists and all strings; exclusive bounds at the edge of each type.", "anchors": ["relaxng-model/src/datatype/xsd.rs: StringFacets::{min_len,max_len,bounded,regex}, MinMaxFacet::{min,max,min_cloned,max_cloned,bounded}"]}
{"id": "C81", "title": "Compiler::loaded lists exactly the files the compiled schema depends on", "statement": "After a successful compilation, loaded lists the main schema and every file it depends on, each once: changing any file not listed changes nothing in the result; every listed file was readable, and removing any one of them makes compilation fail.", "quantifier": "every pair of file systems and every schema", "why_tests_cant": "All file systems and all include graphs.", "anchors": ["relaxng-model/src/lib.rs: Compiler::loaded, Compiler::get_schema, Compiler::compile"]}
{"id": "C82", "title": "The two syntaxes are interchangeable", "statement": "Writing every file of a compact-syntax schema in the XML syntax (as a converter does: prefixes resolved, names as <name>, <nsName>, <anyName>) and compiling with Syntax::Xml gives exactly the compiled schema, or exactly the error, that Syntax::Compact gives for the original.", "quantifier": "every schema, every number and nesting of included and external files", "why_tests_cant": "All schemas; the two parsers and the compiler together.", "anchors": ["relaxng-syntax/src/xml.rs: parse", "relaxng-syntax/src/compact.rs: schema", "relaxng-model/src/lib.rs: Syntax, Compiler::compile"]}
{"id": "C83", "title": "The parameters a datatype takes are accepted or refused as documented, whatever their order", "statement": "Compiling a data pattern of the XML Schema library succeeds iff each of its parameters is one the type has, has a readable value and does not contradict those before it; otherwise the first faulty parameter decides which error is returned (unknown facet, unreadable number, invalid pattern, conflict) or that the compiler panics (a length facet after length or maxLength, a bound repeated).", "quantifier": "every type name and every parameter list", "why_tests_cant": "All lists of parameters in all orders.", "anchors": ["relaxng-model/src/datatype/xsd.rs: Compiler::compile, LengthFacet::merge, MinMaxFacet, FacetError"]}
{"id": "C84", "title": "A schema error points at the construct it is about", "statement": "When compiling a schema fails, every position in the error is the position of the construct the error is about, in the file it is written in: the reference, definition, prefix, datatype, grammar, element and attribute, include or override named by the error; each 'as included here' is the include or external that names the file the rest is about. The diagnostic's first label is the primary one and all its labels lie in their files.", "quantifier": "every set of schema files, main file and error returned by the compiler", "why_tests_cant": "All combinations of files, includes, overrides, externals and faults; a test sees a few spans of a few schemas.", "anchors": ["relaxng-model/src/lib.rs: RelaxError, Context, Compiler::compile*, merge1, check, diagnostic, convert_span"]}
{"id": "C85", "title": "Everything before the position of a compact syntax error is right", "statement": "When a schema text in the compact syntax is rejected with a syntax error, the reported position runs from some byte offset to the end of the text, lies in the file, and the text before that offset begins some text of the compact syntax: the mistake is never before the reported position. Every text that is not of the compact syntax is rejected with such a position or panics.", "quantifier": "every schema text", "why_tests_cant": "The offset depends on which of the parser's nested alternatives fails last, for every unfinished or wrong text; a test checks a few texts.", "anchors": ["relaxng-syntax/src/compact.rs: schema, top_level, pattern, grammar_content, include_content and every rule using cut", "relaxng-model/src/lib.rs: Syntax::parse (66-85)"]}
{"id": "C86", "title": "The files read are exactly those named by include and external", "statement": "After a successful compilation Compiler::loaded lists the main file and the files named, directly or through other files, by the includes and externals written in the files read, each name taken relative to the file it is written in, and no others.", "quantifier": "every file system and every schema that compiles", "why_tests_cant": "Any graph of includes and externals, written anywhere in the files.", "anchors": ["relaxng-model/src/lib.rs: Compiler::loaded, get_schema, compile_include, compile_external_pattern"]}
{"id": "C87", "title": "A compiler can be used again", "statement": "Each call of compile on one Compiler answers as a fresh compiler would on the files as they are, whatever that compiler was used for before and whether those calls succeeded; afterwards loaded lists the files of all the calls, each once.", "quantifier": "every history of calls on one compiler, every moment at which files change", "why_tests_cant": "Unbounded histories of calls, failures and changes of files between and during the calls.", "anchors": ["relaxng-model/src/lib.rs: Compiler, Compiler::compile, get_schema, loaded"]}
{"id": "C88", "title": "An incorrect schema is never accepted", "statement": "Every schema that compiles keeps the rules of RELAX NG section 4: every file named is found and readable and no file leads back to itself, included files are grammars, overridden names exist, the definitions of one name can be combined, every grammar has a start, every name used is defined in the grammar it belongs to, no definition uses itself outside an element, no element stands in an attribute, prefixes are declared, and datatypes, parameters and values are known to the library.", "quantifier": "every file system and every schema in it", "why_tests_cant": "All incorrect schemas, of any size, over any number of files and wherever in them the mistake is; a check that is missed on one path (an overriding definition, a nested grammar, an external file) needs only one combination of features.", "anchors": ["relaxng-model/src/lib.rs: Compiler::compile, compile_pattern, compile_content, compile_include, define, acquire_ref, acquire_parent_ref, check_include, RelaxError"]}
{"id": "C89", "title": "A document with two attributes of one name in an element is never accepted", "statement": "No document in which an element has two attributes of the same name (such a text is not XML: Unique Att Spec) is reported valid.", "quantifier": "every schema, every token stream of a document tree", "why_tests_cant": "Whether the schema happens to rule the second attribute out depends on every combination of wildcards, repeats, groups and references; the tokenizer xmlparser does not check it and leaves it to its user.", "anchors": ["relaxng-validator/src/lib.rs: Validator::validate_next, start_tag_open (1553-1652), ElementState"]}
{"id": "C90", "title": "A prefix has one namespace in a file", "statement": "A schema file that declares a namespace prefix twice, or declares xml for another namespace than its own, is reported as an error (compact syntax, section 3: it is an error to declare a prefix more than once).", "quantifier": "every list of declarations of every file", "why_tests_cant": "Any number of declarations in any order, namespace and default namespace, in any of the files read.", "anchors": ["relaxng-model/src/lib.rs: Context::declare_namespace (348-367), compile_declaration (1838-1870)"]}
{"id": "C91", "title": "Layout of a schema means nothing", "statement": "Parentheses, the grouping of operators of one kind, div, annotations, splitting a string into segments joined by ~, and leaving out the type token of a string do not change what a schema compiles to, nor whether it does.", "quantifier": "every schema, all its files, every place in them", "why_tests_cant": "The same pattern can be written in unboundedly many ways, in any of the files.", "anchors": ["relaxng-model/src/lib.rs: compile_pattern (1503-1538), compile_sequence, compile_interleave, compile_choice (1704-1760), compile_grammar_div (1279-1288), compile_nameclass (1873-1932)"]}
{"id": "C92", "title": "The names of definitions do not matter", "statement": "Renaming the definitions of a schema through all its files, start excepted and no two to one name, changes neither whether the schema compiles nor the verdict on any document, and error messages only in the names they mention.", "quantifier": "every schema, every renaming that keeps different names different", "why_tests_cant": "Names are arbitrary strings, and a schema has unboundedly many of them in nested scopes of several files.", "anchors": ["relaxng-model/src/lib.rs: Context::define, acquire_ref, acquire_parent_ref, check_ref_recursion, get_ref, ref_iter (446-609), Compiler::check (722-761)"]}
{"id": "C93", "title": "The prefixes chosen for namespaces and datatype libraries do not matter", "statement": "Replacing the prefixes of namespaces and of datatype libraries through all files of a schema, xml and xsd excepted and no two by one, changes neither what the schema compiles to, and so the verdict on any document, nor whether it fails, and error messages only in the prefixes they mention.", "quantifier": "every schema, every replacement that keeps different prefixes different", "why_tests_cant": "Prefixes are arbitrary strings, declared, inherited and used across unboundedly many files, name classes and datatypes.", "anchors": ["relaxng-model/src/lib.rs: Context::declare_namespace, namespace_uri_for_prefix, declare_datatype, datatype_uri_for_prefix (348-444), Compiler::compile_include (1296-1364)"]}
{"id": "C94", "title": "A schema can be moved to another directory", "statement": "A schema whose files name each other by relative paths within one directory compiles to the same, or fails with the same error up to the paths in it, in every directory that holds the same files, and the files it reads are the corresponding ones.", "quantifier": "every schema in one directory, with relative hrefs that do not leave it by .., every two directories, absolute or relative", "why_tests_cant": "There are unboundedly many directories, nestings of files and spellings of paths.", "anchors": ["relaxng-model/src/lib.rs: Compiler::compile_include (1296-1364), Compiler::compile_external (1599-1650), Context::file (306-323), Context::check_include (624-646), Compiler::get_schema (1180-1193)"]}
{"id": "C95", "title": "The prefixes a document uses do not matter", "statement": "Replacing the namespace prefixes of a document, where they are declared and where they are used, no two by one, changes neither the verdict on it nor, but for the prefixes it mentions, the error.", "quantifier": "every schema, every sequence of tokens, every replacement that keeps different prefixes different", "why_tests_cant": "Prefixes are arbitrary strings, declared and used in unboundedly many nested elements and attributes.", "anchors": ["relaxng-validator/src/lib.rs: ElementStack (1553-1652), Validator::validate (644-818), close_element_start (820-863)"]}
{"id": "C96", "title": "Namespace declarations a document does not use do not matter", "statement": "Removing from a document the declarations of a prefix no name in it has, or its default namespace declarations, which the validator resolves no name by, changes neither the verdict nor the error.", "quantifier": "every schema, every document, every prefix without uses and the empty one", "why_tests_cant": "Declarations can stand at any depth, in any number, between any other attributes.", "anchors": ["relaxng-validator/src/lib.rs: ElementStack (1553-1652), Validator::validate (644-818), close_element_start (820-863)"]}
{"id": "C97", "title": "Where the text of a document stands in its file does not matter", "statement": "Two documents with the same tokens whose text stands at different offsets of their files get the same verdict, and the same error up to the offsets in it.", "quantifier": "every schema, every sequence of tokens, every choice of offsets", "why_tests_cant": "Offsets are arbitrary numbers that pass through the decoding of entity references of every text.", "anchors": ["relaxng-validator/src/lib.rs: parse_entities (1465-1514), numeric_entity (1515-1537), Validator::validate (644-818)"]}
