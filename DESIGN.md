# Design of the formal model of dholroyd/relaxng-rust

All Coq sources are in `rocq/theories` (logical name `Verif`); only Coq's standard library is used.
Property theorems stand in the files `Props*.v` (what holds) and `Refuted*.v` (where the code does
not have the property, with a concrete counterexample run through the model).  `MANIFEST.json` maps
each property of `properties.jsonl` to its theorems.

## 1. Trusted base

* **Coq 8.16.1's kernel**, including its `vm_compute` conversion (used in examples and refutations only
  to evaluate closed terms; the kernel re-checks).  No plugin, no extraction, no kernel flag changed.
* **Axioms: none.**  `Print Assumptions` stands under the property theorems and prints
  "Closed under the global context" for every one of them.  `coqchk`/`vcheck` list seven axioms of the
  standard library module type `Coq.ssr.ssrunder.Under_rel` because standard library files that are
  loaded (through `ssreflect`-based parts of the standard library) contain that module type; no theorem here depends on them.
* **The reading of /repo.**  The code is never run here.  Each definition of the model cites the file and lines it
  models, and says where it simplifies.  What is trusted is that this reading is right; section 3 lists
  what it covers.
* **Parameters instead of engines.**  Two records are universally quantified in every theorem, so no theorem
  depends on what they do: `oracles` (Datatype.v: the `regex` crate on user `pattern` facets, its `\d` class,
  `chrono` dates, `uriparse`, `f64` and `BigDecimal` parsing) and `coracles` (Facets.v: whether `Regex::new`
  accepts a string; the value of an `f64` literal).
* **Libraries modelled by their documented behaviour**, not from their source (it is not in the sandbox):
  - `xmlparser`: delivers tokens; attributes and tag ends come after an element start (`stream_ok`); it neither
    checks that end tags match nor that the document is complete.  The model's input is the token stream.
  - `roxmltree`: delivers a tree (`XmlSyntax.v`); its errors carry 1-based rows and columns.
  - `nom` 8 combinators, modelled one by one in `CompactParse.v`.
  - `codemap`: `subspan` asserts begin <= end <= length, `line_span` asserts the line exists, lines count from 0.
  - `HashMap`/`HashSet` are association lists / duplicate-free lists.  Where iteration order is observable (the help text) it is a parameter.
  - Rust `str` is the list of its scalar values; byte offsets are computed with `utf8_len`.  `usize`/`u16`
    overflow: the one place that matters, the 2^16 limit of the pattern store, is modelled (`push`).
* **Recursion budget.**  Rust recursion that is not structural is given a fuel argument with the extra outcome `OutOfFuel`.
  Theorems say `settles f r` (for all large enough fuel the result is r) or hold for every fuel with a
  non-`OutOfFuel` result.  Real stack exhaustion is not modelled: deep recursion is assumed to return.
  FuelMono.v and SchemaTerm.v prove that more fuel never changes a result.

## 2. Outcomes

A panic is an explicit outcome (`Panic p`), never an exception to a theorem: "accepts" and "rejects" mean that the
process returned.  `overflows` is the documented panic of the pattern store beyond 2^16 patterns.

## 3. What is modelled

| /repo | model | not modelled |
|-------|-------|--------------|
| relaxng-validator/src/lib.rs 1-242 pattern store, smart constructors, placeholders | Store.v | interior mutability (`RefCell`): state monad |
| 467-507 name classes | Store.v `contains` | |
| 522-616 `Validator::new`, `compile` | Compile.v | `Rc` cells: indices into a list of definitions |
| 617-863 `validate_next`, `validate`, `close_element_start` | Events.v | |
| 865-1198 derivatives | Deriv.v | |
| 1200-1455 `heads`, `describe_*`, `diagnostic` | Diag.v | wording of messages other than the help; rendering |
| 1455-1652 entities, element stack | Events.v | |
| relaxng-model/src/datatype/* | Datatype.v, Facets.v, Accessors.v, Regex.v | external parsers (oracles); the regular expressions in the source are modelled and proved |
| relaxng-model/src/model.rs | Compile.v (`mpat`), Store.v | |
| relaxng-model/src/lib.rs 169-761, 1180-1932 compiler | SchemaCompile.v; Located.v with source positions and their conversion; Where.v with the positions in the errors (93-167); Session.v with the cache kept between calls (663-689, 1180-1193) | the text of messages; which parameter a facet error is about is recovered as the first at which the loop over the parameters fails (FacetAt.v proves it is where the loop stops) |
| 763-1166 `Compiler::diagnostic` | Diag.v `schema_diagnostic` (which errors panic), Where.v `labels` (positions and styles) | texts; the position of a syntax error inside its file |
| relaxng-syntax/src/compact.rs | CompactParse.v (every rule), CompactSpans.v (the same with the positions recorded in the schema), CompactError.v (the same with the positions of errors, and `Syntax::parse` of relaxng-model/src/lib.rs:66-85) | positions inside annotations and of literals; the kind of a nom error |
| relaxng-syntax/src/xml.rs | XmlSyntax.v (on roxmltree's tree) | roxmltree itself; spans except in C54 |
| relaxng-syntax/src/types.rs, lib.rs | Syntax.v, XmlSyntax.v | `Span` fields |
| relaxng-tool/src/main.rs | Tool.v | command line parsing, printing |

## 4. Specifications (independent of the model)

* `Spec.v`: RELAX NG validity (OASIS 2001, sections 7 and 9.3) on trees: `rng_valid`.
* `Infoset.v`: what a document says by XML 1.0 and Namespaces: `Document d root`.
* `RefSpec.v`: references that stand for nothing.
* `DatatypeSpec.v`: lexical and value spaces, facets.
* `SourceSpec.v`, `SchemaSpec.v`: the meaning of a schema as written, over files (RELAX NG section 4): `schema_valid`.
* `CompactText.v`: the texts of a schema in the compact syntax; `CompactPrint.v`: a reference printer.
* `RngXml.v`: the schema an XML document stands for (RELAX NG section 3, 4.1-4.5).
* Scope conditions, each justified by a refutation: `Scope.v` (`rng_schema` = RELAX NG's own restrictions, `in_limits` = limits
  of the code), `Infoset.v` (`doc_scope`; `doc_reads`, with `Main.v` `doc_fits`, allows character data in pieces where the schema has no data), `SourceScope.v` (`files_ok`), `XmlScope.v` (`XScope`).

## 5. Properties: what is modelled and how it is proved

| id | model | proof |
|----|-------|-------|
| C01, C02, C03 | store, derivatives, events | Lang.v gives every stored pattern a language; one theorem per derivative (TextProof, TagProof, AttProof; wp calculus in Wp.v); induction over documents (DocProof, Accept); compilation preserves the language (CompileProof, Final, LangA); equivalence with Spec.v (Sound); documents (InfosetProof); Main.v |
| C04 | same; panics and fuel explicit | size measure; invariant kept by every token (Accept `validate_total`) |
| C05 | `contains` | structural induction |
| C06, C38 | corollaries of Main.v | permutation invariance of the specification (Perm.v) |
| C07, C08, C09, C10 | `validate`, `push` from any reachable state | case analysis; invariants over histories (Steps, Reach) |
| C11, C12, C13 | derivatives | corollaries of the text derivative (Words.v, Runs.v for list); exact, since Spec.v's relation `Mg sp` is parametrised by the separators of list tokens: `M = Mg is_xml_ws` is RELAX NG, `Mg is_uni_ws` the code; `plain_for` (Main.v) asks for XML white space only, and only where the schema uses lists |
| C14, C15, C47 | element stack | partial + refuted: the stack is never popped and default namespaces are ignored; C47/View.v characterises the verdict on any document by what the code reads in it |
| C16, C37 | `parse_entities`, `validate` | induction on the text (InfosetProof, RefProof); partial + refuted |
| C17, C18, C19 | events | C17, C18 refuted with partial theorems; C19: pieces joined outside data (Split.v), refuted inside; Condense.v: for any document whatever, accepted implies that the reading with the pieces of each element taken as one string (joined, the one non-blank piece, or space separated) is valid; C18 with partial theorems (Balance.v): an accepted stream is the beginning of one document |
| C20, C21 | `normalize_whitespace` | induction on strings |
| C22-C25, C39, C40 | facets, numerals | induction on digits and facet lists; several refuted |
| C26, C27 | regex AST with verified matcher; `nc_name` | induction on regexes / strings |
| C28-C32, C41-C46 | schema compiler | translation relation between source and compiled patterns (SourceTr, SourceSem, SourceCompile), `external` included where the compiler reads the file as its own declarations and place say (SourceScope `ext_ok`), then order and combination (SchemaOrder, SchemaCombine; SchemaShuffle.v: reordering the contents of every grammar file at once keeps the rules of SchemaGood.v, so with SchemaKept.v also whether a schema compiles); refuted where the compiler is wrong; for `inherit`, a simulation between the compiler on the files and on the files without it (SchemaInherit) |
| C57 | schema compiler | every pattern written in a file that is read has been compiled (SchemaAttr; SchemaShows for what is reached through external patterns), so its context was checked; refutations for the unchecked paths |
| C58 | schema compiler with positions (Located.v) | simulation between compiling with and without positions, by induction on the files (LocatedProof); refuted across files |
| C59 | schema compiler | the rules on the source (SchemaGood); progress by induction on patterns and files, with an invariant on the tables of names: what is in a table is defined, or will be by the grammar being read (SchemaProgress); external files are followed, and a trail of files that does not come back gives termination (SchemaTermExt); refuted where the compiler asks for more |
| C33 | schema compiler | invariant on the chain of includes (SchemaVisit); termination measure over file names (SchemaTerm); with external: SchemaReach.v (no return), SchemaTermExt.v (lexicographic measure: files not yet around the context, then the bare grammars still ahead) |
| C34, C35, C48, C49 | compact parser | relation between texts and schemas; parser complete (CompactRead*) and sound (CompactSound) for it; totality (CompactTotal) |
| C36 | `main` | induction on the documents, with FuelMono.v; composed with C28, C01, C02 |
| C50-C53 | XML parser | induction on the tree (XmlProof, XmlAnnot, XmlRefuse); witnesses in RefutedXml, RefutedXmlNs |
| C54 | error position conversion | refuted |
| C60-C68 | as C33, C22, C23, C24, C21, C48, C34, C35, C36 | the parts of those properties that hold without any restriction, stated on their own |
| C69-C72 | the schema compiler (SchemaCompile.v), the occurrence relations of SchemaSpec.v and SchemaCheck.v (what is written where in a file, independently of the compiler) | SchemaCheck.v: structural induction on the source with an invariant on contexts (which file, which prefixes), then induction on the include chain and the recursion depth |
| C41 (positive part) | SchemaDefault.v: compilation of two file systems that differ in declarations without effect; SchemaQual.v: the source semantics under changed default namespaces | SchemaDefault.v: pointwise equality by structural induction; SchemaQual.v: mutual induction on SM/SX with related scopes |
| C73, C74 | CompactSpans.v: the compact parser with the positions it records (CompactSpans.v lists those left out), `Slice` and `placed` as specification | CompactSpansProof.v: simulation with CompactParse.v, combinator by combinator; CompactSpansPlace.v: each parser reads a suffix of the text and its positions lie between where it started and stopped |
| C75 | `resolve` of SchemaCompile.v against pieces between slashes (`Runs`, Runs.v) | PathProof.v: induction on lists of components |
| C76-C79 | `datatype_value`, `dt_valid`, `qname_try` | DatatypeMore.v: case analysis over the table of types; strings split at their first colon |
| C80 | Accessors.v (xsd.rs:203-230, 352-414); `at_least`, `at_most` (AccessorsSpec.v) say what a report means, independently of the facets | AccessorsProof.v: case analysis over the kinds of facet, from C22-C24; exclusive bounds of decimals and reports that overflow refuted |
| C81 | `get_schema`, `compile_grammar` on two file systems | SchemaLocal.v: simulation of the two compilations, structural induction, then induction on the recursion depth |
| C82 | Convert.v: the conversion to the XML syntax as a specification (no code is modelled there), `convertible` the schemas concerned; XmlSyntax.v and SchemaCompile.v | ConvertRead.v: the XML parser on converted schemas, structural induction; ConvertCompile.v: simulation of the compilation of the schema and of the one read back, contexts related by forgetting declarations; refutations for what `convertible` excludes; SchemaWrap.v: weakening and strengthening of the meaning by an outer grammar |
| C83 | Facets.v: `facet_table` and the loops over the parameters | ParamSpec.v: what is wrong with a parameter after others (`Fault`), stated over the list; ParamProof.v: all loops as one fold, an invariant linking the fold's state to the parameters seen |
| C84 | the schema compiler whose contexts, rules, overrides, references and errors carry positions (Where.v), and the labels of the diagnostic | WhereSpec.v: constructs, their parts, what is written where, and for each kind of error what its positions must be the positions of (`says`); WhereProof.v: invariants on states and contexts, induction on patterns and files; WhereSim.v: without positions it is Located.v's compiler |
| C85 | CompactError.v: the compact parser whose errors carry the text left where they arose, through each nom combinator (alt keeps the last, fold_many1 and not replace it), and the span built from it | CompactErrorSim.v: equal to CompactParse.v once positions are dropped; CompactErrorProof.v: for each rule, a failure or error arises after a beginning of a text of the rule (`V`), by induction on the parsers; the specification is the grammar CompactText.v |
| C71 through external patterns | `Escapes`, `top_body` (SchemaEscape.v), on the source alone | SchemaEscape.v: induction on `Escapes` with the recursion depth generalised, over the visited contents of SchemaCheck.v |
| C86 (and C33, C57, C69, C70, C72 for files reached by external) | `Consulted` (SchemaReach.v): which files are read through include and external, where their names are looked up and which declarations are in force, on the source alone | SchemaReach.v: the invariant of SchemaCheck.v extended to external; every file listed is consulted by a closure over the compiler's monad; every consulted file is listed by taking the unlisted files away (C81) and using that consulted files exist |
| C87 | Session.v: the compiler with the cache it keeps from call to call, on files that depend on the moment they are read; `Later`: any history of calls and waiting | SessionProof.v: every step of the compiler simulates the step of SchemaCompile.v on any fixed file system that shows the files as read (closure over the monad), then induction over the history; refutations with files that change between the readings |
| C88 | schema compiler | the converse of C59: from a successful run to the rules on the source (SchemaKept): induction on patterns, contents and depth, carrying for every name used the table entry made for it, for every file named that it was read and kept its own rules, and a bound on trails of files; refuted where the compiler does not look |
| C89 | validator | refuted with a schema with a repeated wildcard; for a name no two members of a group or interleave take and nothing repeated takes: induction on the validity judgement (counting attributes of the name), carried to the reading and the source through the condensation of C47 |
| C90 | schema compiler | refuted; the compiler is shown equal, errors and panics included, on the files with the later declarations taken away (through same_compile of SchemaDefault): induction on the declarations with the prefixes seen so far bound in the context |
| C91 | `plain_files` (SchemaPlain.v), the plain form of a schema, a function on the source syntax; SchemaCompile.v | the compiler is shown equal on a schema and its plain form: induction on patterns and contents, and on the depth of nesting of files; positions (Where.v, Located.v) of course differ |
| C92 | SchemaCompile.v; `ren_files` (SchemaRename.v) renames on the source syntax | simulation: every step of the compiler on renamed contexts, tables and cells is the renamed step; induction on patterns, contents, depth, and for `check` on the compiled patterns |
| C93 | SchemaCompile.v; `pre_files` (SchemaRetag.v) replaces prefixes on the source syntax | simulation as for C92: contexts hold the replaced prefixes, the state is equal |
| C94 | SchemaCompile.v (`resolve`, `norm`, `check_include`, `loaded`); `inside`, `hrefs_schema` in SchemaMove.v | simulation: the paths in contexts and in the list of loaded files are mapped to the new directory, where the map is injective and commutes with resolving hrefs; plain operations neither read nor write that list |
| C95 | Events.v; `pre_token` in DocPrefix.v | simulation: the element stack with replaced prefixes resolves every name alike; pattern store and current pattern are equal after every token |
| C96 | Events.v; `without` in DocUnused.v | simulation: the element stack without the declarations resolves every name in use alike; the token of a declaration changes only the stack |
| C97 | Events.v; `no_offset` in DocWhere.v | simulation: the same states after every token, results compared without offsets |
| C55, C56 | diagnostics | what a live open-tag derivative implies about the pattern (DiagProof), totality of `head` on legal schemas |

Nothing in the list is left out as inexpressible.  Outside the list: wording of messages, memory use, speed, behaviour of the external crates.

## 6. Non-vacuity and tests of the theorems

Beside each theorem stands an `Example` instantiating it with concrete schemas and documents (Examples.v, SchemaExamples.v,
CompactMain.v, XmlExamples.v, ToolExamples.v).  `tools/mutate.py` edits the model in a scratch copy the way a bug would and rebuilds;
`seeded/LOG.jsonl` records each edit, the theorems that failed and the theorems tightened as a result.
`RepoTests.v` runs every unit test of /repo that is not `#[ignore]`d through the model (parser, compiler, validator) and gets the result the
test asserts: a test of the reading of the code, not a property.
