(** * RepoTests: the unit tests of /repo, run through the model.

    Every #[test] of the repository that is not #[ignore]d, as an [Example]: the schema texts go through the
    model's parser, compiler and validator; the XML documents are given as the tokens [xmlparser] delivers.
    These are tests of the reading of the code, not properties. *)
From Coq Require Import String.
From Verif Require Import Base Datatype Facets Store Deriv Events Compile Syntax SchemaCompile SchemaMain SchemaExamples.
From Verif Require CompactParse XmlSyntax.

(** relaxng-validator/src/lib.rs:1739-1790 [check_simple], [Fixture]: [Some true] passes, [Some false] is rejected *)
Definition check_simple O C (schema : string) (toks : list token) : option bool :=
  match CompactParse.parse_compact (lit schema) with
  | CompactParse.Parsed s =>
      match compile_grammar O C (files [(P "main.rnc", s)]) 5 (P "main.rnc") with
      | Ok (inl (r, st)) =>
          match new_validator (cell_defs st) 60 (Some (start_of r st)) with
          | Ok v => match Events.run O 60 v toks with Ok (_, None) => Some true | Ok (_, Some _) => Some false | _ => None end
          | _ => None
          end
      | _ => None
      end
  | _ => None
  end.
Definition open_ (n : string) : list token := [TElementStart [] (lit n); TElementEnd EndOpen].
Definition empty_ (n : string) : list token := [TElementStart [] (lit n); TElementEnd EndEmpty].
Definition close_ (n : string) : list token := [TElementEnd (EndClose [] (lit n))].
Definition att_ (n v : string) : token := TAttribute [] (lit n) (lit v).
Definition text_ (k : nat) (s : string) : list token := [TText k (lit s)].
Definition decl_ : list token := [TDeclaration].
Ltac t := intros; vm_compute; reflexivity.

(** ** relaxng-validator/src/lib.rs:1792-1960 *)
Example recur : forall O C, check_simple O C "start = b  b = element a { b? }" (decl_ ++ open_ "a" ++ open_ "a" ++ close_ "a" ++ close_ "a") = Some true.
Proof. t. Qed.
Example attr : forall O C, check_simple O C "start = element a { attribute b { text } }" (decl_ ++ [TElementStart [] (lit "a"); att_ "b" ""; TElementEnd EndEmpty]) = Some true.
Proof. t. Qed.
Example attr_group_incomplete : forall O C, check_simple O C "start = element e { attribute a { text }, attribute b { text } }" (decl_ ++ [TElementStart [] (lit "e"); att_ "a" ""; TElementEnd EndEmpty]) = Some false.
Proof. t. Qed.
Example attr_choice : forall O C, check_simple O C "start = element a { attribute a { text } | attribute b { text } }" (decl_ ++ [TElementStart [] (lit "a"); att_ "a" ""; TElementEnd EndEmpty]) = Some true.
Proof. t. Qed.
Example attr_unexpected : forall O C, check_simple O C "start = element a { attribute a { text } }" (decl_ ++ [TElementStart [] (lit "a"); att_ "a" ""; att_ "b" ""; TElementEnd EndEmpty]) = Some false.
Proof. t. Qed.
Example elem_text_empty : forall O C, check_simple O C "start = element e { empty }" (decl_ ++ open_ "e" ++ text_ 24 " " ++ close_ "e") = Some true.
Proof. t. Qed.
Example elem_only_children_whitespace : forall O C, check_simple O C "start = element e1 { element e2 { empty } }" (decl_ ++ open_ "e1" ++ text_ 25 " " ++ empty_ "e2" ++ text_ 31 " " ++ close_ "e1") = Some true.
Proof. t. Qed.
Example list_ : forall O C, check_simple O C "start = element e1 { list { token 'one', token 'two' } }" (decl_ ++ open_ "e1" ++ text_ 25 "one two" ++ close_ "e1") = Some true.
Proof. t. Qed.
Example list_one_or_more : forall O C, check_simple O C "start = element e1 { list { 'x'+ } }" (decl_ ++ open_ "e1" ++ text_ 25 "x" ++ close_ "e1") = Some true.
Proof. t. Qed.
Example element_whitespace_one_or_more : forall O C, check_simple O C "start = element a { element b { empty }+ }" (open_ "a" ++ text_ 3 " " ++ empty_ "b" ++ empty_ "b" ++ empty_ "b" ++ close_ "a") = Some true.
Proof. t. Qed.
Example text_element_group : forall O C, check_simple O C "start = element a { text, element b { empty } }" (open_ "a" ++ text_ 3 "foo " ++ empty_ "b" ++ close_ "a") = Some true.
Proof. t. Qed.
Example datavalue_in_parts : forall O C, check_simple O C "start = element a { xsd:string }" (open_ "a" ++ text_ 3 "foo &amp; bar" ++ close_ "a") = Some true.
Proof. t. Qed.
Example top_level_grammar : forall O C, check_simple O C "grammar { start = element a { empty } }" (empty_ "a") = Some true.
Proof. t. Qed.
(** an engine whose \d is the ASCII digits *)
Definition ascii : oracles := Build_oracles (fun _ _ => false) (fun c => (48 <=? c)%N && (c <=? 57)%N) (fun _ => false) (fun _ => false) (fun _ => false) (fun _ => None).
Example attribute_any_other_namespace : forall C, check_simple ascii C
  "namespace local = """" default namespace foo = ""urn:foo"" element MPD { attribute mediaPresentationDuration { xsd:duration }?, attribute * - (foo:* | local:*)  { text } }"
  (decl_ ++ [TElementStart [] (lit "MPD"); TAttribute [] (lit "xmlns") (lit "urn:foo"); att_ "mediaPresentationDuration" "XPT0H11M58.998S"; TElementEnd EndOpen] ++ close_ "MPD") = Some false.
Proof. t. Qed.
Example parse_entities_ : parse_entities 0 0 false [] (lit "foo &bar; blat") = [inl (TxText 0 (lit "foo ")); inl (TxEntity 5 (lit "bar")); inl (TxText 9 (lit " blat"))].
Proof. t. Qed.

(** ** relaxng-syntax/src/compact.rs:989-1396; positions are not modelled *)
Definition ck {A} (p : CompactParse.parser A) (input : string) (expected : A) : Prop := p (lit input) = CompactParse.POk expected [].
Example test_start : ck (CompactParse.grammar_content 20) "start = pattern" (GDefine (lit "start") MAssign (SIdent (lit "pattern"))).
Proof. t. Qed.
Example literal_seg : ck CompactParse.literal_segment "'foo'" (lit "foo") /\ ck CompactParse.literal_segment "'''foo'''" (lit "foo") /\ ck CompactParse.literal_segment "'''foo''bar'''" (lit "foo''bar") /\
  ck CompactParse.literal_segment """""" [] /\ ck CompactParse.literal_segment """foo""" (lit "foo") /\ ck CompactParse.literal_segment """""""foo""""""" (lit "foo") /\ ck CompactParse.literal_segment """""""foo""""bar""""""" (lit "foo""""bar").
Proof. repeat split; t. Qed.
Example namespace : ck CompactParse.decl_namespace "namespace rng = ""http://relaxng.org/ns/structure/1.0""" (DNamespace (lit "rng") (UUri [lit "http://relaxng.org/ns/structure/1.0"])).
Proof. t. Qed.
Example def_namespace : ck CompactParse.decl_default_namespace "default namespace rng = ""http://relaxng.org/ns/structure/1.0""" (DDefault (Some (lit "rng")) (UUri [lit "http://relaxng.org/ns/structure/1.0"])).
Proof. t. Qed.
Example pattern_list : ck (CompactParse.pattern 20) "a,b , c" (SListPair (SIdent (lit "a")) (SListPair (SIdent (lit "b")) (SIdent (lit "c")))).
Proof. t. Qed.
Example pattern_opt : ck (CompactParse.pattern 20) "a?" (SOptional (SIdent (lit "a"))).
Proof. t. Qed.
Example attr_pat : ck (CompactParse.pattern 20) "attribute * { text }" (SAttribute (CAny None) SText).
Proof. t. Qed.
Example list_zeromore_patt : ck (CompactParse.pattern 20) "a*, b" (SListPair (SZeroOrMore (SIdent (lit "a"))) (SIdent (lit "b"))).
Proof. t. Qed.
Example alt_nc : ck (CompactParse.name_class 20) "a|b" (CAlt (CName (NmId (IKId (lit "a")))) (CName (NmId (IKId (lit "b"))))).
Proof. t. Qed.
Example keyw : ck CompactParse.identifier_or_keyword "parent" (IKKw (lit "parent")) /\ ck CompactParse.identifier_or_keyword "parents" (IKId (lit "parents")).
Proof. split; t. Qed.
Example test_pattern_cname : ck (CompactParse.pattern 20) "xsd:string" (SData (SdC (lit "xsd") (lit "string")) None None).
Proof. t. Qed.
Example test_it : ck CompactParse.p_name "a:b" (NmC (lit "a") (lit "b")).
Proof. t. Qed.
Example test_include : ck (CompactParse.grammar_content 20) "include ""foo.rnc"" { a = b  c=d }"
  (GInclude [lit "foo.rnc"] None (Some [IDefine (lit "a") MAssign (SIdent (lit "b")); IDefine (lit "c") MAssign (SIdent (lit "d"))])).
Proof. t. Qed.
Example pattern_id_keyword_prefix : ck (CompactParse.pattern 20) "external-foo" (SIdent (lit "external-foo")).
Proof. t. Qed.
Example test_datatypename_pattern_params : ck (CompactParse.pattern 20) "ns:foo { pattern = ""bar"" }" (SData (SdC (lit "ns") (lit "foo")) (Some [(None, IKId (lit "pattern"), [lit "bar"])]) None).
Proof. t. Qed.
Example test_datatypename_pattern : ck (CompactParse.top_level 20) "integer.datatype = xsd:integer" (Schema [] (TGrammar [GDefine (lit "integer.datatype") MAssign (SData (SdC (lit "xsd") (lit "integer")) None None)])).
Proof. t. Qed.
Example datatype_value_ : ck (CompactParse.pattern 20) "string ""preserve""" (SValue (Some SdString) [lit "preserve"]).
Proof. t. Qed.
Example initial_anno : ck (CompactParse.maybe_initial_annotation 20) "[ xml:lang=""en"" ]" (Some (Initial [(NmC (lit "xml") (lit "lang"), [lit "en"])] [])).
Proof. t. Qed.
Example top_level_pattern : ck (CompactParse.top_level 20) "grammar { }" (Schema [] (TPattern (SGrammar []))).
Proof. t. Qed.

(** ** relaxng-syntax/src/lib.rs:12-78 *)
Definition rng_rnc : string := "# RELAX NG XML syntax specified in compact syntax.
        default namespace rng = ""http://relaxng.org/ns/structure/1.0""
        namespace local = """"
        datatypes xsd = ""http://www.w3.org/2001/XMLSchema-datatypes""

        start = pattern

        pattern =
            element element { (nameQName | nameClass), (common & pattern+) }
            | element attribute { (nameQName | nameClass), (common & pattern?) }
            | element group|interleave|choice|optional
            |zeroOrMore|oneOrMore|list|mixed { common & pattern+ }
            | element ref|parentRef { nameNCName, common }
            | element empty|notAllowed|text { common }
            | element data { type, param*, (common & exceptPattern?) }
            | element value { commonAttributes, type?, xsd:string }
            | element externalRef { href, common }
            | element grammar { common & grammarContent* }

        param = element param { commonAttributes, nameNCName, xsd:string }

        exceptPattern = element except { common & pattern+ }

        grammarContent =
            definition
            | element div { common & grammarContent* }
            | element include { href, (common & includeContent*) }

        includeContent =
            definition
            | element div { common & includeContent* }

        definition =
            element start { combine?, (common & pattern+) }
            | element define { nameNCName, combine?, (common & pattern+) }

        combine = attribute combine { ""choice"" | ""interleave"" }

        nameClass =
            element name { commonAttributes, xsd:QName }
            | element anyName { common & exceptNameClass? }
            | element nsName { common & exceptNameClass? }
            | element choice { common & nameClass+ }

        exceptNameClass = element except { common & nameClass+ }

        nameQName = attribute name { xsd:QName }
        nameNCName = attribute name { xsd:NCName }
        href = attribute href { xsd:anyURI }
        type = attribute type { xsd:NCName }

        common = commonAttributes, foreignElement*

        commonAttributes =
            attribute ns { xsd:string }?,
            attribute datatypeLibrary { xsd:anyURI }?,
            foreignAttribute*

        foreignElement = element * - rng:* { (anyAttribute | text | anyElement)* }
        foreignAttribute = attribute * - (rng:*|local:*) { text }
        anyElement = element * { (anyAttribute | text | anyElement)* }
        anyAttribute = attribute * { text }
        ".
Example it_works_compact : exists s, CompactParse.parse_compact (lit rng_rnc) = CompactParse.Parsed s.
Proof. eexists. vm_compute. reflexivity. Qed.

(** ** relaxng-model/src/lib.rs:1934-2031 *)
Definition parsed_files (l : list (string * string)) : filesys :=
  files (concat (map (fun '(n, s) => match CompactParse.parse_compact (lit s) with CompactParse.Parsed x => [(P n, x)] | _ => [] end) l)).
Example refs : forall O C, exists st, compile_grammar O C (parsed_files [("test.rnc"%string, "start = foo  foo = element x { foo | empty }"%string)]) 5 (P "test.rnc") = fok (1, st) /\
  cell_defs st = [MElement (NNamed [] (lit "x")) (MChoice [MRef 0; MEmpty]); MRef 0].
Proof. intros. eexists. split; vm_compute; reflexivity. Qed.
Example include_self_ref : forall O C, exists r st, compile_grammar O C (parsed_files [("main.rnc"%string, "start = grammar { start = blocks  include 'elements.rnc' }"%string); ("elements.rnc"%string, "blocks = element container { blocks? }"%string)]) 5 (P "main.rnc") = fok (r, st) /\
  start_of r st = MRef 0 /\ nth 0 (cell_defs st) MEmpty = MElement (NNamed [] (lit "container")) (MOptional (MRef 0)).
Proof. intros. eexists _, _. split; [vm_compute; reflexivity|]. split; vm_compute; reflexivity. Qed.

(** ** relaxng-model/src/datatype/xsd.rs, relax.rs *)
Example it_works_xsd : forall O C, xsd_compile O C (lit "normalizedString") [(lit "length", lit "1")] = fok (XNormalizedString (LLength 1) None).
Proof. t. Qed.
Example test_normalize : map normalize_whitespace [[]; lit " "; lit "  "; lit "a "; lit " a"; lit "a a"; [10; 97; 9; 32; 97; 13]%N] = [[]; []; []; lit "a"; lit "a"; lit "a a"; lit "a a"].
Proof. t. Qed.

(** ** relaxng-syntax/src/xml.rs:1008-1023 *)
Example it_works_xml : forall U, exists ns body,
  XmlSyntax.pattern U [] (XmlSyntax.XElt (Some (lit "http://relaxng.org/ns/structure/1.0")) (lit "element") [XmlSyntax.XAtt None (lit "name") (lit "library")] [(None, lit "http://relaxng.org/ns/structure/1.0")]
    [XmlSyntax.XElt (Some (lit "http://relaxng.org/ns/structure/1.0")) (lit "text") [] [(None, lit "http://relaxng.org/ns/structure/1.0")] []])
  = Some (SElement (CName (NmNs ns (lit "library"))) body).
Proof. intros. eexists _, _. vm_compute. reflexivity. Qed.
