(** * CompactSpans: the parser of the compact syntax, with the source positions it records.
    relaxng-syntax/src/compact.rs:153-164 (literals), 190-208 ([span], identifiers), 210-222 (names), 288-291
    (keywords), 385-433 (elements, attributes), 484-504 (grammars), 635-709 (name classes), 737-772 (definitions),
    801-847 (includes).

    CompactParse.v drops positions.  Here the same functions, built from the same combinators, return the located
    abstract syntax of Located.v.  A position is nom_locate's [location_offset]: the number of bytes of the text before
    the input that is left.

    Simplifications: the positions of literals (compact.rs:515-575) and inside annotations (887-985), the whole-rule position of a definition ([Define.0], unused by the compiler) and the position
    0..0 of a grammar without the keyword (46-53) are not carried. *)
From Coq Require Import String.
From Verif Require Import Base Datatype Syntax CompactParse SchemaCompile Located.

Section Spans.
Variable total : nat.   (* the length of the text, in bytes *)

(** nom_locate's [position], then [location_offset] *)
Definition pos (s : str) : N := N.of_nat (total - utf8_len s).
Definition here : parser N := fun s => POk (pos s) s.
(** compact.rs:190-195 [span] of the positions around what [p] reads *)
Definition spanned {A} (p : parser A) : parser (span * A) :=
  let* a := here in let* x := p in let* b := here in pret ((a, b), x).

(** compact.rs:702-709 [cname], 635-641 [name] *)
Definition l_cname : parser lnc :=
  let* x := spanned p_nc_name in ptag (lit ":") ;* let* l := p_nc_name in pret (LName (NmC (snd x) l) (fst x)).
Definition l_name : parser lnc :=
  l_cname <|> pmap (fun x => LName (NmId (snd x)) (fst x)) (spanned identifier_or_keyword).

(** compact.rs:597-631, 643-700 *)
Definition l_except_nc (nc : parser lnc) : parser (option lnc) :=
  popt (sc0 ;* ptag (lit "-") ;* sc0 ;* nc).
Definition l_ns_name_nc (nc : parser lnc) : parser lnc :=
  let* x := spanned p_nc_name in ptag (lit ":*") ;* let* e := l_except_nc nc in pret (LNs (NsPrefix (snd x)) (fst x) e).
Definition l_any_name_nc (nc : parser lnc) : parser lnc :=
  ptag (lit "*") ;* let* e := l_except_nc nc in pret (LAny e).
Definition l_paren_nc (nc : parser lnc) : parser lnc :=
  ptag (lit "(") ;* sc0 ;* let* a := nc in sc0 ;* ptag (lit ")") ;* pret (LParen a).
Definition l_alt_nc (nc : parser lnc) : parser lnc :=
  sc0 ;* ptag (lit "|") ;* sc0 ;* nc.
Definition l_prim_nc (nc : parser lnc) : parser lnc :=
  l_ns_name_nc nc <|> l_name <|> l_any_name_nc nc <|> l_paren_nc nc.
Definition l_alt_step (nc : parser lnc) (a : lnc) : parser lnc := fun s =>
  match l_alt_nc nc s with
  | POk b r => POk (LAlt a b) r
  | PPanic x => PPanic x
  | PFuel => PFuel
  | _ => POk a s
  end.
Fixpoint l_name_class (n : nat) : parser lnc :=
  match n with
  | 0 => fun _ => PFuel
  | S n' =>
      let* an := maybe_initial_annotation n in
      let* a := l_prim_nc (l_name_class n') in
      let* fl := follow_annotation_list n in
      match fl, an with
      | _ :: _, None => fun _ => PPanic PUnwrapNone
      | _, _ => l_alt_step (l_name_class n') a
      end
  end.

(** compact.rs:836-847 [inherit] *)
Definition l_inherit : parser (span * id_or_kw) :=
  ptag (lit "inherit") ;* sc0 ;* ptag (lit "=") ;* sc0 ;* spanned identifier_or_keyword.
Definition l_opt_inherit : parser (option (span * id_or_kw)) := popt (sc1 ;* l_inherit).

Record lrules := LRules { lr_pattern : parser lspat; lr_grammar : parser lgcontent; lr_include : parser licontent }.

Section Bodies.
Variable n : nat.
Variable R : lrules.

(** compact.rs:383-433: element, attribute; from the keyword to the closing brace *)
Definition l_named_pattern (kw : str) (c : span -> lnc -> lspat -> lspat) : parser lspat :=
  let* a := here in ptag kw ;* sc1 ;* let* nc := l_name_class n in
  sc0 ;* ptag (lit "{") ;* sc0 ;* let* p := pcut (lr_pattern R) in sc0 ;* pcut (ptag (lit "}")) ;*
  let* b := here in pret (c (a, b) nc p).
(** compact.rs:434-467: list, mixed *)
Definition l_braced_pattern (kw : str) (c : lspat -> lspat) : parser lspat :=
  ptag kw ;* sc0 ;* ptag (lit "{") ;* sc0 ;* let* p := pcut (lr_pattern R) in sc0 ;* pcut (ptag (lit "}")) ;* pret (c p).
(** compact.rs:470-481 [external_pattern] *)
Definition l_external_pattern : parser lspat :=
  ptag (lit "external") ;* sc1 ;* let* u := spanned p_literal in let* i := opt_inherit in pret (LExternal (fst u) (snd u) i).
(** compact.rs:484-504 [grammar_pattern] *)
Definition l_grammar_pattern : parser lspat :=
  let* a := here in ptag (lit "grammar") ;* sc0 ;* ptag (lit "{") ;* sc0 ;* let* l := psep0 sc1 (lr_grammar R) in
  sc0 ;* pcut (ptag (lit "}")) ;* let* b := here in pret (LGrammar (a, b) l).
(** compact.rs:506-512 [group_pattern] *)
Definition l_group_pattern : parser lspat :=
  ptag (lit "(") ;* sc0 ;* let* p := lr_pattern R in sc0 ;* ptag (lit ")") ;* pret (LGroup p).
(** compact.rs:588-596 [datatype_name], 693-699 [cname] *)
Definition l_datatype_cname : parser ldtname :=
  let* x := spanned p_nc_name in ptag (lit ":") ;* let* l := spanned p_nc_name in pret (LdC (fst x) (snd x) (fst l) (snd l)).
Definition l_datatype_name : parser ldtname :=
  pmap (fun _ => LdString) (ptag (lit "string")) <|> pmap (fun _ => LdToken) (ptag (lit "token")) <|> l_datatype_cname.
(** compact.rs:525-546, 554-575 [param]: its position begins before its annotations and ends after the literal *)
Definition l_params : parser (list lparam) :=
  sc0 ;* ptag (lit "{") ;* sc0 ;* let* l := psep0 sc1 (spanned (p_param n)) in sc0 ;* pcut (ptag (lit "}")) ;* pret l.
(** compact.rs:515-522 [datatype_value_pattern] *)
Definition l_datatype_value_pattern : parser lspat :=
  let* nm := popt l_datatype_name in sc0 ;* let* v := p_literal in pret (LValue nm v).
(** compact.rs:525-546 [datatype_param_pattern], 578-586 [except_pattern] *)
Definition l_except_pattern : parser lspat := ptag (lit "-") ;* sc0 ;* lr_pattern R.
Definition l_datatype_param_pattern : parser lspat :=
  let* nm := l_datatype_name in let* ps := popt l_params in let* ex := popt (sc0 ;* l_except_pattern) in pret (LData nm ps ex).

(** compact.rs:319-340 *)
Definition l_prim : parser lspat :=
  l_named_pattern (lit "element") LElement
  <|> l_named_pattern (lit "attribute") LAttribute
  <|> l_braced_pattern (lit "list") LList
  <|> l_braced_pattern (lit "mixed") LMixed
  <|> l_datatype_value_pattern
  <|> l_datatype_param_pattern
  <|> pmap (fun x => LIdent (fst x) (snd x)) (spanned identifier)
  <|> (ptag (lit "parent") ;* sc1 ;* let* i := spanned identifier in pret (LParent (fst i) (snd i)))
  <|> pmap (fun _ => LEmpty) (ptag (lit "empty"))
  <|> pmap (fun _ => LText) (ptag (lit "text"))
  <|> pmap (fun _ => LNotAllowed) (ptag (lit "notAllowed"))
  <|> l_external_pattern
  <|> l_grammar_pattern
  <|> l_group_pattern.

(** compact.rs:347-380 *)
Definition l_infix (op : str) (c : lspat -> lspat -> lspat) (a : lspat) : parser lspat :=
  ptag op ;* sc0 ;* let* b := lr_pattern R in pret (c a b).
Definition l_postfix (op : str) (c : lspat -> lspat) (a : lspat) : parser lspat :=
  ptag op ;* pret (c a).
Fixpoint l_op_loop (m : nat) (a : lspat) : parser lspat := fun s =>
  match m with
  | 0 => PFuel
  | S m' =>
      match sc0 s with
      | POk _ i =>
          if looks_at (lit ",") i then (let* p := l_infix (lit ",") LListPair a in l_op_loop m' p) i
          else if looks_at (lit "&") i then (let* p := l_infix (lit "&") LInterleavePair a in l_op_loop m' p) i
          else if looks_at (lit "|") i then (let* p := l_infix (lit "|") LChoicePair a in l_op_loop m' p) i
          else if looks_at (lit "?") i then (let* p := l_postfix (lit "?") LOptional a in l_op_loop m' p) i
          else if looks_at (lit "*") i then (let* p := l_postfix (lit "*") LZeroOrMore a in l_op_loop m' p) i
          else if looks_at (lit "+") i then (let* p := l_postfix (lit "+") LOneOrMore a in l_op_loop m' p) i
          else POk a s
      | PErr => PErr | PFail => PFail | PInc => PInc | PPanic x => PPanic x | PFuel => PFuel
      end
  end.
(** compact.rs:314-382 [pattern] *)
Definition l_pattern_body : parser lspat :=
  maybe_initial_annotation n ;*
  let* p := l_prim in
  follow_annotation_list n ;*
  (fun s => l_op_loop (S (List.length s)) p s).

(** compact.rs:737-772 [start], [define]; the position of the name [start] is empty (line 755) *)
Definition l_assignment {A} (name : parser (span * str)) (c : span -> str -> method -> lspat -> A) : parser A :=
  let* nm := name in sc0 ;* let* h := assign_method in sc0 ;* let* p := pcut (lr_pattern R) in pret (c (fst nm) (snd nm) h p).
Definition l_start_name : parser (span * str) :=
  let* a := here in pmap (fun _ => ((a, a), lit "start")) (ptag (lit "start")).
(** compact.rs:801-829 [include] *)
Definition l_overrides : parser (list licontent) :=
  sc0 ;* ptag (lit "{") ;* sc0 ;* let* l := psep0 sc1 (lr_include R) in sc0 ;* pcut (ptag (lit "}")) ;* pret l.
Definition l_include : parser lgcontent :=
  ptag (lit "include") ;* sc1 ;* let* u := spanned p_literal in let* i := l_opt_inherit in
  let* ov := popt l_overrides in pret (LInclude (fst u) (snd u) i ov).
(** compact.rs:724-735 [grammar_content] *)
Definition l_grammar_body : parser lgcontent :=
  l_assignment l_start_name LDefine
  <|> l_assignment (spanned identifier) LDefine
  <|> div_content (lr_grammar R) LDiv
  <|> l_include
  <|> pmap LAnnotation (annotation_element n).
(** compact.rs:849-866 [include_content] *)
Definition l_include_body : parser licontent :=
  maybe_initial_annotation n ;*
  (pmap LIAnnotation (annotation_element n)
   <|> l_assignment (spanned identifier) LIDefine
   <|> l_assignment l_start_name LIDefine
   <|> div_content (lr_include R) LIDiv).
End Bodies.

Fixpoint l_parsers (n : nat) : lrules :=
  match n with
  | 0 => LRules (fun _ => PFuel) (fun _ => PFuel) (fun _ => PFuel)
  | S n' => let R := l_parsers n' in LRules (l_pattern_body n R) (l_grammar_body n R) (l_include_body n R)
  end.

(** compact.rs:33-64 [schema], [top_level] *)
Definition l_top_level (n : nat) : parser lschema :=
  let* ds := psep0 sc1 p_decl in
  sc0 ;*
  let* t := (pmap LTGrammar (psep1 sc1 (lr_grammar (l_parsers n))) <|> pmap LTPattern (lr_pattern (l_parsers n))) in
  pret (LSchema ds t).
Definition l_schema (n : nat) : parser lschema :=
  all_consuming (sc0 ;* let* x := l_top_level n in sc0 ;* pret x).
End Spans.

(** lib.rs:66-86 [Syntax::parse], keeping the positions *)
Inductive lparsed : Type :=
| LParsed (s : lschema)
| LParseError
| LParsePanic (p : panic)
| LParseFuel.
Definition parse_compact_located (text : str) : lparsed :=
  match l_schema (utf8_len text) (S (List.length text)) text with
  | POk x _ => LParsed x
  | PErr | PFail => LParseError
  | PInc => LParsePanic PUnimplemented
  | PPanic p => LParsePanic p
  | PFuel => LParseFuel
  end.

(** ** Specification *)
(** [text[a..b]] is [w], the offsets counting bytes *)
Definition Slice (text : str) (sp : span) (w : str) : Prop :=
  exists pre post, text = pre ++ w ++ post /\ fst sp = N.of_nat (utf8_len pre) /\ snd sp = N.of_nat (utf8_len (pre ++ w)).
(** [sp] contains every position of [l] *)
Definition Covers (sp : span) (l : list span) : Prop := forall a b, In (a, b) l -> (fst sp <= a /\ a <= b /\ b <= snd sp)%N.
Definition is_quote (c : N) : Prop := c = 34%N \/ c = 39%N.
(** text that begins and ends with a quote *)
Definition Quoted (w : str) : Prop := exists c m d, w = c :: m ++ [d] /\ is_quote c /\ is_quote d.

Definition every {A} (P : A -> Prop) : list A -> Prop :=
  fix all l := match l with [] => True | x :: l' => P x /\ all l' end.

Section Placed.
Variable text : str.
(** a name class: the position of a prefixed name, or of [prefix:*], is the prefix; that of another name is the name *)
Fixpoint placed_nc (n : lnc) : Prop :=
  match n with
  | LName (NmId i) sp => Slice text sp (ik_string i)
  | LName (NmC p _) sp => Slice text sp p
  | LName (NmNs _ _) _ => False
  | LNs (NsPrefix p) sp ex => Slice text sp p /\ match ex with Some e => placed_nc e | None => True end
  | LNs (NsUri _) _ _ => False
  | LAny ex => match ex with Some e => placed_nc e | None => True end
  | LAlt a b => placed_nc a /\ placed_nc b
  | LParen a => placed_nc a
  end.
(** the position of a construct reaches from its keyword to its closing brace and contains those of its parts; that of
    a reference is its name; that of an href is the literal; a defined name is at its position, save for [start],
    whose position is empty and just before the keyword *)
Definition placed_block (kw : str) (sp : span) (parts : list span) : Prop :=
  (exists m, Slice text sp (kw ++ m ++ lit "}")) /\ Covers sp parts.
Definition placed_def (sp : span) (name : str) : Prop :=
  Slice text sp name \/ (name = lit "start" /\ fst sp = snd sp /\ Slice text (fst sp, fst sp + 5)%N name).
(** the positions of a datatype name are those of the prefix and of the name; a name by URI cannot be written *)
Definition placed_dt (n : ldtname) : Prop :=
  match n with LdString | LdToken => True | LdC psp p lsp l => Slice text psp p /\ Slice text lsp l | LdNs _ _ _ _ => False end.
(** the position of a parameter has its name and ends with the literal *)
Definition placed_param (x : lparam) : Prop :=
  let '(sp, (_, k, _)) := x in exists a b q, Slice text sp (a ++ ik_string k ++ b ++ q) /\ Quoted q.
Fixpoint placed_pat (p : lspat) : Prop :=
  match p with
  | LElement sp nc q => placed_block (lit "element") sp (nc_spans nc ++ pat_spans q) /\ placed_nc nc /\ placed_pat q
  | LAttribute sp nc q => placed_block (lit "attribute") sp (nc_spans nc ++ pat_spans q) /\ placed_nc nc /\ placed_pat q
  | LList q | LMixed q | LGroup q | LOptional q | LZeroOrMore q | LOneOrMore q => placed_pat q
  | LIdent sp i | LParent sp i => Slice text sp i
  | LEmpty | LText | LNotAllowed => True
  | LExternal sp _ _ => exists w, Slice text sp w /\ Quoted w
  | LGrammar sp l => placed_block (lit "grammar") sp (flat_map content_spans l) /\ every placed_content l
  | LListPair a b | LInterleavePair a b | LChoicePair a b => placed_pat a /\ placed_pat b
  | LValue n _ => match n with Some n => placed_dt n | None => True end
  | LData n ps ex => placed_dt n /\ match ps with Some l => every placed_param l | None => True end /\ match ex with Some e => placed_pat e | None => True end
  end
with placed_content (g : lgcontent) : Prop :=
  match g with
  | LDefine sp name _ p => placed_def sp name /\ placed_pat p
  | LDiv l => every placed_content l
  | LInclude sp _ inh ov =>
      (exists w, Slice text sp w /\ Quoted w) /\
      (match inh with Some (isp, i) => Slice text isp (ik_string i) | None => True end) /\
      (match ov with Some l => every placed_override l | None => True end)
  | LAnnotation _ => True
  end
with placed_override (i : licontent) : Prop :=
  match i with
  | LIDefine sp name _ p => placed_def sp name /\ placed_pat p
  | LIDiv l => every placed_override l
  | LIAnnotation _ => True
  end.
Definition placed (s : lschema) : Prop :=
  match ls_top s with LTPattern p => placed_pat p | LTGrammar l => every placed_content l end.
End Placed.
