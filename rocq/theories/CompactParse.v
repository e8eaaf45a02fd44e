(** * CompactParse: the parser of the compact syntax.
    relaxng-syntax/src/compact.rs:33-985 (everything outside the test module), with the nom 8
    combinators it is written in.

    Simplifications: a [Span] is its remaining fragment (the list of Unicode scalar values left to
    read); source positions are dropped; [println!] of ignored annotations is dropped; error values
    are dropped, only their kind (error, failure, incomplete) is kept.

    Recursion: the mutually recursive functions are tied by a recursion budget ([PFuel] when it is
    exhausted).  [schema] below starts with a budget of one more than the length of the text;
    CompactTotal.v proves that budget is never exhausted, on any text. *)
From Coq Require Import String.
From Verif Require Import Base Datatype Syntax.

(** ** nom::IResult.  [PErr] = Err::Error (recoverable), [PFail] = Err::Failure (after [cut]),
    [PInc] = Err::Incomplete, [PPanic] = the parser panics. *)
Inductive pres (A : Type) : Type :=
| POk (a : A) (rest : str)
| PErr | PFail | PInc
| PPanic (p : panic)
| PFuel.
Arguments POk {A} a rest.
Arguments PErr {A}.
Arguments PFail {A}.
Arguments PInc {A}.
Arguments PPanic {A} p.
Arguments PFuel {A}.
Definition parser (A : Type) := str -> pres A.

(** sequencing: nom tuples, [preceded], [delimited] *)
Definition pbind {A B} (p : parser A) (f : A -> parser B) : parser B := fun s =>
  match p s with
  | POk a r => f a r
  | PErr => PErr | PFail => PFail | PInc => PInc | PPanic x => PPanic x | PFuel => PFuel
  end.
Definition pret {A} (a : A) : parser A := fun s => POk a s.
Definition perr {A} : parser A := fun _ => PErr.
Notation "'let*' x ':=' p 'in' q" := (pbind p (fun x => q)) (at level 61, x pattern, p at next level, right associativity).
Notation "p ';*' q" := (pbind p (fun _ => q)) (at level 61, right associativity).
(** nom::combinator::map *)
Definition pmap {A B} (f : A -> B) (p : parser A) : parser B := let* a := p in pret (f a).
(** nom::branch::alt: the next alternative is tried only on Err::Error *)
Definition por {A} (p q : parser A) : parser A := fun s => match p s with PErr => q s | r => r end.
Notation "p '<|>' q" := (por p q) (at level 65, right associativity).
(** nom::combinator::opt *)
Definition popt {A} (p : parser A) : parser (option A) := fun s =>
  match p s with
  | POk a r => POk (Some a) r
  | PErr => POk None s | PFail => PFail | PInc => PInc | PPanic x => PPanic x | PFuel => PFuel
  end.
(** nom::combinator::cut *)
Definition pcut {A} (p : parser A) : parser A := fun s => match p s with PErr => PFail | r => r end.
(** nom::combinator::not (with or without [peek]): consumes nothing *)
Definition pnot {A} (p : parser A) : parser unit := fun s =>
  match p s with
  | POk _ _ => PErr
  | PErr => POk tt s | PFail => PFail | PInc => PInc | PPanic x => PPanic x | PFuel => PFuel
  end.
(** nom::bytes::complete::tag *)
Fixpoint ptag (t : str) : parser unit := fun s =>
  match t, s with
  | [], _ => POk tt s
  | a :: t', c :: s' => if (a =? c)%N then ptag t' s' else PErr
  | _ :: _, [] => PErr
  end.
(** nom::character::complete::satisfy, char *)
Definition psat (f : N -> bool) : parser N := fun s =>
  match s with c :: s' => if f c then POk c s' else PErr | [] => PErr end.
(** nom::combinator::recognize: the text consumed *)
Definition precog {A} (p : parser A) : parser str := fun s =>
  match p s with
  | POk _ r => POk (firstn (List.length s - List.length r) s) r
  | PErr => PErr | PFail => PFail | PInc => PInc | PPanic x => PPanic x | PFuel => PFuel
  end.

(** nom::multi::many0 and fold_many0: until Err::Error; an iteration which consumes nothing is an
    error.  The budget is one more than the number of characters left. *)
Fixpoint many_loop {A} (n : nat) (p : parser A) (s : str) : pres (list A) :=
  match n with
  | 0 => PFuel
  | S n' =>
      match p s with
      | PErr => POk [] s
      | POk a r =>
          if List.length r =? List.length s then PErr
          else match many_loop n' p r with
               | POk l r' => POk (a :: l) r'
               | e => e
               end
      | PFail => PFail | PInc => PInc | PPanic x => PPanic x | PFuel => PFuel
      end
  end.
Definition pmany0 {A} (p : parser A) : parser (list A) := fun s => many_loop (S (List.length s)) p s.
(** nom::multi::fold_many1 *)
Definition pmany1 {A} (p : parser A) : parser (list A) := let* a := p in let* l := pmany0 p in pret (a :: l).

(** the loop of nom::multi::separated_list0 / separated_list1, after the first element *)
Fixpoint sep_loop {A B} (n : nat) (sep : parser B) (p : parser A) (s : str) : pres (list A) :=
  match n with
  | 0 => PFuel
  | S n' =>
      match sep s with
      | PErr => POk [] s
      | POk _ r =>
          match p r with
          | PErr => POk [] s
          | POk a r2 =>
              if List.length r2 =? List.length s then PErr
              else match sep_loop n' sep p r2 with
                   | POk l r' => POk (a :: l) r'
                   | e => e
                   end
          | PFail => PFail | PInc => PInc | PPanic x => PPanic x | PFuel => PFuel
          end
      | PFail => PFail | PInc => PInc | PPanic x => PPanic x | PFuel => PFuel
      end
  end.
Definition psep1 {A B} (sep : parser B) (p : parser A) : parser (list A) :=
  let* a := p in let* l := (fun s => sep_loop (S (List.length s)) sep p s) in pret (a :: l).
Definition psep0 {A B} (sep : parser B) (p : parser A) : parser (list A) := fun s =>
  match p s with
  | PErr => POk [] s
  | POk a r =>
      match sep_loop (S (List.length r)) sep p r with
      | POk l r' => POk (a :: l) r'
      | e => e
      end
  | PFail => PFail | PInc => PInc | PPanic x => PPanic x | PFuel => PFuel
  end.

(** nom::bytes::complete::take_until *)
Fixpoint take_until (t : str) (s : str) : pres str :=
  match ptag t s with
  | POk _ _ => POk [] s
  | _ => match s with
         | [] => PErr
         | c :: s' => match take_until t s' with POk b r => POk (c :: b) r | e => e end
         end
  end.
(** nom::bytes::complete::is_not under [recognize(opt(..))]: the longest run without these
    characters, possibly empty *)
Definition run_without (cs : list N) : parser str := fun s =>
  let '(a, b) := take_while (fun c => negb (existsb (N.eqb c) cs)) s in POk a b.

(** nom::character::complete::multispace1 *)
Definition multispace1 : parser str := fun s =>
  match take_while is_xml_ws s with
  | ([], _) => PErr
  | (a, b) => POk a b
  end.
(** nom::character::streaming::not_line_ending *)
Definition not_line_ending : parser str := fun s =>
  let '(a, b) := take_while (fun c => negb ((c =? 13) || (c =? 10))%N) s in
  match b with
  | [] => PInc
  | c :: b' =>
      if (c =? 13)%N then
        match b' with
        | [] => PInc
        | d :: _ => if (d =? 10)%N then POk a b else PErr
        end
      else POk a b
  end.

(** compact.rs:879-881 [comment] *)
Definition comment : parser unit := ptag (lit "#") ;* not_line_ending ;* pret tt.
Definition space_or_comment : parser unit := (multispace1 ;* pret tt) <|> comment.
(** compact.rs:873-878 [space_comment0], [space_comment1] *)
Definition sc0 : parser unit := pmany0 space_or_comment ;* pret tt.
Definition sc1 : parser unit := pmany1 space_or_comment ;* pret tt.

(** compact.rs:210-222 [nc_name] *)
Definition p_nc_name : parser str := fun s =>
  match nc_name s with Some (a, r) => POk a r | None => PErr end.

(** compact.rs:259-291 [keyword] *)
Definition keywords : list str :=
  map lit ["attribute"; "default"; "datatypes"; "div"; "element"; "empty"; "external"; "grammar";
           "include"; "inherit"; "list"; "mixed"; "namespace"; "notAllowed"; "parent"; "start";
           "string"; "text"; "token"]%string.
Fixpoint alt_tags (l : list str) : parser str :=
  match l with
  | [] => perr
  | t :: l' => (ptag t ;* pret t) <|> alt_tags l'
  end.
Definition keyword : parser str := let* k := alt_tags keywords in pnot (psat nc_char) ;* pret k.

(** compact.rs:197-208 [identifier]: a quoted keyword keeps its backslash *)
Definition identifier : parser str :=
  precog (ptag (lit "\") ;* keyword) <|> precog (pnot keyword ;* p_nc_name).
(** compact.rs:133-141 [identifier_or_keyword] *)
Definition identifier_or_keyword : parser id_or_kw := pmap IKId identifier <|> pmap IKKw keyword.

(** compact.rs:166-188 [literal_segment] *)
Definition quot : str := [34%N].
Definition apos : str := [39%N].
Definition quot3 : str := [34%N; 34%N; 34%N].
Definition apos3 : str := [39%N; 39%N; 39%N].
Definition delim (o : str) (p : parser str) (c : str) : parser str := ptag o ;* let* b := p in ptag c ;* pret b.
Definition literal_segment : parser str :=
  delim quot3 (take_until quot3) quot3
  <|> delim apos3 (take_until apos3) apos3
  <|> delim quot (run_without [34%N; 10%N]) quot
  <|> delim apos (run_without [39%N; 10%N]) apos.
(** compact.rs:153-164 [literal] *)
Definition p_literal : parser literal := psep1 (sc0 ;* ptag (lit "~") ;* sc0) literal_segment.
(** compact.rs:143-151 [namespace_uri_literal] *)
Definition namespace_uri_literal : parser uri_lit :=
  pmap (fun _ => UInherit) (ptag (lit "inherit")) <|> pmap UUri p_literal.

(** compact.rs:76-98 [decl_namespace] *)
Definition decl_namespace : parser decl :=
  ptag (lit "namespace") ;* sc1 ;* let* p := identifier_or_keyword in
  sc0 ;* ptag (lit "=") ;* sc0 ;* let* u := namespace_uri_literal in pret (DNamespace (ik_string p) u).
(** compact.rs:99-118 [decl_default_namespace] *)
Definition decl_default_namespace : parser decl :=
  ptag (lit "default") ;* sc1 ;* ptag (lit "namespace") ;* sc1 ;* let* p := popt identifier_or_keyword in
  sc0 ;* ptag (lit "=") ;* sc0 ;* let* u := namespace_uri_literal in pret (DDefault (option_map ik_string p) u).
(** compact.rs:119-131 [decl_datatypes] *)
Definition decl_datatypes : parser decl :=
  ptag (lit "datatypes") ;* sc1 ;* let* p := identifier_or_keyword in
  sc0 ;* ptag (lit "=") ;* sc0 ;* let* u := p_literal in pret (DDatatypes (ik_string p) u).
(** compact.rs:67-75 [decl] *)
Definition p_decl : parser decl := decl_namespace <|> decl_default_namespace <|> decl_datatypes.

(** compact.rs:702-709 [cname] *)
Definition cname : parser (str * str) :=
  let* p := p_nc_name in ptag (lit ":") ;* let* l := p_nc_name in pret (p, l).
(** compact.rs:588-595 [datatype_name]: no word boundary is required after the keywords *)
Definition p_datatype_name : parser sdtname :=
  pmap (fun _ => SdString) (ptag (lit "string"))
  <|> pmap (fun _ => SdToken) (ptag (lit "token"))
  <|> pmap (fun '(p, l) => SdC p l) cname.
(** compact.rs:635-641 [name] *)
Definition p_name : parser sname :=
  pmap (fun '(p, l) => NmC p l) cname <|> pmap NmId identifier_or_keyword.

(** ** Annotations *)
(** compact.rs:928-941 [annotation_attribute] *)
Definition annotation_attribute : parser annot_attr :=
  let* n := p_name in sc0 ;* ptag (lit "=") ;* sc0 ;* let* v := p_literal in pret (n, v).
(** compact.rs:943-985 [annotation_element], [annotation_element_or_literal] *)
Fixpoint annotation_element (n : nat) : parser annot :=
  match n with
  | 0 => fun _ => PFuel
  | S n' =>
      let* nm := p_name in
      sc0 ;* ptag (lit "[") ;* sc0 ;*
      let* atts := psep0 sc1 annotation_attribute in
      sc0 ;*
      let* kids := psep0 sc1 (pmap inl (annotation_element n') <|> pmap inr p_literal) in
      sc0 ;* ptag (lit "]") ;* pret (Annot nm atts kids)
  end.
(** compact.rs:887-911 [initial_annotation] *)
Definition initial_annotation (n : nat) : parser initial :=
  ptag (lit "[") ;* sc0 ;*
  let* atts := psep0 sc1 annotation_attribute in
  sc0 ;*
  let* els := psep0 sc1 (annotation_element n) in
  sc0 ;* ptag (lit "]") ;* pret (Initial atts els).
(** compact.rs:883-885 [maybe_initial_annotation] *)
Definition maybe_initial_annotation (n : nat) : parser (option initial) :=
  popt (let* a := initial_annotation n in sc0 ;* pret a).
(** compact.rs:917-923 [follow_annotation] *)
Definition follow_annotation (n : nat) : parser annot :=
  (sc0 ;* ptag (lit ">>") ;* sc0) ;* annotation_element n.
(** compact.rs:913-915 [follow_annotation_list] *)
Definition follow_annotation_list (n : nat) : parser (list annot) := psep0 sc0 (follow_annotation n).

(** ** Name classes *)
(** compact.rs:597-631 [name_class], 643-700 [ns_name_nc], [any_name_nc], [alt_nc], [paren_nc].
    A follow annotation without an initial one makes the message unwrap [None] (line 619). *)
Definition except_nc (nc : parser snc) : parser (option snc) :=
  popt (sc0 ;* ptag (lit "-") ;* sc0 ;* nc).
Definition ns_name_nc (nc : parser snc) : parser snc :=
  let* p := p_nc_name in ptag (lit ":*") ;* let* e := except_nc nc in pret (CNs (NsPrefix p) e).
Definition any_name_nc (nc : parser snc) : parser snc :=
  ptag (lit "*") ;* let* e := except_nc nc in pret (CAny e).
Definition paren_nc (nc : parser snc) : parser snc :=
  ptag (lit "(") ;* sc0 ;* let* a := nc in sc0 ;* ptag (lit ")") ;* pret (CParen a).
Definition alt_nc (nc : parser snc) : parser snc :=
  sc0 ;* ptag (lit "|") ;* sc0 ;* nc.
Definition prim_nc (nc : parser snc) : parser snc :=
  ns_name_nc nc <|> pmap CName p_name <|> any_name_nc nc <|> paren_nc nc.
Definition alt_step (nc : parser snc) (a : snc) : parser snc := fun s =>
  match alt_nc nc s with
  | POk b r => POk (CAlt a b) r
  | PPanic x => PPanic x
  | PFuel => PFuel
  | _ => POk a s
  end.
Fixpoint name_class (n : nat) : parser snc :=
  match n with
  | 0 => fun _ => PFuel
  | S n' =>
      let* an := maybe_initial_annotation n in
      let* a := prim_nc (name_class n') in
      let* fl := follow_annotation_list n in
      match fl, an with
      | _ :: _, None => fun _ => PPanic PUnwrapNone
      | _, _ => alt_step (name_class n') a
      end
  end.

(** ** Patterns, grammar contents, include contents *)
(** compact.rs:836-847 [inherit] *)
Definition inherit : parser id_or_kw :=
  ptag (lit "inherit") ;* sc0 ;* ptag (lit "=") ;* sc0 ;* identifier_or_keyword.
Definition opt_inherit : parser (option id_or_kw) := popt (sc1 ;* inherit).
(** compact.rs:774-781 [assign_method] *)
Definition assign_method : parser method :=
  pmap (fun _ => MAssign) (ptag (lit "=")) <|> pmap (fun _ => MChoiceC) (ptag (lit "|="))
  <|> pmap (fun _ => MInterleaveC) (ptag (lit "&=")).
(** compact.rs:552-576 [param] *)
Definition p_param (n : nat) : parser sparam :=
  let* an := maybe_initial_annotation n in
  sc0 ;* let* nm := identifier_or_keyword in
  sc0 ;* ptag (lit "=") ;* sc0 ;* let* v := p_literal in pret (an, nm, v).

(** The three mutually recursive parsers. *)
Record rules := Rules { r_pattern : parser spat; r_grammar : parser gcontent; r_include : parser icontent }.

Section Bodies.
Variable n : nat.        (* budget of the annotation and name class parsers *)
Variable R : rules.      (* the recursive calls *)

(** compact.rs:383-433: element, attribute *)
Definition named_pattern (kw : str) (c : snc -> spat -> spat) : parser spat :=
  ptag kw ;* sc1 ;* let* nc := name_class n in
  sc0 ;* ptag (lit "{") ;* sc0 ;* let* p := pcut (r_pattern R) in sc0 ;* pcut (ptag (lit "}")) ;* pret (c nc p).
(** compact.rs:434-467: list, mixed *)
Definition braced_pattern (kw : str) (c : spat -> spat) : parser spat :=
  ptag kw ;* sc0 ;* ptag (lit "{") ;* sc0 ;* let* p := pcut (r_pattern R) in sc0 ;* pcut (ptag (lit "}")) ;* pret (c p).
(** compact.rs:470-481 [external_pattern] *)
Definition external_pattern : parser spat :=
  ptag (lit "external") ;* sc1 ;* let* u := p_literal in let* i := opt_inherit in pret (SExternal u i).
(** compact.rs:484-504 [grammar_pattern] *)
Definition grammar_pattern : parser spat :=
  ptag (lit "grammar") ;* sc0 ;* ptag (lit "{") ;* sc0 ;* let* l := psep0 sc1 (r_grammar R) in
  sc0 ;* pcut (ptag (lit "}")) ;* pret (SGrammar l).
(** compact.rs:506-512 [group_pattern] *)
Definition group_pattern : parser spat :=
  ptag (lit "(") ;* sc0 ;* let* p := r_pattern R in sc0 ;* ptag (lit ")") ;* pret (SGroup p).
(** compact.rs:515-522 [datatype_value_pattern] *)
Definition datatype_value_pattern : parser spat :=
  let* nm := popt p_datatype_name in sc0 ;* let* v := p_literal in pret (SValue nm v).
(** compact.rs:525-546 [datatype_param_pattern], 578-586 [except_pattern] *)
Definition params : parser (list sparam) :=
  sc0 ;* ptag (lit "{") ;* sc0 ;* let* l := psep0 sc1 (p_param n) in sc0 ;* pcut (ptag (lit "}")) ;* pret l.
Definition except_pattern : parser spat := ptag (lit "-") ;* sc0 ;* r_pattern R.
Definition datatype_param_pattern : parser spat :=
  let* nm := p_datatype_name in let* ps := popt params in let* ex := popt (sc0 ;* except_pattern) in
  pret (SData nm ps ex).

(** compact.rs:319-340: the alternatives, in order *)
Definition prim : parser spat :=
  named_pattern (lit "element") SElement
  <|> named_pattern (lit "attribute") SAttribute
  <|> braced_pattern (lit "list") SList
  <|> braced_pattern (lit "mixed") SMixed
  <|> datatype_value_pattern
  <|> datatype_param_pattern
  <|> pmap SIdent identifier
  <|> (ptag (lit "parent") ;* sc1 ;* let* i := identifier in pret (SParent i))
  <|> pmap (fun _ => SEmpty) (ptag (lit "empty"))
  <|> pmap (fun _ => SText) (ptag (lit "text"))
  <|> pmap (fun _ => SNotAllowed) (ptag (lit "notAllowed"))
  <|> external_pattern
  <|> grammar_pattern
  <|> group_pattern.

(** compact.rs:347-380: the operator loop; an infix operator takes the whole rest of the pattern as
    its right operand *)
Definition infix (op : str) (c : spat -> spat -> spat) (a : spat) : parser spat :=
  ptag op ;* sc0 ;* let* b := r_pattern R in pret (c a b).
Definition postfix (op : str) (c : spat -> spat) (a : spat) : parser spat :=
  ptag op ;* pret (c a).
Definition looks_at (t : str) (i : str) : bool := match ptag t i with POk _ _ => true | _ => false end.
Fixpoint op_loop (m : nat) (a : spat) : parser spat := fun s =>
  match m with
  | 0 => PFuel
  | S m' =>
      match sc0 s with
      | POk _ i =>
          if looks_at (lit ",") i then (let* p := infix (lit ",") SListPair a in op_loop m' p) i
          else if looks_at (lit "&") i then (let* p := infix (lit "&") SInterleavePair a in op_loop m' p) i
          else if looks_at (lit "|") i then (let* p := infix (lit "|") SChoicePair a in op_loop m' p) i
          else if looks_at (lit "?") i then (let* p := postfix (lit "?") SOptional a in op_loop m' p) i
          else if looks_at (lit "*") i then (let* p := postfix (lit "*") SZeroOrMore a in op_loop m' p) i
          else if looks_at (lit "+") i then (let* p := postfix (lit "+") SOneOrMore a in op_loop m' p) i
          else POk a s
      | PErr => PErr | PFail => PFail | PInc => PInc | PPanic x => PPanic x | PFuel => PFuel
      end
  end.
(** compact.rs:314-382 [pattern] *)
Definition pattern_body : parser spat :=
  maybe_initial_annotation n ;*
  let* p := prim in
  follow_annotation_list n ;*
  (fun s => op_loop (S (List.length s)) p s).

(** compact.rs:737-772 [start], [define] *)
Definition assignment {A} (name : parser str) (c : str -> method -> spat -> A) : parser A :=
  let* nm := name in sc0 ;* let* h := assign_method in sc0 ;* let* p := pcut (r_pattern R) in pret (c nm h p).
Definition start_name : parser str := pmap (fun _ => lit "start") (ptag (lit "start")).
(** compact.rs:783-799 [div_grammar_content], 856-871 [div_include_content] *)
Definition div_content {A B} (item : parser A) (c : list A -> B) : parser B :=
  ptag (lit "div") ;* sc0 ;* ptag (lit "{") ;* sc0 ;* let* l := psep0 sc1 item in
  sc0 ;* pcut (ptag (lit "}")) ;* pret (c l).
(** compact.rs:801-829 [include] *)
Definition overrides : parser (list icontent) :=
  sc0 ;* ptag (lit "{") ;* sc0 ;* let* l := psep0 sc1 (r_include R) in sc0 ;* pcut (ptag (lit "}")) ;* pret l.
Definition include_ : parser gcontent :=
  ptag (lit "include") ;* sc1 ;* let* u := p_literal in let* i := opt_inherit in
  let* ov := popt overrides in pret (GInclude u i ov).
(** compact.rs:724-735 [grammar_content] *)
Definition grammar_body : parser gcontent :=
  assignment start_name GDefine
  <|> assignment identifier GDefine
  <|> div_content (r_grammar R) GDiv
  <|> include_
  <|> pmap GAnnotation (annotation_element n).
(** compact.rs:849-866 [include_content] *)
Definition include_body : parser icontent :=
  maybe_initial_annotation n ;*
  (pmap IAnnotation (annotation_element n)
   <|> assignment identifier IDefine
   <|> assignment start_name IDefine
   <|> div_content (r_include R) IDiv).
End Bodies.

Fixpoint parsers (n : nat) : rules :=
  match n with
  | 0 => Rules (fun _ => PFuel) (fun _ => PFuel) (fun _ => PFuel)
  | S n' => let R := parsers n' in Rules (pattern_body n R) (grammar_body n R) (include_body n R)
  end.
Definition pattern n := r_pattern (parsers n).
Definition grammar_content n := r_grammar (parsers n).
Definition include_content n := r_include (parsers n).

(** compact.rs:40-64 [top_level] *)
Definition top_level (n : nat) : parser schema :=
  let* ds := psep0 sc1 p_decl in
  sc0 ;*
  let* t := (pmap TGrammar (psep1 sc1 (grammar_content n)) <|> pmap TPattern (pattern n)) in
  pret (Schema ds t).
(** nom::combinator::all_consuming *)
Definition all_consuming {A} (p : parser A) : parser A := fun s =>
  match p s with
  | POk a [] => POk a []
  | POk _ (_ :: _) => PErr
  | e => e
  end.
(** compact.rs:33-37 [schema] *)
Definition p_schema (n : nat) : parser schema :=
  all_consuming (sc0 ;* let* x := top_level n in sc0 ;* pret x).

(** relaxng-model/src/lib.rs:66-86 [Syntax::parse] for the compact syntax: Error and Failure become
    [RelaxError::Parse]; Incomplete is [unimplemented!]. *)
Inductive parsed : Type :=
| Parsed (s : schema)
| ParseError
| ParsePanic (p : panic)
| ParseFuel.
Definition parse_compact (text : str) : parsed :=
  match p_schema (S (List.length text)) text with
  | POk x _ => Parsed x
  | PErr | PFail => ParseError
  | PInc => ParsePanic PUnimplemented
  | PPanic p => ParsePanic p
  | PFuel => ParseFuel
  end.
