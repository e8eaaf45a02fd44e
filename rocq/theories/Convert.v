(** * Convert: writing a schema in the XML syntax (RELAX NG Compact Syntax, section 4 and its appendix on converting to
    the full syntax), as a tool that converts between the two syntaxes does.

    A specification: nothing here models code.  Prefixes are replaced by the names they stand for; every name is
    written as a <name>, <nsName> or <anyName> element, every type with its datatypeLibrary; annotations are left out. *)
From Coq Require Import String.
From Verif Require Import Base DatatypeSpec Syntax XmlSyntax.

(** the prefixes and the default namespace in force in a file *)
Record env := Env { e_ns : list (str * str); e_default : str; e_lib : list (str * str) }.
Definition xsd_lib : str := lit "http://www.w3.org/2001/XMLSchema-datatypes".
Fixpoint prefix_of (p : str) (l : list (str * str)) : option str :=
  match l with [] => None | (q, u) :: l' => if str_eqb p q then Some u else prefix_of p l' end.
Definition uri_of (u : uri_lit) : str := match u with UUri l => lit_value l | UInherit => [] end.
Definition decl_ns (d : decl) : list (str * str) :=
  match d with DNamespace p u => [(p, uri_of u)] | DDefault (Some p) u => [(p, uri_of u)] | _ => [] end.
Definition decl_lib (d : decl) : list (str * str) := match d with DDatatypes p u => [(p, lit_value u)] | _ => [] end.
Fixpoint default_of (ds : list decl) : str := match ds with [] => [] | DDefault _ u :: _ => uri_of u | _ :: ds' => default_of ds' end.
Definition env_of (ds : list decl) : env :=
  Env ((lit "xml", xml_ns) :: flat_map decl_ns ds) (default_of ds) ((lit "xsd", xsd_lib) :: flat_map decl_lib ds).
Definition or_nothing (o : option str) : str := match o with Some s => s | None => [] end.
Definition ns_of (e : env) (p : str) : str := or_nothing (prefix_of p (e_ns e)).
Definition lib_of (e : env) (p : str) : str := or_nothing (prefix_of p (e_lib e)).

Definition elt (n : string) (atts : list (string * str)) (kids : list xnod) : xnod :=
  XElt (Some rng_uri) (lit n) (map (fun '(k, v) => XAtt None (lit k) v) atts) [(None, rng_uri)] kids.
Definition characters (s : str) : list xnod := match s with [] => [] | _ => [XTxt s] end.
Definition an_except (o : option xnod) : list xnod := match o with Some k => [elt "except" [] [k]] | None => [] end.

(** ** names.  [el]: the name of an element, whose namespace is the default one if it has no prefix *)
Definition x_name (e : env) (el : bool) (n : sname) : xnod :=
  let '(u, l) := match n with
                 | NmId i => (if el then e_default e else [], ik_string i)
                 | NmC p l => (ns_of e p, l)
                 | NmNs u l => (lit_value u, l)
                 end in elt "name" [("ns"%string, u)] [XTxt l].
Definition x_space (e : env) (n : nspref) : str := match n with NsPrefix p => ns_of e p | NsUri u => lit_value u end.
Fixpoint x_nc (e : env) (el : bool) (n : snc) : xnod :=
  match n with
  | CName n => x_name e el n
  | CNs n ex => elt "nsName" [("ns"%string, x_space e n)] (an_except (match ex with Some x => Some (x_nc e el x) | None => None end))
  | CAny ex => elt "anyName" [] (an_except (match ex with Some x => Some (x_nc e el x) | None => None end))
  | CAlt a b => elt "choice" [] [x_nc e el a; x_nc e el b]
  | CParen a => x_nc e el a
  end.

(** ** types *)
Definition type_of (e : env) (n : sdtname) : str * str :=
  match n with
  | SdString => ([], lit "string")
  | SdToken => ([], lit "token")
  | SdC p l => (lib_of e p, l)
  | SdNs u l => (lit_value u, l)
  end.
Definition type_atts (e : env) (n : sdtname) : list (string * str) :=
  let '(u, l) := type_of e n in [("type"%string, l); ("datatypeLibrary"%string, u)].
Definition x_param (p : sparam) : xnod := let '(_, k, v) := p in elt "param" [("name"%string, ik_string k)] (characters (lit_value v)).
Definition params_of (ps : option (list sparam)) : list sparam := match ps with Some l => l | None => [] end.

(** ** patterns *)
Definition how_atts (h : method) : list (string * str) :=
  match h with MAssign => [] | MChoiceC => [("combine"%string, lit "choice")] | MInterleaveC => [("combine"%string, lit "interleave")] end.
Definition x_define (n : str) (h : method) (k : xnod) : xnod :=
  if str_eqb n (lit "start") then elt "start" (how_atts h) [k] else elt "define" (("name"%string, n) :: how_atts h) [k].
Fixpoint x_pat (e : env) (p : spat) : xnod :=
  match p with
  | SElement nc q => elt "element" [] [x_nc e true nc; x_pat e q]
  | SAttribute nc q => elt "attribute" [] [x_nc e false nc; x_pat e q]
  | SList q => elt "list" [] [x_pat e q]
  | SMixed q => elt "mixed" [] [x_pat e q]
  | SIdent i => elt "ref" [("name"%string, i)] []
  | SParent i => elt "parentRef" [("name"%string, i)] []
  | SEmpty => elt "empty" [] []
  | SText => elt "text" [] []
  | SNotAllowed => elt "notAllowed" [] []
  | SExternal h _ => elt "externalRef" [("href"%string, lit_value h)] []
  | SGrammar l => elt "grammar" [] (flat_map (x_con e) l)
  | SGroup q => elt "group" [] [x_pat e q]
  | SListPair a b => elt "group" [] [x_pat e a; x_pat e b]
  | SInterleavePair a b => elt "interleave" [] [x_pat e a; x_pat e b]
  | SChoicePair a b => elt "choice" [] [x_pat e a; x_pat e b]
  | SOptional q => elt "optional" [] [x_pat e q]
  | SZeroOrMore q => elt "zeroOrMore" [] [x_pat e q]
  | SOneOrMore q => elt "oneOrMore" [] [x_pat e q]
  | SValue n v => elt "value" (match n with Some n => type_atts e n | None => [] end) (characters (lit_value v))
  | SData n ps ex => elt "data" (type_atts e n) (map x_param (params_of ps) ++ an_except (match ex with Some x => Some (x_pat e x) | None => None end))
  end
with x_con (e : env) (g : gcontent) : list xnod :=
  match g with
  | GDefine n h p => [x_define n h (x_pat e p)]
  | GDiv l => [elt "div" [] (flat_map (x_con e) l)]
  | GInclude h _ ov => [elt "include" [("href"%string, lit_value h)] (match ov with Some l => flat_map (x_inc e) l | None => [] end)]
  | GAnnotation _ => []
  end
with x_inc (e : env) (i : icontent) : list xnod :=
  match i with
  | IDefine n h p => [x_define n h (x_pat e p)]
  | IDiv l => [elt "div" [] (flat_map (x_inc e) l)]
  | IAnnotation _ => []
  end.
(** the document *)
Definition to_xml (s : schema) : xnod :=
  let e := env_of (s_decls s) in
  match s_top s with TPattern p => x_pat e p | TGrammar l => elt "grammar" [] (flat_map (x_con e) l) end.

(** ** The schemas concerned.  [U]: the strings that are URIs; [np], [dp]: the prefixes of names and of types
    that may be used *)
Definition all {A} (f : A -> Prop) (l : list A) : Prop := fold_right (fun x P => f x /\ P) True l.
(** a name; U+1680 is a letter of names to XML and white space to the parser of the XML syntax *)
Definition xml_name (s : str) : Prop := NCName s /\ ~ In 5760%N s.
Section Fit.
Variable U : str -> bool.
Variable Ext : str -> Prop.     (* the files that may be referred to by external *)
Definition fit_name (np : str -> Prop) (n : sname) : Prop :=
  match n with NmId i => xml_name (ik_string i) | NmC p l => np p /\ xml_name l | NmNs _ l => xml_name l end.
(** no anyName within an except *)
Fixpoint fit_nc (np : str -> Prop) (exc : bool) (n : snc) : Prop :=
  match n with
  | CName n => fit_name np n
  | CNs n ex => (match n with NsPrefix p => np p | NsUri _ => True end) /\ match ex with Some x => fit_nc np true x | None => True end
  | CAny ex => exc = false /\ match ex with Some x => fit_nc np true x | None => True end
  | CAlt a b => fit_nc np exc a /\ fit_nc np exc b
  | CParen a => fit_nc np exc a
  end.
Definition fit_type (e : env) (dp : str -> Prop) (n : sdtname) : Prop :=
  (match n with SdC p _ => dp p | _ => True end) /\ xml_name (snd (type_of e n)) /\ (fst (type_of e n) = [] \/ U (fst (type_of e n)) = true).
Definition fit_param (p : sparam) : Prop := let '(_, k, v) := p in xml_name (ik_string k) /\ lit_value v <> [].
(** what the translation cannot express (inherit, empty parameters) or the XML parser gets wrong (the type token of a library) *)
Fixpoint fit_pat (e : env) (np dp : str -> Prop) (p : spat) : Prop :=
  match p with
  | SElement nc q | SAttribute nc q => fit_nc np false nc /\ fit_pat e np dp q
  | SList q | SMixed q | SGroup q | SOptional q | SZeroOrMore q | SOneOrMore q => fit_pat e np dp q
  | SListPair a b | SInterleavePair a b | SChoicePair a b => fit_pat e np dp a /\ fit_pat e np dp b
  | SIdent i | SParent i => xml_name i
  | SEmpty | SText | SNotAllowed => True
  | SExternal h inh => inh = None /\ Ext (lit_value h)
  | SGrammar l => all (fit_con e np dp) l
  | SValue n _ => match n with Some n => fit_type e dp n | None => True end
  | SData n ps ex =>
      fit_type e dp n /\ ~ (snd (type_of e n) = lit "token" /\ fst (type_of e n) <> []) /\ Forall fit_param (params_of ps) /\
      match ex with Some x => fit_pat e np dp x | None => True end
  end
with fit_con (e : env) (np dp : str -> Prop) (g : gcontent) : Prop :=
  match g with
  | GDefine n _ p => xml_name n /\ fit_pat e np dp p
  | GDiv l => all (fit_con e np dp) l
  | GInclude _ inh ov => inh = None /\ match ov with Some l => all (fit_inc e dp) l | None => True end
  | GAnnotation _ => True
  end
(** the compiler forgets the prefixes of names in the definitions that override those of an included file (C44) *)
with fit_inc (e : env) (dp : str -> Prop) (i : icontent) : Prop :=
  match i with
  | IDefine n _ p => xml_name n /\ fit_pat e (fun p => p = lit "xml") dp p
  | IDiv l => all (fit_inc e dp) l
  | IAnnotation _ => True
  end.
Definition in_list (l : list (str * str)) (p : str) : Prop := prefix_of p l <> None.
(** declarations: no inherit, no default namespace (C41), prefixes of types declared once *)
Definition fit_decls (ds : list decl) : Prop :=
  Forall (fun d => match d with DNamespace _ u | DDefault (Some _) u => u <> UInherit | DDefault None u => u <> UInherit | _ => True end) ds /\
  default_of ds = [] /\ NoDup (map fst (e_lib (env_of ds))).
Definition fit_schema (s : schema) : Prop :=
  let e := env_of (s_decls s) in
  fit_decls (s_decls s) /\
  match s_top s with
  | TPattern p => fit_pat e (in_list (e_ns e)) (in_list (e_lib e)) p /\ (forall l, p <> SGrammar l)
  | TGrammar l => all (fit_con e (in_list (e_ns e)) (in_list (e_lib e))) l
  end.
End Fit.

(** ** File systems.  A file referred to by external makes no declarations: the compiler ignores them (C42) *)
From Verif Require Import SchemaCompile.
Definition without_decls (fs : filesys) (h : str) : Prop := forall f f' s, resolve f h = Some f' -> fs f' = inl s -> s_decls s = [].
Definition convertible (U : str -> bool) (fs : filesys) : Prop := forall f s, fs f = inl s -> fit_schema U (without_decls fs) s.
(** every file written in the XML syntax and read back *)
Definition in_xml (U : str -> bool) (fs : filesys) : filesys := fun f =>
  match fs f with inl s => match parse U (to_xml s) with Some t => inl t | None => inr 0 end | inr x => inr x end.
