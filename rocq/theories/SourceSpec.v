(** * SourceSpec: what a schema, as written, means.

    RELAX NG (OASIS, 3 December 2001) section 4 defines a schema's meaning by rewriting it to a simple
    form; this file states the same meaning directly on the source syntax, following files, grammars
    and scopes: which definitions a grammar has (4.7 include, 4.11 div, 4.17 combine, 4.18 grammar),
    what names and prefixes denote there (compact syntax, section 3), and which attributes and
    contents a pattern matches (sections 4.12-4.15 and 9.3).  It uses nothing of the schema
    compiler: no cells, contexts or rules. *)
From Coq Require Import Permutation String.
From Verif Require Import Base Datatype Facets Store Lang Compile Syntax SchemaCompile Spec.

(** ** Name scopes.  A file declares prefixes; a file without a default namespace declaration gets
    the one of the including file. *)
Record fenv := FEnv { fe_path : path; fe_decls : list decl; fe_inherited : str }.
Inductive binds_ns (ds : list decl) : str -> str -> Prop :=
| Bn_xml : binds_ns ds (lit "xml") xml_uri
| Bn_ns p l : In (DNamespace p (UUri l)) ds -> binds_ns ds p (lit_value l)
| Bn_default p l : In (DDefault (Some p) (UUri l)) ds -> binds_ns ds p (lit_value l).
Inductive binds_dt (ds : list decl) : str -> str -> Prop :=
| Bd_xsd : binds_dt ds (lit "xsd") xsd_uri
| Bd_decl p l : In (DDatatypes p l) ds -> binds_dt ds p (lit_value l).
Inductive default_ns (e : fenv) : str -> Prop :=
| Dn_declared p l : In (DDefault p (UUri l)) (fe_decls e) -> default_ns e (lit_value l)
| Dn_inherited : (forall p u, ~ In (DDefault p u) (fe_decls e)) -> default_ns e (fe_inherited e).

(** name classes as written; [el]: in an element pattern (an attribute name without prefix has no
    namespace) *)
Fixpoint in_snc (e : fenv) (el : bool) (n : snc) (q : qname) : Prop :=
  match n with
  | CName (NmId i) => (if el then default_ns e (uri q) else uri q = []) /\ q_local q = ik_string i
  | CName (NmC p l) => binds_ns (fe_decls e) p (uri q) /\ q_local q = l
  | CName (NmNs u l) => uri q = lit_value u /\ q_local q = l
  | CNs nm ex =>
      (match nm with NsPrefix p => binds_ns (fe_decls e) p (uri q) | NsUri u => uri q = lit_value u end) /\
      (match ex with Some x => ~ in_snc e el x q | None => True end)
  | CAny ex => match ex with Some x => ~ in_snc e el x q | None => True end
  | CAlt a b => in_snc e el a q \/ in_snc e el b q
  | CParen a => in_snc e el a q
  end.
(** the datatype a name denotes *)
Inductive denotes_dt (e : fenv) : sdtname -> dtname -> Prop :=
| Dd_string : denotes_dt e SdString DnString
| Dd_token : denotes_dt e SdToken DnToken
| Dd_c p l u : binds_dt (fe_decls e) p u -> denotes_dt e (SdC p l) (DnCName u l)
| Dd_ns u l : denotes_dt e (SdNs u l) (DnCName (lit_value u) l).
Definition values_of (ps : option (list sparam)) : list param :=
  match ps with Some l => map (fun x => (ik_string (snd (fst x)), lit_value (snd x))) l | None => [] end.

(** ** The definitions of a grammar.  [start] is the name "start". *)
Record sdef := SDef { d_name : str; d_how : method; d_env : fenv; d_body : spat }.
Definition names_of (ds : list sdef) : list str := map d_name ds.
Definition is_named (n : str) (d : sdef) : bool := str_eqb (d_name d) n.
Definition defs_named (n : str) (ds : list sdef) : list sdef := filter (is_named n) ds.
Definition not_among (ns : list str) (d : sdef) : bool := if in_dec str_eq_dec (d_name d) ns then false else true.
(** the overriding definitions of an include *)
Fixpoint overrides1 (e : fenv) (i : icontent) : list sdef :=
  match i with
  | IDefine n h p => [SDef n h e p]
  | IDiv l => (fix go l := match l with [] => [] | x :: l' => overrides1 e x ++ go l' end) l
  | IAnnotation _ => []
  end.
Fixpoint overrides (e : fenv) (l : list icontent) : list sdef :=
  match l with [] => [] | x :: l' => overrides1 e x ++ overrides e l' end.
(** the contents of a file that can be included *)
Inductive file_contents : schema -> list gcontent -> Prop :=
| Fc_grammar ds l : file_contents (Schema ds (TGrammar l)) l
| Fc_pattern ds l : file_contents (Schema ds (TPattern (SGrammar l))) l.
(** the pattern a file is *)
Definition top_pattern (s : schema) : spat := match s_top s with TPattern p => p | TGrammar l => SGrammar l end.
Section Files.
Variable fs : filesys.
(** the namespace handed to a file that declares no default namespace *)
Definition hands_down (e : fenv) (inh : option id_or_kw) (u : str) : Prop :=
  match inh with Some i => binds_ns (fe_decls e) (ik_string i) u | None => default_ns e u end.
(** [External e href inh e' p]: [external href], in scope [e], is the pattern [p] in scope [e'] (4.6) *)
Inductive External (e : fenv) (href : literal) (inh : option id_or_kw) : fenv -> spat -> Prop :=
| External_file f s inherited : resolve (fe_path e) (lit_value href) = Some f -> fs f = inl s -> hands_down e inh inherited ->
    External e href inh (FEnv f (s_decls s) inherited) (top_pattern s).
(** [Expand e l ds]: the contents [l], in scope [e], are the definitions [ds]. *)
Inductive Expand : fenv -> list gcontent -> list sdef -> Prop :=
| Ex_nil e : Expand e [] []
| Ex_define e n h p l ds : Expand e l ds -> Expand e (GDefine n h p :: l) (SDef n h e p :: ds)
| Ex_div e l1 l ds1 ds : Expand e l1 ds1 -> Expand e l ds -> Expand e (GDiv l1 :: l) (ds1 ++ ds)
| Ex_annotation e a l ds : Expand e l ds -> Expand e (GAnnotation a :: l) ds
| Ex_include e href inh ov l f s c inherited ds inner :
    resolve (fe_path e) (lit_value href) = Some f -> fs f = inl s -> file_contents s c ->
    hands_down e inh inherited ->
    Expand (FEnv f (s_decls s) inherited) c inner ->
    let os := overrides e (match ov with Some l => l | None => [] end) in
    incl (names_of os) (names_of inner) ->                                    (* 4.7 *)
    Expand e l ds ->
    Expand e (GInclude href inh ov :: l) (os ++ filter (not_among (names_of os)) inner ++ ds).
(** the definitions of the grammar a file is; a file that is another pattern is the grammar with
    that pattern as start (4.18) *)
Inductive file_grammar (f : path) : list sdef -> Prop :=
| Fg_grammar ds l es : fs f = inl (Schema ds (TGrammar l)) -> Expand (FEnv f ds []) l es -> file_grammar f es
| Fg_pattern ds p : fs f = inl (Schema ds (TPattern p)) -> file_grammar f [SDef (lit "start") MAssign (FEnv f ds []) p].

(** ** Matching *)
Variable O : oracles.
Variable C : coracles.
Variable w3 : bool.
(** the grammars around a pattern, innermost first *)
Definition grams := list (list sdef).

(** except patterns (7.1.4): data, value and choice *)
Inductive SX : fenv -> grams -> spat -> str -> bool -> Prop :=
| SX_na e G s : SX e G SNotAllowed s false
| SX_group e G p s b : SX e G p s b -> SX e G (SGroup p) s b
| SX_choice e G p q s b1 b2 : SX e G p s b1 -> SX e G q s b2 -> SX e G (SChoicePair p q) s (b1 || b2)
| SX_data e G n ps d x s b : denotes_dt e n d -> Facets.datatype_name O C d (values_of ps) = Ok (inl x) -> dt_valid O x s = Ok b ->
    SX e G (SData n ps None) s b
| SX_except e G n ps p d x s b1 b2 : denotes_dt e n d -> Facets.datatype_name O C d (values_of ps) = Ok (inl x) -> dt_valid O x s = Ok b1 ->
    SX e G p s b2 -> SX e G (SData n ps (Some p)) s (b1 && negb b2)
| SX_value e G n v d x s b : denotes_dt e (match n with Some n => n | None => SdToken end) d ->
    Facets.datatype_value d (lit_value v) = Ok (inl x) -> dt_value_valid x s = Ok b -> SX e G (SValue n v) s b
| SX_ident e G i s b : SXN G i s b -> SX e G (SIdent i) s b
| SX_parent e g G i s b : SXN G i s b -> SX e (g :: G) (SParent i) s b
| SX_grammar e G l ds s b : Expand e l ds -> SXN (ds :: G) (lit "start") s b -> SX e G (SGrammar l) s b
| SX_external e e' G h i p s b : External e h i e' p -> SX e' G p s b -> SX e G (SExternal h i) s b
with SXN : grams -> str -> str -> bool -> Prop :=
| SXN_intro g G n s b : (forall d, In d (defs_named n g) -> d_how d <> MInterleaveC) ->
    SXD (g :: G) (defs_named n g) s b -> SXN (g :: G) n s b
with SXD : grams -> list sdef -> str -> bool -> Prop :=
| SXD_one G d s b : SX (d_env d) G (d_body d) s b -> SXD G [d] s b
| SXD_more G d d' ds s b1 b2 : SX (d_env d) G (d_body d) s b1 -> SXD G (d' :: ds) s b2 -> SXD G (d :: d' :: ds) s (b1 || b2).

Inductive SM : fenv -> grams -> list attr -> list item -> spat -> Prop :=
| SM_group e G a m p : SM e G a m p -> SM e G a m (SGroup p)
| SM_choice_l e G a m p q : SM e G a m p -> SM e G a m (SChoicePair p q)
| SM_choice_r e G a m p q : SM e G a m q -> SM e G a m (SChoicePair p q)
| SM_list e G a a1 a2 m1 m2 p q : Permutation a (a1 ++ a2) -> SM e G a1 m1 p -> SM e G a2 m2 q -> SM e G a (m1 ++ m2) (SListPair p q)
| SM_inter e G a a1 a2 m m1 m2 p q : Permutation a (a1 ++ a2) -> Lang.merge m1 m2 m -> SM e G a1 m1 p -> SM e G a2 m2 q ->
    SM e G a m (SInterleavePair p q)
| SM_mixed e G a m m1 m2 p : Lang.merge m1 m2 m -> SM e G a m1 p -> Forall (fun i => exists s, i = Txt s) m2 -> SM e G a m (SMixed p)
| SM_none e G p : SM e G [] [] (SOptional p)
| SM_some e G a m p : SM e G a m p -> SM e G a m (SOptional p)
| SM_zero e G p : SM e G [] [] (SZeroOrMore p)
| SM_plus e G a m p : SM e G a m (SOneOrMore p) -> SM e G a m (SZeroOrMore p)
| SM_one e G a m p : SM e G a m p -> SM e G a m (SOneOrMore p)
| SM_more e G a a1 a2 m1 m2 p : Permutation a (a1 ++ a2) -> SM e G a1 m1 p -> SM e G a2 m2 (SOneOrMore p) -> SM e G a (m1 ++ m2) (SOneOrMore p)
| SM_empty e G : SM e G [] [] SEmpty
| SM_text e G m : Forall (fun i => exists s, i = Txt s) m -> SM e G [] m SText
| SM_attribute e G nc p x : in_snc e false nc (a_name x) -> SW e G [] [Txt (a_value x)] p -> SM e G [x] [] (SAttribute nc p)
| SM_element e G nc p nm a k ws1 ws2 : in_snc e true nc nm -> children_ok k -> SW e G a k p -> ws ws1 -> ws ws2 ->
    SM e G [] (ws1 ++ Elm nm a k :: ws2) (SElement nc p)
| SM_data e G n ps d x s : denotes_dt e n d -> Facets.datatype_name O C d (values_of ps) = Ok (inl x) -> dt_valid O x s = Ok true ->
    SM e G [] [Txt s] (SData n ps None)
| SM_except e G n ps p d x s : denotes_dt e n d -> Facets.datatype_name O C d (values_of ps) = Ok (inl x) -> dt_valid O x s = Ok true ->
    SX e G p s false -> SM e G [] [Txt s] (SData n ps (Some p))
| SM_value e G n v d x s : denotes_dt e (match n with Some n => n | None => SdToken end) d ->
    Facets.datatype_value d (lit_value v) = Ok (inl x) -> dt_value_valid x s = Ok true -> SM e G [] [Txt s] (SValue n v)
| SM_tokens e G p s : SM e G [] (map Txt (xml_split s)) p -> SM e G [] [Txt s] (SList p)
| SM_ident e G a m i : SN G a m i -> SM e G a m (SIdent i)
| SM_parent e g G a m i : SN G a m i -> SM e (g :: G) a m (SParent i)
| SM_grammar e G a m l ds : Expand e l ds -> SN (ds :: G) a m (lit "start") -> SM e G a m (SGrammar l)
| SM_external e e' G a m h i p : External e h i e' p -> SM e' G a m p -> SM e G a m (SExternal h i)
(** weak matching, as in Spec.v *)
with SW : fenv -> grams -> list attr -> list item -> spat -> Prop :=
| SW_1 e G a m p : SM e G a m p -> SW e G a m p
| SW_2 e G a s p : blank s -> SM e G a [] p -> SW e G a [Txt s] p
| SW_3 e G a p : w3 = true -> SM e G a [Txt []] p -> SW e G a [] p
(** [SN G a m n]: the name [n], in the innermost grammar of [G]: its definitions are alternatives,
    or, if one is written &=, interleaved (4.17) *)
with SN : grams -> list attr -> list item -> str -> Prop :=
| SN_choice g G a m n d : (forall d', In d' (defs_named n g) -> d_how d' <> MInterleaveC) ->
    In d (defs_named n g) -> SM (d_env d) (g :: G) a m (d_body d) -> SN (g :: G) a m n
| SN_interleave g G a m n : (forall d', In d' (defs_named n g) -> d_how d' <> MChoiceC) ->
    SI (g :: G) a m (defs_named n g) -> SN (g :: G) a m n
with SI : grams -> list attr -> list item -> list sdef -> Prop :=
| SI_one G a m d : SM (d_env d) G a m (d_body d) -> SI G a m [d]
| SI_more G a a1 a2 m m1 m2 d d' ds : Permutation a (a1 ++ a2) -> Lang.merge m1 m2 m -> SM (d_env d) G a1 m1 (d_body d) ->
    SI G a2 m2 (d' :: ds) -> SI G a m (d :: d' :: ds).
End Files.

(** [root] is valid by the schema in file [f]. *)
Definition schema_valid (fs : filesys) (O : oracles) (C : coracles) (f : path) (root : item) : Prop :=
  exists ds, file_grammar fs f ds /\ SN fs O C true [ds] [] [root] (lit "start").
(** files beside which the same relative names denote the same files *)
Definition same_dir (f f' : path) : Prop := forall h, resolve f h = resolve f' h.
