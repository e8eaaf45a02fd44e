(** * SchemaGood: schemas without errors (C59), on the source syntax only.

    [correct] lists the rules a schema has to keep for the compiler to have no reason to refuse it.  They are
    rules of RELAX NG (section 4 and the compact syntax), except where a comment says that the code
    asks for more; those have a counterexample in RefutedSchema.v.

    [lawful] lists those the code enforces always: what every schema that compiles keeps (C88).  The two differ in
    four places, marked [strict]: about names used in a nested grammar, external grammars in
    overriding definitions, and a file that is a pattern and uses the name start. *)
From Coq Require Import String.
From Verif Require Import Base Datatype Facets Store Compile Syntax SchemaCompile SourceSpec SchemaSpec.

Section Good.
Variable O : oracles.
Variable C : coracles.
Variable fs : filesys.
Variable strict : bool.

(** ** [Names f k n p]: pattern [p], written in file [f], uses the name [n] of the [k]-th grammar around it
    (0: the innermost), anywhere in [p]; external patterns and includes use what is used in the files they name. *)
Inductive Names : path -> nat -> str -> spat -> Prop :=
| Na_ident f i : Names f 0 i (SIdent i)
| Na_parent f i : Names f 1 i (SParent i)
| Na_child f k n p q : child q p -> Names f k n q -> Names f k n p
| Na_grammar f k n g l : In g l -> NamesC f (S k) n g -> Names f k n (SGrammar l)
| Na_external f k n h i f' ds q : resolve f (lit_value h) = Some f' -> fs f' = inl (Schema ds (TPattern q)) -> Names f' k n q -> Names f k n (SExternal h i)
| Na_external_grammar f k n h i f' ds l g : resolve f (lit_value h) = Some f' -> fs f' = inl (Schema ds (TGrammar l)) -> In g l -> NamesC f' (S k) n g -> Names f k n (SExternal h i)
with NamesC : path -> nat -> str -> gcontent -> Prop :=
| Nc_define f k n m how p : Names f k n p -> NamesC f k n (GDefine m how p)
| Nc_div f k n g l : In g l -> NamesC f k n g -> NamesC f k n (GDiv l)
| Nc_override f k n h inh l m how p : In (IDefine m how p) l -> Names f k n p -> NamesC f k n (GInclude h inh (Some l))
| Nc_include f k n h inh ov f' s c g : resolve f (lit_value h) = Some f' -> fs f' = inl s -> file_contents s c ->
    In g c -> NamesC f' k n g -> NamesC f k n (GInclude h inh ov).

(** ** The files named in a file, by include or external; [Trail n f f']: [n] of them lead from [f] to [f'] *)
Inductive role := RInclude | RExternal.
Definition mentions_in (r : role) (h : literal) (p : spat) : Prop := match r with RInclude => in_pattern h p | RExternal => occurs_in (SExternal h None) p end.
Definition mentions (r : role) (h : literal) (g : gcontent) : Prop := match r with RInclude => has_include h g | RExternal => occurs (SExternal h None) g end.
Definition mentioned (r : role) (h : literal) (s : schema) : Prop := match r with RInclude => in_file h s | RExternal => file_occurs (SExternal h None) s end.
Definition Opens (f f' : path) : Prop := exists s r h, fs f = inl s /\ mentioned r h s /\ resolve f (lit_value h) = Some f'.
Inductive Trail : nat -> path -> path -> Prop :=
| Trail_0 f : Trail 0 f f
| Trail_S n f f' f'' : Opens f f' -> Trail n f' f'' -> Trail (S n) f f''.
(** ** [Shows f p]: pattern [p] of file [f] has an element, outside nested grammars; external patterns are looked into *)
Inductive Shows : path -> spat -> Prop :=
| Sh_here f nc x : Shows f (SElement nc x)
| Sh_child f p q : child q p -> Shows f q -> Shows f p
| Sh_external f h i f' ds q : resolve f (lit_value h) = Some f' -> fs f' = inl (Schema ds (TPattern q)) -> Shows f' q -> Shows f (SExternal h i).

(** ** Prefixes.  [ov]: in an overriding definition, or in a file which is an external pattern; there the code knows no prefix
    but xml ([C44_prefix_refuted], [C42_external_refuted]). *)
Definition known (ds : list decl) (ov : bool) (p : str) : Prop := if ov then p = lit "xml" else exists u, binds_ns ds p u.
Fixpoint nc_fine (ds : list decl) (ov : bool) (n : snc) : Prop :=
  match n with
  | CName (NmC p _) => known ds ov p
  | CName _ => True
  | CNs nm ex => (match nm with NsPrefix p => known ds ov p | NsUri _ => True end) /\ match ex with Some x => nc_fine ds ov x | None => True end
  | CAny ex => match ex with Some x => nc_fine ds ov x | None => True end
  | CAlt a b => nc_fine ds ov a /\ nc_fine ds ov b
  | CParen a => nc_fine ds ov a
  end.
(** ** Datatypes: the library knows the name, the parameters and the value. *)
Definition data_fine (e : fenv) (n : sdtname) (ps : option (list sparam)) : Prop :=
  forall d, denotes_dt e n d -> exists x, Facets.datatype_name O C d (values_of ps) = Ok (inl x).
Definition value_fine (e : fenv) (n : option sdtname) (v : literal) : Prop :=
  forall d, denotes_dt e (match n with Some n => n | None => SdToken end) d -> exists x, Facets.datatype_value d (lit_value v) = Ok (inl x).

(** ** Grammars: the included files exist and are grammars, what is overridden is there ([Expand]), definitions of
    one name can be combined, there is a start, and the names used are defined.  The code asks this also of names used only in
    definitions which are replaced ([C32_replaced_body_refuted]), and does not find the start of a nested grammar
    ([C43_nested_start_refuted]).  In a grammar written inside a pattern only definitions that can be reached are
    looked at ([C30_unused_refuted]): [strict]. *)
Inductive place := Outermost | Inner | Outside.
Definition grammar_fine (pl : place) (e : fenv) (l : list gcontent) : Prop :=
  exists ds, Expand fs e l ds /\ (forall n, combinable (map d_how (defs_named n ds))) /\ In (lit "start") (names_of ds) /\
    forall g n, In g l -> NamesC (fe_path e) 0 n g ->
      (strict = true \/ pl <> Inner -> In n (names_of ds)) /\ (strict = true -> pl <> Outermost -> n <> lit "start").

(** ** Patterns.  [attr]: inside an attribute; [self]: the definition this pattern stands in, if no element is
    between.  A nested grammar there may not use [self] from its own definitions, even inside an element
    (the code asks more than RELAX NG here: [C31_parent_refuted]); nor may a definition that is never used use itself
    ([C31_unused_refuted]).  In the overriding definitions of an include, a name
    has one definition ([C44_two_refuted]), there is no div ([C44_div_refuted]), and the file is not read
    again ([C33_override_refuted]). *)
Fixpoint fine (f : path) (ds : list decl) (ov attr : bool) (self : option str) (p : spat) {struct p} : Prop :=
  match p with
  | SElement nc q => attr = false /\ nc_fine ds ov nc /\ fine f ds ov false None q
  | SAttribute nc q => nc_fine ds ov nc /\ fine f ds ov true self q
  | SIdent i => self <> Some i
  | SGrammar l => grammar_fine Inner (FEnv f ds []) l /\ (forall n g, self = Some n -> In g l -> ~ NamesC f 1 n g) /\
      (fix all (l : list gcontent) : Prop := match l with [] => True | g :: l' => content_fine f ds ov g /\ all l' end) l
  | SValue n v => value_fine (FEnv f ds []) n v
  | SData n ps ex => data_fine (FEnv f ds []) n ps /\ match ex with Some e => fine f ds ov attr self e | None => True end
  | SList q | SMixed q | SGroup q | SOptional q | SZeroOrMore q | SOneOrMore q => fine f ds ov attr self q
  | SListPair a b | SInterleavePair a b | SChoicePair a b => fine f ds ov attr self a /\ fine f ds ov attr self b
  | SExternal h i => i = None /\ exists f' s', resolve f (lit_value h) = Some f' /\ fs f' = inl s' /\
      match s_top s' with
      | TPattern q => attr = true -> ~ Shows f' q
      | TGrammar l => (strict = true -> ov = false) /\ grammar_fine Outside (FEnv f' (s_decls s') []) l /\ forall n g, self = Some n -> In g l -> ~ NamesC f' 1 n g
      end
  | SParent _ | SEmpty | SText | SNotAllowed => True
  end
with content_fine (f : path) (ds : list decl) (ov : bool) (g : gcontent) {struct g} : Prop :=
  match g with
  | GDefine n _ p => fine f ds ov false (Some n) p
  | GDiv l => (fix all (l : list gcontent) : Prop := match l with [] => True | g :: l' => content_fine f ds ov g /\ all l' end) l
  | GInclude h _ (Some l) => NoDup (names_of (overrides (FEnv f ds []) l)) /\
      (fix all (l : list icontent) : Prop := match l with [] => True | i :: l' => override_fine f ds h i /\ all l' end) l
  | GInclude _ _ None => True
  | GAnnotation _ => True
  end
with override_fine (f : path) (ds : list decl) (h : literal) (i : icontent) {struct i} : Prop :=
  match i with
  | IDefine n _ p => fine f ds true false (Some n) p /\
      (forall r h' f' f'' k, mentions_in r h' p -> resolve f (lit_value h') = Some f' -> resolve f (lit_value h) = Some f'' -> ~ Trail k f' f'')
  | IDiv _ => False
  | IAnnotation _ => True
  end.
Fixpoint contents_fine (f : path) (ds : list decl) (ov : bool) (l : list gcontent) : Prop :=
  match l with [] => True | g :: l' => content_fine f ds ov g /\ contents_fine f ds ov l' end.
(** ** Declarations: no [inherit]; datatype prefixes are declared once, and xsd is predeclared ([C45_xsd_refuted]). *)
Definition dt_prefixes (ds : list decl) : list str := flat_map (fun d => match d with DDatatypes p _ => [p] | _ => [] end) ds.
Definition decls_fine (ds : list decl) : Prop :=
  (forall p, ~ In (DNamespace p UInherit) ds) /\ (forall p, ~ In (DDefault p UInherit) ds) /\ NoDup (lit "xsd" :: dt_prefixes ds).
Definition file_fine (f : path) (s : schema) : Prop :=
  decls_fine (s_decls s) /\
  match s_top s with
  | TGrammar l | TPattern (SGrammar l) => contents_fine f (s_decls s) false l
  | TPattern p => fine f (s_decls s) false false None p
  end.
(** a file read because an include or an external names it; an external file which is a bare grammar is read with the
    declarations of the file that names it *)
Definition role_fine (r : role) (f : path) (s : schema) : Prop :=
  match r with
  | RInclude => file_fine f s
  | RExternal => match s_top s with TPattern q => fine f (s_decls s) true false None q | TGrammar l => contents_fine f (s_decls s) false l end
  end.
(** ** The schema in file [name].  A file that is a pattern uses no names outside its grammars; the code lets it use
    start, which is the pattern itself ([C88_start_refuted]). *)
Definition top_fine (name : path) : Prop :=
  match fs name with
  | inl (Schema ds (TGrammar l)) => grammar_fine Outermost (FEnv name ds []) l /\ forall g k n, In g l -> ~ NamesC name (S k) n g
  | inl (Schema ds (TPattern p)) => fine name ds false false None p /\ forall k n, Names name k n p -> strict = false /\ k = 0 /\ n = lit "start"
  | inr _ => False
  end.
(** all files read: finitely many, none of them leads back to itself, each is fine *)
Definition rules (name : path) : Prop :=
  (exists L, forall m f, Trail m name f -> In f L) /\
  (forall m f k, Trail m name f -> ~ Trail (S k) f f) /\
  (forall s, fs name = inl s -> file_fine name s) /\
  (forall m f s r h f' s', Trail m name f -> fs f = inl s -> mentioned r h s -> resolve f (lit_value h) = Some f' -> fs f' = inl s' -> role_fine r f' s') /\
  top_fine name.
End Good.
Definition correct (O : oracles) (C : coracles) (fs : filesys) (name : path) : Prop := rules O C fs true name.
Definition lawful (O : oracles) (C : coracles) (fs : filesys) (name : path) : Prop := rules O C fs false name.
(** Schemas for which the two say the same: a grammar written inside a pattern (or around a file) uses only names it defines, and
    not start; no external file is a grammar without braces; a pattern file uses no names outside its grammars. *)
Definition tidy (fs : filesys) (name : path) : Prop :=
  (forall m f s l g n, Trail fs m name f -> fs f = inl s -> file_occurs (SGrammar l) s -> In g l -> NamesC fs f 0 n g ->
    n <> lit "start" /\ forall ds x, Expand fs (FEnv f ds []) l x -> In n (names_of x)) /\
  (forall m f s h f' ds l, Trail fs m name f -> fs f = inl s -> file_occurs (SExternal h None) s -> resolve f (lit_value h) = Some f' -> fs f' <> inl (Schema ds (TGrammar l))) /\
  (forall ds p k n, fs name = inl (Schema ds (TPattern p)) -> ~ Names fs name k n p).
