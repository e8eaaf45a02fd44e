(** * Located: the schema compiler with the source positions it converts.
    relaxng-model/src/lib.rs: every [convert_span]/[subspan] (327-329, 373, 418, 572, 598, 1262, 1308, 1322, 1545,
    1557, 1580, 1595, 1614, 1671-1675).

    SchemaCompile.v drops positions.  The code does not merely carry them: it converts each of them to a position of
    the file of the *context*, [ctx.file().span.subspan(begin, end)], and codemap's [subspan] asserts
    [begin <= end] and that the end lies in the file.  Here the abstract syntax carries the positions the compiler
    looks at, the assertion is made where the code makes it, and the failure is the panic [PSubspan].

    A [data] or [value] pattern carries the positions of the prefix (or library), of the type name and of the parameters
    (datatype/mod.rs:155-181, relax.rs:88-130, xsd.rs:760-1442).

    Simplifications: the second position of
    [RecursiveReference] (lib.rs:600), that of the definition around the reference, is not converted; conversions of
    the empty position 0..0 (lib.rs:704, 1213, 1219, 1634) succeed in every file and are left out. *)
From Coq Require Import String.
From Verif Require Import Base Datatype Facets FacetAt Store Compile Syntax SchemaCompile.

(** relaxng-syntax/src/types.rs: [Span], a range of byte offsets *)
Definition span := (N * N)%type.

(** ** The abstract syntax with the positions of: prefixes (types.rs:316-324), elements and attributes, references,
    grammars, hrefs, inherited prefixes and defined names *)
Inductive lnc : Type :=
| LName (n : sname) (sp : span)                     (* [sp]: of the prefix, for [NmC] *)
| LNs (n : nspref) (sp : span) (except : option lnc) (* [sp]: of the prefix, for [NsPrefix] *)
| LAny (except : option lnc)
| LAlt (a b : lnc)
| LParen (a : lnc).

(** types.rs:114-122 [DatatypeName], with the positions of the prefix or the library, and of the name of the type *)
Inductive ldtname : Type :=
| LdString | LdToken
| LdC (psp : span) (p : str) (lsp : span) (l : str)
| LdNs (usp : span) (u : literal) (lsp : span) (l : str).
(** types.rs:207-214 [Param] with its position *)
Definition lparam := (span * sparam)%type.

Inductive lspat : Type :=
| LElement (sp : span) (nc : lnc) (p : lspat)
| LAttribute (sp : span) (nc : lnc) (p : lspat)
| LList (p : lspat)
| LMixed (p : lspat)
| LIdent (sp : span) (i : str)
| LParent (sp : span) (i : str)
| LEmpty | LText | LNotAllowed
| LExternal (sp : span) (href : literal) (inherit : option id_or_kw)
| LGrammar (sp : span) (l : list lgcontent)
| LGroup (p : lspat)
| LListPair (a b : lspat)
| LInterleavePair (a b : lspat)
| LChoicePair (a b : lspat)
| LOptional (p : lspat)
| LZeroOrMore (p : lspat)
| LOneOrMore (p : lspat)
| LValue (n : option ldtname) (v : literal)
| LData (n : ldtname) (ps : option (list lparam)) (ex : option lspat)
with lgcontent : Type :=
| LDefine (sp : span) (name : str) (how : method) (p : lspat)
| LDiv (l : list lgcontent)
| LInclude (sp : span) (href : literal) (inherit : option (span * id_or_kw)) (ov : option (list licontent))
| LAnnotation (a : annot)
with licontent : Type :=
| LIDefine (sp : span) (name : str) (how : method) (p : lspat)
| LIDiv (l : list licontent)
| LIAnnotation (a : annot).
Inductive ltop : Type := LTPattern (p : lspat) | LTGrammar (l : list lgcontent).
Record lschema := LSchema { ls_decls : list decl; ls_top : ltop }.

(** ** Forgetting the positions *)
Fixpoint erase_nc (n : lnc) : snc :=
  match n with
  | LName n _ => CName n
  | LNs n _ ex => CNs n (match ex with Some e => Some (erase_nc e) | None => None end)
  | LAny ex => CAny (match ex with Some e => Some (erase_nc e) | None => None end)
  | LAlt a b => CAlt (erase_nc a) (erase_nc b)
  | LParen a => CParen (erase_nc a)
  end.
Definition erase_dt (n : ldtname) : sdtname :=
  match n with LdString => SdString | LdToken => SdToken | LdC _ p _ l => SdC p l | LdNs _ u _ l => SdNs u l end.
Definition erase_params (ps : option (list lparam)) : option (list sparam) := option_map (map snd) ps.
Fixpoint erase_pat (p : lspat) : spat :=
  match p with
  | LElement _ nc q => SElement (erase_nc nc) (erase_pat q)
  | LAttribute _ nc q => SAttribute (erase_nc nc) (erase_pat q)
  | LList q => SList (erase_pat q)
  | LMixed q => SMixed (erase_pat q)
  | LIdent _ i => SIdent i
  | LParent _ i => SParent i
  | LEmpty => SEmpty | LText => SText | LNotAllowed => SNotAllowed
  | LExternal _ h i => SExternal h i
  | LGrammar _ l => SGrammar (map erase_content l)
  | LGroup q => SGroup (erase_pat q)
  | LListPair a b => SListPair (erase_pat a) (erase_pat b)
  | LInterleavePair a b => SInterleavePair (erase_pat a) (erase_pat b)
  | LChoicePair a b => SChoicePair (erase_pat a) (erase_pat b)
  | LOptional q => SOptional (erase_pat q)
  | LZeroOrMore q => SZeroOrMore (erase_pat q)
  | LOneOrMore q => SOneOrMore (erase_pat q)
  | LValue n v => SValue (option_map erase_dt n) v
  | LData n ps ex => SData (erase_dt n) (erase_params ps) (match ex with Some e => Some (erase_pat e) | None => None end)
  end
with erase_content (g : lgcontent) : gcontent :=
  match g with
  | LDefine _ n how p => GDefine n how (erase_pat p)
  | LDiv l => GDiv (map erase_content l)
  | LInclude _ h inh ov => GInclude h (option_map snd inh) (match ov with Some l => Some (map erase_override l) | None => None end)
  | LAnnotation a => GAnnotation a
  end
with erase_override (i : licontent) : icontent :=
  match i with
  | LIDefine _ n how p => IDefine n how (erase_pat p)
  | LIDiv l => IDiv (map erase_override l)
  | LIAnnotation a => IAnnotation a
  end.
Definition erase_top (t : ltop) : top :=
  match t with LTPattern p => TPattern (erase_pat p) | LTGrammar l => TGrammar (map erase_content l) end.
Definition erase (s : lschema) : schema := Schema (ls_decls s) (erase_top (ls_top s)).

(** A file system of located schemas, with the length of each file in bytes *)
Definition lfilesys := path -> lschema + nat.
Definition erase_files (fs : lfilesys) : filesys := fun f => match fs f with inl s => inl (erase s) | inr e => inr e end.

Section LCompiler.
Variable O : oracles.
Variable C : coracles.
Variable fs : lfilesys.
Variable flen : path -> N.

(** codemap [Span::subspan] on the span of a whole file *)
Definition in_file (f : path) (sp : span) : bool := ((fst sp <=? snd sp) && (snd sp <=? flen f))%N.
(** lib.rs:327-329 [convert_span]; [m] is what the position is for *)
Definition conv {A} (c : ctx) (sp : span) (m : CM A) : CM A :=
  match file_of c with
  | Some f => if in_file f sp then m else cpanic PSubspan
  | None => cpanic PUnreachable
  end.
(** the position is converted only when [m] reports an error of the given kind *)
Definition conv_err {A} (c : ctx) (sp : span) (m : CM A) : CM A := fun st =>
  match m st with Ok (inr e) => conv c sp (cerr e) st | r => r end.

(** ** The position of a datatype error.  [None]: the error has none *)
Definition library_span (n : ldtname) : span := match n with LdC sp _ _ _ | LdNs sp _ _ _ => sp | LdString | LdToken => (0, 0)%N end.
Definition type_span (n : ldtname) : span := match n with LdC _ _ sp _ | LdNs _ _ sp _ => sp | LdString | LdToken => (0, 0)%N end.
(** lib.rs:1766-1788, mod.rs:181, relax.rs:88-94, xsd.rs:779; without a name the type is token, which takes every value *)
Definition value_span (n : option ldtname) (e : dt_error) : option span :=
  match n, e with
  | Some n, DUnsupportedLibrary _ => Some (library_span n)
  | Some n, (DNameUnknown _ | DInvalidValue | DUnsupportedDatatype _) => Some (type_span n)
  | _, _ => None
  end.
(** lib.rs:1806-1823 (the position of the prefix is replaced by 0..0), mod.rs:155, relax.rs:109-130, xsd.rs:760, 804-1442 *)
Definition data_span (n : ldtname) (d : dtname) (ps : option (list lparam)) (e : dt_error) : option span :=
  let l := match ps with Some l => l | None => [] end in
  match e with
  | DUnsupportedLibrary _ => Some (match n with LdNs sp _ _ _ => sp | _ => (0, 0)%N end)
  | DNameUnknown _ | DUnsupportedDatatype _ | DInvalidValue => Some (type_span n)
  | DParamNotAllowed _ => option_map fst (hd_error l)
  | DFacet FConflict => None
  | DFacet _ => match failing O C d (param_values (erase_params ps)) with Some k => option_map fst (nth_error l k) | None => None end
  end.
Definition conv_dt {A} (c : ctx) (at_ : dt_error -> option span) (x : fres dt_error A) : CM A :=
  match x with
  | Ok (inr e) => match at_ e with Some sp => conv c sp (cerr (EDatatype e)) | None => cerr (EDatatype e) end
  | _ => lift_dt x
  end.

Definition lget_schema (name : path) : CM lschema := fun st =>
  match fs name with
  | inl s => fok (s, Cst (cells st) (tables st) (ovrs st) (if in_dec path_eq_dec name (loaded st) then loaded st else loaded st ++ [name]))
  | inr e => ferr (EFile e)
  end.

(** lib.rs:1873-1932, with 369-378 *)
Fixpoint lcompile_nameclass (c : ctx) (el : bool) (n : lnc) : CM nameclass :=
  match n with
  | LName (NmId i) _ => cret (NNamed (if el then default_namespace_uri c else []) (ik_string i))
  | LName (NmC p l) sp => do u <- conv_err c sp (namespace_uri_for_prefix c p); cret (NNamed u l)
  | LName (NmNs u l) _ => cret (NNamed (lit_value u) l)
  | LNs nm sp ex =>
      do e <- match ex with Some e => do e' <- lcompile_nameclass c el e; cret (Some e') | None => cret None end;
      do u <- match nm with NsUri u => cret (lit_value u) | NsPrefix p => conv_err c sp (namespace_uri_for_prefix c p) end;
      cret (NNsName u e)
  | LAny ex =>
      do e <- match ex with Some e => do e' <- lcompile_nameclass c el e; cret (Some e') | None => cret None end;
      cret (NAnyName e)
  | LAlt a b => do a' <- lcompile_nameclass c el a; do b' <- lcompile_nameclass c el b; cret (NAlt a' b')
  | LParen a => lcompile_nameclass c el a
  end.

(** lib.rs:588-609: the position of the reference is converted in the file of the definition *)
Fixpoint lcheck_ref_recursion (c : ctx) (sp : span) (id : str) : CM unit :=
  match c with
  | XRoot _ _ _ _ | XInclude _ _ _ _ _ | XOverrides _ | XGrammar _ _ | XElement _ => cret tt
  | XDefine _ d => if str_eqb d id then conv c sp (cerr (ERecursiveReference id)) else cret tt
  | XAttribute p => lcheck_ref_recursion p sp id
  end.
(** lib.rs:545-548 *)
Definition lacquire_ref (c : ctx) (sp : span) (id : str) : CM nat := run lcheck_ref_recursion c sp id; acquire_ref_impl c id.
(** lib.rs:569-582: the position of the reference is converted in the file of the root *)
Fixpoint lacquire_parent_ref (c : ctx) (sp : span) (id : str) : CM nat :=
  match c with
  | XRoot _ _ _ _ => conv c sp (cerr ENoParentAvailable)
  | XInclude p _ _ _ _ | XOverrides p | XDefine p _ | XElement p | XAttribute p => lacquire_parent_ref p sp id
  | XGrammar p _ => lacquire_ref p sp id
  end.

(** lib.rs:1317-1327 *)
Definition linherit_prefix (c inc : ctx) (inh : option (span * id_or_kw)) : CM ctx :=
  match inh with
  | None => cret inc
  | Some (sp, i) =>
      match namespace_uri c (ik_string i) with
      | Some u => declare_namespace inc (ik_string i) u
      | None => conv c sp (cerr (EUndefinedNamespacePrefix (ik_string i)))
      end
  end.

Section LFile.
Variable rp : ctx -> lspat -> CM mpat.
Variable ri : ctx -> list lgcontent -> CM unit.

(** lib.rs:1195-1231 *)
Definition lcompile_schema_with (cp : ctx -> lspat -> CM mpat) (ci : ctx -> list lgcontent -> CM unit) (c : ctx) (s : lschema) : CM ctx :=
  do c' <- compile_declarations c (ls_decls s);
  match ls_top s with
  | LTPattern p =>
      if is_include c' then
        match p with
        | LGrammar _ l => run ci c' l; cret c'
        | _ => cerr EIncludedFileMustBeGrammar
        end
      else
        do r <- cp c' p;
        run define c' (lit "start") (AssignCombine None r);
        cret c'
  | LTGrammar l => run ci c' l; cret c'
  end.

(** lib.rs:1503-1836 *)
Fixpoint lcompile_pattern (c : ctx) (p : lspat) {struct p} : CM mpat :=
  match p with
  | LElement sp nc q =>
      do n <- lcompile_nameclass c true nc;
      do c' <- conv c sp (new_element c);
      do x <- lcompile_pattern c' q;
      cret (MElement n x)
  | LAttribute sp nc q =>
      do n <- lcompile_nameclass c false nc;
      do c' <- conv c sp (cret (XAttribute c));
      do x <- lcompile_pattern c' q;
      cret (MAttribute n x)
  | LList q => do x <- lcompile_pattern c q; cret (MList x)
  | LMixed q => do x <- lcompile_pattern c q; cret (MMixed x)
  | LIdent sp i => do r <- conv c sp (lacquire_ref c sp i); cret (MRef r)
  | LParent sp i => do r <- conv c sp (lacquire_parent_ref c sp i); cret (MRef r)
  | LEmpty => cret MEmpty
  | LText => cret MText
  | LNotAllowed => cret MNotAllowed
  | LExternal sp href inh =>
      match inh with
      | Some _ => cpanic PUnimplemented
      | None =>
          do f <- path_from c href;
          conv c sp
          (do s <- cmap_err EInclude (lget_schema f);
           do inc <- new_include c f;
           match ls_top s with
           | LTPattern q => cmap_err EInclude (rp inc q)
           | LTGrammar l =>
               do g <- new_grammar c;
               run ri g l;
               do u <- undefined_in (table_of g);
               match u with
               | Some n => cerr (EUndefinedReference n)
               | None => take_start (table_of g)
               end
           end)
      end
  | LGrammar sp l =>
      do g <- new_grammar c;
      run citer (lcompile_content g) l;
      conv_err c sp (take_start (table_of g))
  | LGroup q => lcompile_pattern c q
  | LListPair a b =>
      do x <- lcompile_pattern c a;
      do y <- lcompile_pattern c b;
      cret (MGroup (seq_members x ++ seq_members y))
  | LInterleavePair a b =>
      do x <- lcompile_pattern c a;
      do y <- lcompile_pattern c b;
      cret (MInterleave (inter_members x ++ inter_members y))
  | LChoicePair a b =>
      do x <- lcompile_pattern c a;
      do y <- lcompile_pattern c b;
      cret (MChoice (choice_members x ++ choice_members y))
  | LOptional q => do x <- lcompile_pattern c q; cret (MOptional x)
  | LZeroOrMore q => do x <- lcompile_pattern c q; cret (MZeroOrMore x)
  | LOneOrMore q => do x <- lcompile_pattern c q; cret (MOneOrMore x)
  | LValue n v =>
      do d <- match n with Some n => conv_err c (library_span n) (compile_dtname c (erase_dt n)) | None => compile_dtname c SdToken end;
      do x <- conv_dt c (value_span n) (Facets.datatype_value d (lit_value v));
      cret (MValue x)
  | LData n ps ex =>
      do d <- conv_err c (library_span n) (compile_dtname c (erase_dt n));
      do x <- conv_dt c (data_span n d ps) (Facets.datatype_name O C d (param_values (erase_params ps)));
      do e <- match ex with Some e => do e' <- lcompile_pattern c e; cret (Some e') | None => cret None end;
      cret (MData x e)
  end
(** lib.rs:1254-1364, 1680-1702 *)
with lcompile_content (c : ctx) (g : lgcontent) {struct g} : CM unit :=
  match g with
  | LDefine sp n how p =>
      do x <- lcompile_pattern (XDefine c n) p;
      conv c sp (define c n (rule_of how x))
  | LDiv l => citer (lcompile_content c) l
  | LInclude sp href inh ov =>
      do f <- path_from c href;
      conv c sp
      (do s <- cmap_err EInclude (lget_schema f);
       do inc <- new_include c f;
       do inc <- linherit_prefix c inc inh;
       run match ov with
           | Some l => citer (fun i => cmap_err EInclude (lcompile_override (XOverrides inc) i)) l
           | None => cret tt
           end;
       do inc <- cmap_err EInclude (lcompile_schema_with rp ri inc s);
       check_overrides inc)
  | LAnnotation _ => cret tt
  end
with lcompile_override (c : ctx) (i : licontent) {struct i} : CM unit :=
  match i with
  | LIDefine sp n how p =>
      do x <- lcompile_pattern (XDefine c n) p;
      conv c sp (define c n (rule_of how x))
  | LIDiv _ => cpanic PUnimplemented
  | LIAnnotation _ => cret tt
  end.
Definition lcompile_contents (c : ctx) : list lgcontent -> CM unit := citer (lcompile_content c).
End LFile.

Fixpoint lnested (d : nat) : (ctx -> lspat -> CM mpat) * (ctx -> list lgcontent -> CM unit) :=
  match d with
  | 0 => (fun _ _ => cfuel, fun _ _ => cfuel)
  | S d => let (rp, ri) := lnested d in (lcompile_pattern rp ri, lcompile_contents rp ri)
  end.

(** lib.rs:693-719 [Compiler::compile] *)
Definition lcompile_grammar (d : nat) (name : path) : fres rerror (nat * cst) :=
  (do s <- lget_schema name;
   do c <- new_root name;
   let (rp, ri) := lnested d in
   do c <- lcompile_schema_with (lcompile_pattern rp ri) (lcompile_contents rp ri) c s;
   do u <- undefined_in (table_of c);
   match u with
   | Some n => cerr (EUndefinedReference n)
   | None =>
       do r <- get_ref_in (table_of c) (lit "start");
       match r with
       | None => cerr EStartRuleNotDefined
       | Some r => fun st =>
           match nth r (cells st) ([], None) with
           | (_, Some rule) => fbind (check_refs (cells st) (S (List.length (cells st))) [] (rule_pattern rule)) (fun _ => fok (r, st))
           | (_, None) => Panic PUnwrapNone
           end
       end
   end) empty_cst.
End LCompiler.

(** ** Specification: the positions of a file, and the files it names as external patterns *)
Fixpoint nc_spans (n : lnc) : list span :=
  match n with
  | LName _ sp => [sp]
  | LNs _ sp ex => sp :: (match ex with Some e => nc_spans e | None => [] end)
  | LAny ex => match ex with Some e => nc_spans e | None => [] end
  | LAlt a b => nc_spans a ++ nc_spans b
  | LParen a => nc_spans a
  end.
Definition dt_spans (n : ldtname) : list span := match n with LdC sp _ lsp _ | LdNs sp _ lsp _ => [sp; lsp] | LdString | LdToken => [] end.
Definition param_spans (ps : option (list lparam)) : list span := match ps with Some l => map fst l | None => [] end.
Fixpoint pat_spans (p : lspat) : list span :=
  match p with
  | LElement sp nc q | LAttribute sp nc q => sp :: nc_spans nc ++ pat_spans q
  | LList q | LMixed q | LGroup q | LOptional q | LZeroOrMore q | LOneOrMore q => pat_spans q
  | LIdent sp _ | LParent sp _ | LExternal sp _ _ => [sp]
  | LValue n _ => match n with Some n => dt_spans n | None => [] end
  | LEmpty | LText | LNotAllowed => []
  | LGrammar sp l => sp :: flat_map content_spans l
  | LListPair a b | LInterleavePair a b | LChoicePair a b => pat_spans a ++ pat_spans b
  | LData n ps ex => dt_spans n ++ param_spans ps ++ (match ex with Some e => pat_spans e | None => [] end)
  end
with content_spans (g : lgcontent) : list span :=
  match g with
  | LDefine sp _ _ p => sp :: pat_spans p
  | LDiv l => flat_map content_spans l
  | LInclude sp _ inh ov =>
      sp :: (match inh with Some (isp, _) => [isp] | None => [] end) ++ (match ov with Some l => flat_map override_spans l | None => [] end)
  | LAnnotation _ => []
  end
with override_spans (i : licontent) : list span :=
  match i with
  | LIDefine sp _ _ p => sp :: pat_spans p
  | LIDiv l => flat_map override_spans l
  | LIAnnotation _ => []
  end.
Definition top_spans (t : ltop) : list span := match t with LTPattern p => pat_spans p | LTGrammar l => flat_map content_spans l end.
(** every position of every file lies in that file *)
Definition positions_ok (fs : lfilesys) (flen : path -> N) : Prop :=
  forall f s, fs f = inl s -> forall a b, In (a, b) (top_spans (ls_top s)) -> (a <= b <= flen f)%N.

Fixpoint pat_externals (p : lspat) : list literal :=
  match p with
  | LElement _ _ q | LAttribute _ _ q | LList q | LMixed q | LGroup q | LOptional q | LZeroOrMore q | LOneOrMore q => pat_externals q
  | LIdent _ _ | LParent _ _ | LValue _ _ | LEmpty | LText | LNotAllowed => []
  | LExternal _ h _ => [h]
  | LGrammar _ l => flat_map content_externals l
  | LListPair a b | LInterleavePair a b | LChoicePair a b => pat_externals a ++ pat_externals b
  | LData _ _ ex => match ex with Some e => pat_externals e | None => [] end
  end
with content_externals (g : lgcontent) : list literal :=
  match g with
  | LDefine _ _ _ p => pat_externals p
  | LDiv l => flat_map content_externals l
  | LInclude _ _ _ ov => match ov with Some l => flat_map override_externals l | None => [] end
  | LAnnotation _ => []
  end
with override_externals (i : licontent) : list literal :=
  match i with
  | LIDefine _ _ _ p => pat_externals p
  | LIDiv l => flat_map override_externals l
  | LIAnnotation _ => []
  end.
Definition top_externals (t : ltop) : list literal := match t with LTPattern p => pat_externals p | LTGrammar l => flat_map content_externals l end.
(** no [external] names a file whose content is a grammar without the keyword *)
Definition externals_are_patterns (fs : lfilesys) : Prop :=
  forall f s h f' s', fs f = inl s -> In h (top_externals (ls_top s)) -> resolve f (lit_value h) = Some f' -> fs f' = inl s' ->
    exists p, ls_top s' = LTPattern p.
(** the errors about [parent], possibly inside an included file *)
Inductive parent_error : rerror -> Prop :=
| Pe_none : parent_error ENoParentAvailable
| Pe_rec n : parent_error (ERecursiveReference n)
| Pe_inc e : parent_error e -> parent_error (EInclude e).
