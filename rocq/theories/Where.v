(** * Where: the schema compiler with the positions its errors carry.
    relaxng-model/src/lib.rs: the values of [RelaxError] (93-167), and how they are made: 240-262, 291-304, 327-329,
    369-378, 415-421, 446-502, 545-646, 693-761, 1195-1932; [diagnostic] (773-1166).

    Located.v makes the conversions of positions and the panics of a conversion that fails, but its errors have no
    positions.  Here the contexts ([Define], [Attribute]), the rules ([DefineRule]), the overrides, the references
    in compiled patterns and the errors carry the positions the code puts there.  WhereSim.v shows that without them
    this is the compiler of Located.v.

    A position is a file and a range of byte offsets in it (codemap numbers the bytes of all files in one sequence, so a
    [codemap::Span] is the same information).
    Simplifications: [def_span] of [RecursiveReference] is made without the
    assertion of [subspan] (it is a position of the file it is taken in); the position of a syntax error inside the file
    is an argument of [labels]. *)
From Coq Require Import String.
From Verif Require Import Base Datatype Facets Store Compile Syntax SchemaCompile Located.

Definition pos := (path * span)%type.

(** model.rs:39-65 [Pattern], with the position and the name of each reference *)
Inductive wpat : Type :=
| QChoice (l : list wpat)
| QInterleave (l : list wpat)
| QGroup (l : list wpat)
| QMixed (p : wpat)
| QEmpty
| QText
| QNotAllowed
| QOptional (p : wpat)
| QZeroOrMore (p : wpat)
| QOneOrMore (p : wpat)
| QAttribute (nc : nameclass) (p : wpat)
| QElement (nc : nameclass) (p : wpat)
| QRef (at_ : pos) (name : str) (r : nat)
| QValue (v : dt_value)
| QData (d : dt) (ex : option wpat)
| QList (p : wpat).

(** model.rs:9-28 [DefineRule] *)
Inductive wrule : Type :=
| QAssign (at_ : pos) (c : option crule) (p : wpat)
| QCombine (at_ : pos) (c : crule) (p : wpat).
Definition wrule_pattern (r : wrule) : wpat := match r with QAssign _ _ p | QCombine _ _ p => p end.
Definition wrule_at (r : wrule) : pos := match r with QAssign a _ _ | QCombine a _ _ => a end.

(** lib.rs:93-167 [RelaxError] *)
Inductive werror : Type :=
| WFile (code : nat)
| WInclude (at_ : pos) (e : werror)
| WDuplicateDefinition (name : str) (duplicate original : pos)
| WMixesChoiceAndInterleave (this_ that : pos)
| WUndefinedNamespacePrefix (p : str) (at_ : pos)
| WUndefinedReference (name : str) (at_ : pos)
| WUndefinedDatatypePrefix (p : str) (at_ : pos)
| WDatatypePrefixAlreadyDefined (p : str)
| WStartRuleNotDefined (at_ : pos)
| WNoParentAvailable (at_ : pos)
| WDatatype (e : dt_error) (at_ : option pos)       (* [None]: an error without position *)
| WRecursiveReference (name : str) (ref_ def_ : pos)
| WElementAsChildOfAttribute (attribute element : pos)
| WRecursiveInclude (name : path) (at_ : pos)
| WIncludedFileMustBeGrammar (at_ : pos)
| WOverrideMissingFromInclude (name : str) (override include_ : pos).

(** lib.rs:169-214 [Context] *)
Inductive wctx : Type :=
| YRoot (file : path) (tbl : nat) (ns dts : list (str * str))
| YInclude (parent : wctx) (file : path) (ov : nat) (ns dts : list (str * str))
| YOverrides (parent : wctx)
| YGrammar (parent : wctx) (tbl : nat)
| YDefine (parent : wctx) (id : str) (sp : span)
| YElement (parent : wctx)
| YAttribute (parent : wctx) (at_ : pos).

(** ** Forgetting the positions *)
Fixpoint epat (p : wpat) : mpat :=
  match p with
  | QChoice l => MChoice (map epat l)
  | QInterleave l => MInterleave (map epat l)
  | QGroup l => MGroup (map epat l)
  | QMixed p => MMixed (epat p)
  | QEmpty => MEmpty
  | QText => MText
  | QNotAllowed => MNotAllowed
  | QOptional p => MOptional (epat p)
  | QZeroOrMore p => MZeroOrMore (epat p)
  | QOneOrMore p => MOneOrMore (epat p)
  | QAttribute nc p => MAttribute nc (epat p)
  | QElement nc p => MElement nc (epat p)
  | QRef _ _ r => MRef r
  | QValue v => MValue v
  | QData d ex => MData d (match ex with Some e => Some (epat e) | None => None end)
  | QList p => MList (epat p)
  end.
Definition erule (r : wrule) : drule :=
  match r with QAssign _ c p => AssignCombine c (epat p) | QCombine _ c p => CombineOnly c (epat p) end.
Fixpoint eerr (e : werror) : rerror :=
  match e with
  | WFile n => EFile n
  | WInclude _ e => EInclude (eerr e)
  | WDuplicateDefinition n _ _ => EDuplicateDefinition n
  | WMixesChoiceAndInterleave _ _ => EMixesChoiceAndInterleave
  | WUndefinedNamespacePrefix p _ => EUndefinedNamespacePrefix p
  | WUndefinedReference n _ => EUndefinedReference n
  | WUndefinedDatatypePrefix p _ => EUndefinedDatatypePrefix p
  | WDatatypePrefixAlreadyDefined p => EDatatypePrefixAlreadyDefined p
  | WStartRuleNotDefined _ => EStartRuleNotDefined
  | WNoParentAvailable _ => ENoParentAvailable
  | WDatatype e _ => EDatatype e
  | WRecursiveReference n _ _ => ERecursiveReference n
  | WElementAsChildOfAttribute _ _ => EElementAsChildOfAttribute
  | WRecursiveInclude n _ => ERecursiveInclude n
  | WIncludedFileMustBeGrammar _ => EIncludedFileMustBeGrammar
  | WOverrideMissingFromInclude n _ _ => EOverrideMissingFromInclude n
  end.
Fixpoint ectx (c : wctx) : ctx :=
  match c with
  | YRoot f t ns d => XRoot f t ns d
  | YInclude p f o ns d => XInclude (ectx p) f o ns d
  | YOverrides p => XOverrides (ectx p)
  | YGrammar p t => XGrammar (ectx p) t
  | YDefine p n _ => XDefine (ectx p) n
  | YElement p => XElement (ectx p)
  | YAttribute p _ => XAttribute (ectx p)
  end.

(** ** State and monad, as in SchemaCompile.v *)
Record wst := Wst {
  wcells : list (str * option wrule);
  wtables : list (list (str * nat));
  wovrs : list (list (str * (pos * bool)));
  wloaded : list path }.
Definition empty_wst : wst := Wst [] [] [] [].
Definition ecell (x : str * option wrule) : str * option drule := (fst x, match snd x with Some r => Some (erule r) | None => None end).
Definition eovr (x : str * (pos * bool)) : str * bool := (fst x, snd (snd x)).
Definition est (s : wst) : cst := Cst (map ecell (wcells s)) (wtables s) (map (map eovr) (wovrs s)) (wloaded s).

(** a result without its positions; [er] does the same for the value *)
Definition forget {A B} (er : A -> B) (r : fres werror (A * wst)) : fres rerror (B * cst) :=
  match r with
  | Ok (inl (a, st)) => fok (er a, est st)
  | Ok (inr e) => ferr (eerr e)
  | Panic p => Panic p
  | OutOfFuel => OutOfFuel
  end.
Definition same {A} (a : A) : A := a.

Definition WM (A : Type) := wst -> fres werror (A * wst).
Definition wret {A} (a : A) : WM A := fun st => fok (a, st).
Definition werr {A} (e : werror) : WM A := fun _ => ferr e.
Definition wpanic {A} (p : panic) : WM A := fun _ => Panic p.
Definition wfuel {A} : WM A := fun _ => OutOfFuel.
Definition wbind {A B} (m : WM A) (f : A -> WM B) : WM B :=
  fun st => fbind (m st) (fun '(a, st') => f a st').
Definition wmap_err {A} (g : werror -> werror) (m : WM A) : WM A := fun st => fmap_err g (m st).
Declare Scope wm_scope.
Delimit Scope wm_scope with wm.
Notation "'do' x <- m ; f" := (wbind m (fun x => f)) (at level 200, x pattern, m at level 100, f at level 200) : wm_scope.
Notation "'run' m ; f" := (wbind m (fun _ => f)) (at level 200, m at level 100, f at level 200) : wm_scope.
Open Scope wm_scope.
Definition witer {A} (f : A -> WM unit) : list A -> WM unit :=
  fix go l := match l with [] => wret tt | x :: l' => run f x; go l' end.

Definition wnew_table : WM nat := fun st =>
  fok (List.length (wtables st), Wst (wcells st) (wtables st ++ [[]]) (wovrs st) (wloaded st)).
Definition wnew_ovr : WM nat := fun st =>
  fok (List.length (wovrs st), Wst (wcells st) (wtables st) (wovrs st ++ [[]]) (wloaded st)).
(** lib.rs:216-235 *)
Definition wnew_root (file : path) : WM wctx := do t <- wnew_table; wret (YRoot file t initial_ns initial_dts).
(** lib.rs:624-646: the position is that of the name of the file in the innermost include or external *)
Fixpoint wcheck_include (c : wctx) (at_ : pos) (this : path) : WM unit :=
  match c with
  | YRoot _ _ _ _ => wret tt
  | YGrammar p _ | YOverrides p | YDefine p _ _ | YElement p | YAttribute p _ => wcheck_include p at_ this
  | YInclude p f _ _ _ => if path_eqb this f then werr (WRecursiveInclude this at_) else wcheck_include p at_ this
  end.
(** lib.rs:238-262 *)
Definition wnew_include (c : wctx) (at_ : pos) (file : path) : WM wctx :=
  run wcheck_include c at_ file;
  do o <- wnew_ovr;
  wret (YInclude c file o initial_ns initial_dts).
(** lib.rs:275-280 *)
Definition wnew_grammar (c : wctx) : WM wctx := do t <- wnew_table; wret (YGrammar c t).
(** lib.rs:613-622 *)
Fixpoint wparent_attribute (c : wctx) : option pos :=
  match c with
  | YRoot _ _ _ _ | YGrammar _ _ => None
  | YAttribute _ a => Some a
  | YInclude p _ _ _ _ | YOverrides p | YDefine p _ _ | YElement p => wparent_attribute p
  end.
(** lib.rs:291-299 *)
Definition wnew_element (c : wctx) (at_ : pos) : WM wctx :=
  match wparent_attribute c with
  | Some a => werr (WElementAsChildOfAttribute a at_)
  | None => wret (YElement c)
  end.
(** lib.rs:306-323 [file]; every context has one *)
Definition wfile (c : wctx) : path := match file_of (ectx c) with Some f => f | None => Path false [] end.

(** lib.rs:348-367 *)
Definition wdeclare_namespace (c : wctx) (prefix uri : str) : WM wctx :=
  match c with
  | YRoot f t ns d => wret (match assoc prefix ns with Some _ => c | None => YRoot f t (ns ++ [(prefix, uri)]) d end)
  | YInclude p f o ns d => wret (match assoc prefix ns with Some _ => c | None => YInclude p f o (ns ++ [(prefix, uri)]) d end)
  | _ => wpanic PUnreachable
  end.
(** lib.rs:392-413 *)
Definition wdeclare_datatype (c : wctx) (prefix uri : str) : WM wctx :=
  match c with
  | YRoot f t ns d =>
      match assoc prefix d with Some _ => werr (WDatatypePrefixAlreadyDefined prefix) | None => wret (YRoot f t ns (d ++ [(prefix, uri)])) end
  | YInclude p f o ns d =>
      match assoc prefix d with Some _ => werr (WDatatypePrefixAlreadyDefined prefix) | None => wret (YInclude p f o ns (d ++ [(prefix, uri)])) end
  | _ => wpanic PUnreachable
  end.

(** lib.rs:1232-1253 *)
Definition wappend_choice (a c : wpat) : fres werror wpat :=
  match a with
  | QChoice l => fok (QChoice (match c with QChoice l' => l ++ l' | _ => l ++ [c] end))
  | _ => Panic PUnreachable
  end.
Definition wappend_interleave (a c : wpat) : fres werror wpat :=
  match a with
  | QInterleave l => fok (QInterleave (match c with QInterleave l' => l ++ l' | _ => l ++ [c] end))
  | _ => Panic PUnreachable
  end.
(** lib.rs:1382-1501 [merge1]: [a] is the rule in the cell, [b] the new one; the result keeps the position of [a] *)
Definition wmerge1 (name : str) (a b : wrule) : fres werror wrule :=
  match a, b with
  | QAssign this_ _ _, QAssign that _ _ => ferr (WDuplicateDefinition name this_ that)
  | QCombine this_ CrChoice pa, QCombine _ CrChoice pb =>
      fbind (wappend_choice pa pb) (fun p => fok (QCombine this_ CrChoice p))
  | QAssign this_ (Some CrChoice) pa, QCombine _ CrChoice pb
  | QCombine this_ CrChoice pa, QAssign _ (Some CrChoice) pb
  | QAssign this_ None pa, QCombine _ CrChoice pb
  | QCombine this_ CrChoice pa, QAssign _ None pb =>
      match pa with
      | QChoice _ => fbind (wappend_choice pa pb) (fun p => fok (QAssign this_ (Some CrChoice) p))
      | _ => fok (QAssign this_ (Some CrChoice) (QChoice [pa; pb]))
      end
  | QCombine this_ CrInterleave pa, QCombine _ CrInterleave pb =>
      fbind (wappend_interleave pa pb) (fun p => fok (QCombine this_ CrInterleave p))
  | QAssign this_ (Some CrInterleave) pa, QCombine _ CrInterleave pb
  | QCombine this_ CrInterleave pa, QAssign _ (Some CrInterleave) pb
  | QAssign this_ None pa, QCombine _ CrInterleave pb
  | QCombine this_ CrInterleave pa, QAssign _ None pb =>
      match pa with
      | QInterleave _ => fbind (wappend_interleave pa pb) (fun p => fok (QAssign this_ (Some CrInterleave) p))
      | _ => fok (QAssign this_ (Some CrInterleave) (QInterleave [pa; pb]))
      end
  | QCombine this_ CrChoice _, QCombine that CrInterleave _
  | QCombine this_ CrInterleave _, QCombine that CrChoice _
  | QAssign this_ (Some CrChoice) _, QCombine that CrInterleave _
  | QAssign this_ (Some CrInterleave) _, QCombine that CrChoice _
  | QCombine this_ CrChoice _, QAssign that (Some CrInterleave) _
  | QCombine this_ CrInterleave _, QAssign that (Some CrChoice) _ => ferr (WMixesChoiceAndInterleave this_ that)
  end.
(** lib.rs:1367-1381 *)
Definition wmerge (name : str) (a : option wrule) (b : wrule) : fres werror wrule :=
  match a with None => fok b | Some a => wmerge1 name a b end.

(** lib.rs:446-502 [define] *)
Definition wdefine_in (tbl : nat) (id : str) (rule : wrule) : WM unit := fun st =>
  let t := nth tbl (wtables st) [] in
  match assoc id t with
  | Some r =>
      fbind (wmerge id (snd (nth r (wcells st) (id, None))) rule) (fun rule' =>
        fok (tt, Wst (upd r (id, Some rule') (wcells st)) (wtables st) (wovrs st) (wloaded st)))
  | None =>
      fok (tt, Wst (wcells st ++ [(id, Some rule)]) (upd tbl (t ++ [(id, List.length (wcells st))]) (wtables st)) (wovrs st) (wloaded st))
  end.
Definition wget_ovr (o : nat) (id : str) : WM (option (pos * bool)) := fun st => fok (assoc id (nth o (wovrs st) []), st).
Definition mark (id : str) : list (str * (pos * bool)) -> list (str * (pos * bool)) :=
  map (fun kv => if str_eqb (fst kv) id then (fst kv, (fst (snd kv), true)) else kv).
Definition wmark_ovr (o : nat) (id : str) : WM unit := fun st =>
  fok (tt, Wst (wcells st) (wtables st) (upd o (mark id (nth o (wovrs st) [])) (wovrs st)) (wloaded st)).
Definition winsert_ovr (o : nat) (id : str) (at_ : pos) : WM unit := fun st =>
  fok (tt, Wst (wcells st) (wtables st) (upd o (nth o (wovrs st) [] ++ [(id, (at_, false))]) (wovrs st)) (wloaded st)).
Fixpoint wdefine (c : wctx) (id : str) (rule : wrule) : WM unit :=
  match c with
  | YRoot _ t _ _ | YGrammar _ t => wdefine_in t id rule
  | YInclude p _ o _ _ =>
      do b <- wget_ovr o id;
      match b with Some _ => wmark_ovr o id | None => wdefine p id rule end
  | YOverrides (YInclude q _ o _ _) =>
      do b <- wget_ovr o id;
      match b with Some _ => wpanic PUnreachable | None => run winsert_ovr o id (wrule_at rule); wdefine q id rule end
  | YOverrides _ | YDefine _ _ _ | YElement _ | YAttribute _ _ => wpanic PUnreachable
  end.

(** lib.rs:549-567 *)
Definition wacquire_in (tbl : nat) (id : str) : WM nat := fun st =>
  let t := nth tbl (wtables st) [] in
  match assoc id t with
  | Some r => fok (r, st)
  | None =>
      let r := List.length (wcells st) in
      fok (r, Wst (wcells st ++ [(id, None)]) (upd tbl (t ++ [(id, r)]) (wtables st)) (wovrs st) (wloaded st))
  end.
Fixpoint wacquire_ref_impl (c : wctx) (id : str) : WM nat :=
  match c with
  | YRoot _ t _ _ | YGrammar _ t => wacquire_in t id
  | YInclude p _ _ _ _ | YOverrides p | YDefine p _ _ | YElement p | YAttribute p _ => wacquire_ref_impl p id
  end.
(** lib.rs:529-543, 700-710, 1630-1638 *)
Definition wundefined_in (tbl : nat) : WM (option str) := fun st =>
  fok (option_map fst (find (fun '(_, r) => match snd (nth r (wcells st) ([], None)) with None => true | Some _ => false end) (nth tbl (wtables st) [])), st).
Definition wget_ref_in (tbl : nat) (id : str) : WM (option nat) := fun st => fok (assoc id (nth tbl (wtables st) []), st).
Definition wtake_cell (r : nat) : WM (option wrule) := fun st =>
  let '(n, d) := nth r (wcells st) ([], None) in
  fok (d, Wst (upd r (n, None) (wcells st)) (wtables st) (wovrs st) (wloaded st)).
(** lib.rs:1639-1649, 1663-1677; [missing]: the error when there is no start *)
Definition wtake_start (tbl : nat) (missing : WM wpat) : WM wpat :=
  do r <- wget_ref_in tbl (lit "start");
  match r with
  | Some r => do d <- wtake_cell r; match d with Some d => wret (wrule_pattern d) | None => missing end
  | None => missing
  end.
Definition wtable_of (c : wctx) : nat := match c with YRoot _ t _ _ | YGrammar _ t => t | _ => 0 end.
Definition wis_include (c : wctx) : bool := match c with YInclude _ _ _ _ _ => true | _ => false end.
Definition wpath_from (c : wctx) (href : literal) : WM path :=
  match file_of (ectx c) with
  | None => wpanic PUnreachable
  | Some f => match resolve f (lit_value href) with Some p => wret p | None => wpanic PUnwrapNone end
  end.
(** lib.rs:1839-1871 *)
Definition wcompile_declaration (c : wctx) (d : decl) : WM wctx :=
  match d with
  | DDefault prefix UInherit => wpanic PUnreachable
  | DDefault prefix (UUri u) => match prefix with Some p => wdeclare_namespace c p (lit_value u) | None => wret c end
  | DNamespace prefix UInherit => wpanic PUnreachable
  | DNamespace prefix (UUri u) => wdeclare_namespace c prefix (lit_value u)
  | DDatatypes prefix u => wdeclare_datatype c prefix (lit_value u)
  end.
Fixpoint wcompile_declarations (c : wctx) (l : list decl) : WM wctx :=
  match l with [] => wret c | d :: l' => do c' <- wcompile_declaration c d; wcompile_declarations c' l' end.

(** lib.rs:1704-1760 *)
Definition wseq_members (p : wpat) : list wpat := match p with QGroup l => l | _ => [p] end.
Definition winter_members (p : wpat) : list wpat := match p with QInterleave l => l | _ => [p] end.
Definition wchoice_members (p : wpat) : list wpat := match p with QChoice l => l | _ => [p] end.
(** lib.rs:1262-1275 *)
Definition wrule_of (at_ : pos) (how : method) (p : wpat) : wrule :=
  match how with
  | MAssign => QAssign at_ None p
  | MChoiceC => QCombine at_ CrChoice (QChoice [p])
  | MInterleaveC => QCombine at_ CrInterleave (QInterleave [p])
  end.

Section WCompiler.
Variable O : oracles.
Variable C : coracles.
Variable fs : lfilesys.
Variable flen : path -> N.

(** lib.rs:327-329 [convert_span]: the position in the file of the context *)
Definition wconv {A} (c : wctx) (sp : span) (k : pos -> WM A) : WM A :=
  match file_of (ectx c) with
  | Some f => if in_file flen f sp then k (f, sp) else wpanic PSubspan
  | None => wpanic PUnreachable
  end.
(** [file.span]: the whole file *)
Definition whole (f : path) : pos := (f, (0, flen f)%N).

(** lib.rs:1180-1193 *)
Definition wget_schema (name : path) : WM lschema := fun st =>
  match fs name with
  | inl s => fok (s, Wst (wcells st) (wtables st) (wovrs st) (if in_dec path_eq_dec name (wloaded st) then wloaded st else wloaded st ++ [name]))
  | inr e => ferr (WFile e)
  end.

(** lib.rs:369-378 *)
Definition wnamespace (c : wctx) (sp : span) (p : str) : WM str :=
  match namespace_uri (ectx c) p with
  | Some u => wret u
  | None => wconv c sp (fun a => werr (WUndefinedNamespacePrefix p a))
  end.
(** lib.rs:1873-1932 *)
Fixpoint wcompile_nameclass (c : wctx) (el : bool) (n : lnc) : WM nameclass :=
  match n with
  | LName (NmId i) _ => wret (NNamed (if el then default_namespace_uri (ectx c) else []) (ik_string i))
  | LName (NmC p l) sp => do u <- wnamespace c sp p; wret (NNamed u l)
  | LName (NmNs u l) _ => wret (NNamed (lit_value u) l)
  | LNs nm sp ex =>
      do e <- match ex with Some e => do e' <- wcompile_nameclass c el e; wret (Some e') | None => wret None end;
      do u <- match nm with NsUri u => wret (lit_value u) | NsPrefix p => wnamespace c sp p end;
      wret (NNsName u e)
  | LAny ex =>
      do e <- match ex with Some e => do e' <- wcompile_nameclass c el e; wret (Some e') | None => wret None end;
      wret (NAnyName e)
  | LAlt a b => do a' <- wcompile_nameclass c el a; do b' <- wcompile_nameclass c el b; wret (NAlt a' b')
  | LParen a => wcompile_nameclass c el a
  end.

(** lib.rs:588-609: both positions are taken in the file of the definition *)
Fixpoint wcheck_ref_recursion (c : wctx) (sp : span) (id : str) : WM unit :=
  match c with
  | YRoot _ _ _ _ | YInclude _ _ _ _ _ | YOverrides _ | YGrammar _ _ | YElement _ => wret tt
  | YDefine _ d dsp => if str_eqb d id then wconv c sp (fun a => werr (WRecursiveReference id a (wfile c, dsp))) else wret tt
  | YAttribute p _ => wcheck_ref_recursion p sp id
  end.
(** lib.rs:545-548 *)
Definition wacquire_ref (c : wctx) (sp : span) (id : str) : WM nat := run wcheck_ref_recursion c sp id; wacquire_ref_impl c id.
(** lib.rs:569-582: the position is taken in the file of the root *)
Fixpoint wacquire_parent_ref (c : wctx) (sp : span) (id : str) : WM nat :=
  match c with
  | YRoot _ _ _ _ => wconv c sp (fun a => werr (WNoParentAvailable a))
  | YInclude p _ _ _ _ | YOverrides p | YDefine p _ _ | YElement p | YAttribute p _ => wacquire_parent_ref p sp id
  | YGrammar p _ => wacquire_ref p sp id
  end.
(** lib.rs:1317-1327 *)
Definition winherit_prefix (c inc : wctx) (inh : option (span * id_or_kw)) : WM wctx :=
  match inh with
  | None => wret inc
  | Some (sp, i) =>
      match namespace_uri (ectx c) (ik_string i) with
      | Some u => wdeclare_namespace inc (ik_string i) u
      | None => wconv c sp (fun a => werr (WUndefinedNamespacePrefix (ik_string i) a))
      end
  end.
(** lib.rs:415-421, 1766-1788, 1806-1823 *)
Definition wcompile_dtname (c : wctx) (n : ldtname) : WM dtname :=
  match n with
  | LdString => wret DnString
  | LdToken => wret DnToken
  | LdC sp p _ l =>
      do u <- match datatype_uri (ectx c) p with Some u => wret u | None => wconv c sp (fun a => werr (WUndefinedDatatypePrefix p a)) end;
      wret (DnCName u l)
  | LdNs _ u _ l => wret (DnCName (lit_value u) l)
  end.
Definition wlift_dt {A} (c : wctx) (at_ : dt_error -> option span) (x : fres dt_error A) : WM A := fun st =>
  match x with
  | Ok (inl a) => fok (a, st)
  | Ok (inr e) => match at_ e with Some sp => wconv c sp (fun a => werr (WDatatype e (Some a))) st | None => werr (WDatatype e None) st end
  | Panic p => Panic p
  | OutOfFuel => OutOfFuel
  end.

(** lib.rs:1349-1361: [include_span] is the whole included file *)
Definition wcheck_overrides (c : wctx) (inc : pos) : WM unit :=
  match c with
  | YInclude _ _ o _ _ => fun st =>
      match find (fun x => negb (snd (snd x))) (nth o (wovrs st) []) with
      | Some (n, (a, _)) => ferr (WOverrideMissingFromInclude n a inc)
      | None => fok (tt, st)
      end
  | _ => wpanic PUnreachable
  end.

Section WFile.
Variable rp : wctx -> lspat -> WM wpat.
Variable ri : wctx -> list lgcontent -> WM unit.

(** lib.rs:1195-1231 *)
Definition wcompile_schema_with (cp : wctx -> lspat -> WM wpat) (ci : wctx -> list lgcontent -> WM unit) (c : wctx) (s : lschema) : WM wctx :=
  do c' <- wcompile_declarations c (ls_decls s);
  match ls_top s with
  | LTPattern p =>
      if wis_include c' then
        match p with
        | LGrammar _ l => run ci c' l; wret c'
        | _ => werr (WIncludedFileMustBeGrammar (wfile c', (0, 0)%N))
        end
      else
        do r <- cp c' p;
        run wdefine c' (lit "start") (QAssign (wfile c', (0, 0)%N) None r);
        wret c'
  | LTGrammar l => run ci c' l; wret c'
  end.

(** lib.rs:1503-1836 *)
Fixpoint wcompile_pattern (c : wctx) (p : lspat) {struct p} : WM wpat :=
  match p with
  | LElement sp nc q =>
      do n <- wcompile_nameclass c true nc;
      do c' <- wconv c sp (wnew_element c);
      do x <- wcompile_pattern c' q;
      wret (QElement n x)
  | LAttribute sp nc q =>
      do n <- wcompile_nameclass c false nc;
      do c' <- wconv c sp (fun a => wret (YAttribute c a));
      do x <- wcompile_pattern c' q;
      wret (QAttribute n x)
  | LList q => do x <- wcompile_pattern c q; wret (QList x)
  | LMixed q => do x <- wcompile_pattern c q; wret (QMixed x)
  | LIdent sp i => wconv c sp (fun a => do r <- wacquire_ref c sp i; wret (QRef a i r))
  | LParent sp i => wconv c sp (fun a => do r <- wacquire_parent_ref c sp i; wret (QRef a i r))
  | LEmpty => wret QEmpty
  | LText => wret QText
  | LNotAllowed => wret QNotAllowed
  | LExternal sp href inh =>
      match inh with
      | Some _ => wpanic PUnimplemented
      | None =>
          do f <- wpath_from c href;
          wconv c sp (fun a =>
           do s <- wmap_err (WInclude a) (wget_schema f);
           do inc <- wnew_include c a f;
           match ls_top s with
           | LTPattern q => wmap_err (WInclude a) (rp inc q)
           | LTGrammar l =>
               do g <- wnew_grammar c;
               run ri g l;
               do u <- wundefined_in (wtable_of g);
               match u with
               | Some n => werr (WUndefinedReference n (wfile g, (0, 0)%N))
               | None => wtake_start (wtable_of g) (werr (WStartRuleNotDefined (whole f)))
               end
           end)
      end
  | LGrammar sp l =>
      do g <- wnew_grammar c;
      run witer (wcompile_content g) l;
      wtake_start (wtable_of g) (wconv c sp (fun a => werr (WStartRuleNotDefined a)))
  | LGroup q => wcompile_pattern c q
  | LListPair a b =>
      do x <- wcompile_pattern c a;
      do y <- wcompile_pattern c b;
      wret (QGroup (wseq_members x ++ wseq_members y))
  | LInterleavePair a b =>
      do x <- wcompile_pattern c a;
      do y <- wcompile_pattern c b;
      wret (QInterleave (winter_members x ++ winter_members y))
  | LChoicePair a b =>
      do x <- wcompile_pattern c a;
      do y <- wcompile_pattern c b;
      wret (QChoice (wchoice_members x ++ wchoice_members y))
  | LOptional q => do x <- wcompile_pattern c q; wret (QOptional x)
  | LZeroOrMore q => do x <- wcompile_pattern c q; wret (QZeroOrMore x)
  | LOneOrMore q => do x <- wcompile_pattern c q; wret (QOneOrMore x)
  | LValue n v =>
      do d <- match n with Some n => wcompile_dtname c n | None => wret DnToken end;
      do x <- wlift_dt c (value_span n) (Facets.datatype_value d (lit_value v));
      wret (QValue x)
  | LData n ps ex =>
      do d <- wcompile_dtname c n;
      do x <- wlift_dt c (data_span O C n d ps) (Facets.datatype_name O C d (param_values (erase_params ps)));
      do e <- match ex with Some e => do e' <- wcompile_pattern c e; wret (Some e') | None => wret None end;
      wret (QData x e)
  end
(** lib.rs:1254-1364, 1680-1702 *)
with wcompile_content (c : wctx) (g : lgcontent) {struct g} : WM unit :=
  match g with
  | LDefine sp n how p =>
      do x <- wcompile_pattern (YDefine c n sp) p;
      wconv c sp (fun a => wdefine c n (wrule_of a how x))
  | LDiv l => witer (wcompile_content c) l
  | LInclude sp href inh ov =>
      do f <- wpath_from c href;
      wconv c sp (fun a =>
       do s <- wmap_err (WInclude a) (wget_schema f);
       do inc <- wnew_include c a f;
       do inc <- winherit_prefix c inc inh;
       run match ov with
           | Some l => witer (fun i => wmap_err (WInclude a) (wcompile_override (YOverrides inc) i)) l
           | None => wret tt
           end;
       do inc <- wmap_err (WInclude a) (wcompile_schema_with rp ri inc s);
       wcheck_overrides inc (whole f))
  | LAnnotation _ => wret tt
  end
with wcompile_override (c : wctx) (i : licontent) {struct i} : WM unit :=
  match i with
  | LIDefine sp n how p =>
      do x <- wcompile_pattern (YDefine c n sp) p;
      wconv c sp (fun a => wdefine c n (wrule_of a how x))
  | LIDiv _ => wpanic PUnimplemented
  | LIAnnotation _ => wret tt
  end.
Definition wcompile_contents (c : wctx) : list lgcontent -> WM unit := witer (wcompile_content c).
End WFile.

Fixpoint wnested (d : nat) : (wctx -> lspat -> WM wpat) * (wctx -> list lgcontent -> WM unit) :=
  match d with
  | 0 => (fun _ _ => wfuel, fun _ _ => wfuel)
  | S d => let (rp, ri) := wnested d in (wcompile_pattern rp ri, wcompile_contents rp ri)
  end.

(** lib.rs:722-761 [check] *)
Fixpoint wcheck_refs (cs : list (str * option wrule)) (d : nat) : list nat -> wpat -> fres werror (list nat) :=
  fix go (seen : list nat) (p : wpat) {struct p} : fres werror (list nat) :=
    match p with
    | QChoice l | QInterleave l | QGroup l =>
        (fix all (seen : list nat) (l : list wpat) {struct l} : fres werror (list nat) :=
           match l with [] => fok seen | x :: l' => fbind (go seen x) (fun seen' => all seen' l') end) seen l
    | QMixed q | QOptional q | QZeroOrMore q | QOneOrMore q | QAttribute _ q | QElement _ q | QList q => go seen q
    | QEmpty | QText | QNotAllowed | QValue _ => fok seen
    | QRef a n r =>
        if in_dec Nat.eq_dec r seen then fok seen
        else
          match snd (nth r cs ([], None)) with
          | Some rule =>
              match d with
              | 0 => OutOfFuel
              | S d => wcheck_refs cs d (r :: seen) (wrule_pattern rule)
              end
          | None => ferr (WUndefinedReference n a)
          end
    | QData _ (Some e) => go seen e
    | QData _ None => fok seen
    end.

(** lib.rs:693-719 [Compiler::compile] *)
Definition wcompile_grammar (d : nat) (name : path) : fres werror (nat * wst) :=
  (do s <- wget_schema name;
   do c <- wnew_root name;
   let (rp, ri) := wnested d in
   do c <- wcompile_schema_with (wcompile_pattern rp ri) (wcompile_contents rp ri) c s;
   do u <- wundefined_in (wtable_of c);
   match u with
   | Some n => werr (WUndefinedReference n (name, (0, 0)%N))
   | None =>
       do r <- wget_ref_in (wtable_of c) (lit "start");
       match r with
       | None => werr (WStartRuleNotDefined (whole name))
       | Some r => fun st =>
           match nth r (wcells st) ([], None) with
           | (_, Some rule) => fbind (wcheck_refs (wcells st) (S (List.length (wcells st))) [] (wrule_pattern rule)) (fun _ => fok (r, st))
           | (_, None) => Panic PUnwrapNone
           end
       end
   end) empty_wst.
End WCompiler.

(** ** lib.rs:773-1166 [diagnostic]: the labels shown, with their style ([true]: primary).  [syn]: where the syntax
    error of a file is ([None] for an I/O error) *)
Fixpoint labels (syn : nat -> option pos) (e : werror) : fres unit (list (pos * bool)) :=
  match e with
  | WInclude a e =>                                                                                   (* 775-789 *)
      fbind (labels syn e) (fun l => fok (l ++ [(a, match l with [] => true | _ => false end)]))
  | WFile n => fok (match syn n with Some a => [(a, true)] | None => [] end)                          (* 790-795, 826-857, 1151-1163 *)
  | WUndefinedReference _ a | WNoParentAvailable a | WUndefinedNamespacePrefix _ a | WUndefinedDatatypePrefix _ a
  | WStartRuleNotDefined a | WRecursiveInclude _ a | WIncludedFileMustBeGrammar a => fok [(a, true)]
  | WDatatype (DFacet FConflict) _ => Panic PUnimplemented                                            (* 925-927 *)
  | WDatatype _ a => fok (match a with Some a => [(a, true)] | None => [] end)
  | WRecursiveReference _ r d => fok [(r, true); (d, false)]                                          (* 1003-1027 *)
  | WDuplicateDefinition _ dup orig => fok [(dup, true); (orig, false)]                               (* 1042-1063 *)
  | WMixesChoiceAndInterleave this_ that => fok [(this_, true); (that, false)]                        (* 1064-1087 *)
  | WElementAsChildOfAttribute a el => fok [(el, true); (a, false)]                                   (* 1101-1121 *)
  | WOverrideMissingFromInclude _ o i => fok [(o, true); (i, false)]                                  (* 1125-1150 *)
  | WDatatypePrefixAlreadyDefined _ => Panic PUnreachable                                             (* 1164 *)
  end.
