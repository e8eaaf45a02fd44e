(** * SchemaCompile: from parsed schema files to the model the validator uses.
    relaxng-model/src/lib.rs:169-761 ([Context], [Compiler::compile], [check]) and 1180-1932
    ([Compiler::compile_*], [merge]).

    Representation.
    - [Rc<RefCell<Option<DefineRule>>>] is an index into the list [cells] of the state; a cell also
      remembers the name it was created for (the code stores that name in each [Pattern::Ref]).
    - The [refs] map of a [Context::Root]/[Context::Grammar] and the [overrides] map of a
      [Context::Include] are mutable: they live in the state ([tables], [ovrs]), the context holds
      their number.  The maps from prefixes are only changed before the context is used.
    - [Files::load] together with the parser is a function [fs] from a path to a schema or an error
      (the code caches its result in [loaded]; with a function the cache is invisible except through
      [Compiler::loaded]).
    - A path is its list of components, as [std::path] compares paths; the name of a file is the
      spelling of the path it was first loaded with, so two names are equal iff the paths are.
    Simplifications: spans are dropped; Located.v adds them, with the panic of [subspan] when a span of one file
    is taken in another's coordinates, and LocatedProof.v shows when they change nothing; where the code iterates over a [HashMap] and
    reports the first offender, the model reports the first inserted one; stack overflow through
    deep nesting is not modelled, but a file recursion without end is ([OutOfFuel] for all depths). *)
From Coq Require Import String.
From Verif Require Import Base Datatype Facets Store Compile Syntax.

(** ** Paths (std::path on Unix) *)
Record path := Path { p_abs : bool; p_comps : list str }.
Definition path_eq_dec : forall a b : path, {a = b} + {a <> b}.
Proof. decide equality; [apply (list_eq_dec str_eq_dec) | apply Bool.bool_dec]. Defined.
Definition path_eqb (a b : path) : bool := if path_eq_dec a b then true else false.
Definition dot : str := [46%N].
(** [Path::components]: "." is dropped unless it is the first component of a relative path *)
Definition norm (abs : bool) (l : list str) : list str :=
  match l with
  | [] => []
  | x :: l' => (if str_eqb x dot && abs then [] else [x]) ++ filter (fun c => negb (str_eqb c dot)) l'
  end.
Definition split_path (s : str) : list str := split_on (fun c => (c =? 47)%N) [] s.
(** lib.rs:1301-1304, 1610-1613: [Path::new(ctx.file().name()).parent()?.join(href)] *)
Definition resolve (base : path) (href : str) : option path :=
  match p_comps base with
  | [] => None
  | _ =>
      match href with
      | c :: _ => if (c =? 47)%N then Some (Path true (norm true (split_path href)))
                  else Some (Path (p_abs base) (norm (p_abs base) (removelast (p_comps base) ++ split_path href)))
      | [] => Some (Path (p_abs base) (removelast (p_comps base)))
      end
  end.

(** ** model.rs:9-32 [DefineRule], [CombineRule] *)
Inductive crule : Type := CrChoice | CrInterleave.
Inductive drule : Type :=
| AssignCombine (c : option crule) (p : mpat)
| CombineOnly (c : crule) (p : mpat).
Definition rule_pattern (r : drule) : mpat := match r with AssignCombine _ p | CombineOnly _ p => p end.

(** lib.rs:94-167 [RelaxError]; [EFile] stands for the errors of loading and parsing a file *)
Inductive rerror : Type :=
| EFile (code : nat)
| EInclude (e : rerror)
| EDuplicateDefinition (name : str)
| EMixesChoiceAndInterleave
| EUndefinedNamespacePrefix (p : str)
| EUndefinedReference (name : str)
| EUndefinedDatatypePrefix (p : str)
| EDatatypePrefixAlreadyDefined (p : str)
| EStartRuleNotDefined
| ENoParentAvailable
| EDatatype (e : dt_error)
| ERecursiveReference (name : str)
| EElementAsChildOfAttribute
| ERecursiveInclude (name : path)
| EIncludedFileMustBeGrammar
| EOverrideMissingFromInclude (name : str).

(** ** State and monad *)
Record cst := Cst {
  cells : list (str * option drule);
  tables : list (list (str * nat));
  ovrs : list (list (str * bool));
  loaded : list path }.
Definition empty_cst : cst := Cst [] [] [] [].
Definition CM (A : Type) := cst -> fres rerror (A * cst).
Definition cret {A} (a : A) : CM A := fun st => fok (a, st).
Definition cerr {A} (e : rerror) : CM A := fun _ => ferr e.
Definition cpanic {A} (p : panic) : CM A := fun _ => Panic p.
Definition cfuel {A} : CM A := fun _ => OutOfFuel.
Definition cbind {A B} (m : CM A) (f : A -> CM B) : CM B :=
  fun st => fbind (m st) (fun '(a, st') => f a st').
Definition cmap_err {A} (g : rerror -> rerror) (m : CM A) : CM A := fun st => fmap_err g (m st).
Declare Scope cm_scope.
Delimit Scope cm_scope with cm.
Notation "'do' x <- m ; f" := (cbind m (fun x => f)) (at level 200, x pattern, m at level 100, f at level 200) : cm_scope.
Notation "'run' m ; f" := (cbind m (fun _ => f)) (at level 200, m at level 100, f at level 200) : cm_scope.
Open Scope cm_scope.
Definition citer {A} (f : A -> CM unit) : list A -> CM unit :=
  fix go l := match l with [] => cret tt | x :: l' => run f x; go l' end.

Fixpoint assoc {A} (k : str) (l : list (str * A)) : option A :=
  match l with [] => None | (k', v) :: l' => if str_eqb k' k then Some v else assoc k l' end.
Fixpoint upd {A} (n : nat) (x : A) (l : list A) : list A :=
  match l, n with
  | [], _ => []
  | _ :: l', 0 => x :: l'
  | y :: l', S n => y :: upd n x l'
  end.
Definition set_assoc {A} (k : str) (v : A) : list (str * A) -> list (str * A) :=
  map (fun kv => if str_eqb (fst kv) k then (fst kv, v) else kv).

(** ** lib.rs:169-214 [Context].  The field [default_namespace] is the empty string in every
    context the code builds ([new], [new_include]) and is never assigned. *)
Inductive ctx : Type :=
| XRoot (file : path) (tbl : nat) (ns dts : list (str * str))
| XInclude (parent : ctx) (file : path) (ov : nat) (ns dts : list (str * str))
| XOverrides (parent : ctx)
| XGrammar (parent : ctx) (tbl : nat)
| XDefine (parent : ctx) (id : str)
| XElement (parent : ctx)
| XAttribute (parent : ctx).

Definition xml_uri : str := lit "http://www.w3.org/XML/1998/namespace".
Definition initial_ns : list (str * str) := [(lit "xml", xml_uri)].
Definition initial_dts : list (str * str) := [(lit "xsd", xsd_uri)].

Definition new_table : CM nat := fun st =>
  fok (List.length (tables st), Cst (cells st) (tables st ++ [[]]) (ovrs st) (loaded st)).
Definition new_ovr : CM nat := fun st =>
  fok (List.length (ovrs st), Cst (cells st) (tables st) (ovrs st ++ [[]]) (loaded st)).

(** lib.rs:216-235 [Context::new] *)
Definition new_root (file : path) : CM ctx := do t <- new_table; cret (XRoot file t initial_ns initial_dts).
(** lib.rs:624-646 [check_include] *)
Fixpoint check_include (c : ctx) (this : path) : CM unit :=
  match c with
  | XRoot _ _ _ _ => cret tt
  | XGrammar p _ | XOverrides p | XDefine p _ | XElement p | XAttribute p => check_include p this
  | XInclude p f _ _ _ => if path_eqb this f then cerr (ERecursiveInclude this) else check_include p this
  end.
(** lib.rs:238-262 [new_include] *)
Definition new_include (c : ctx) (file : path) : CM ctx :=
  run check_include c file;
  do o <- new_ovr;
  cret (XInclude c file o initial_ns initial_dts).
(** lib.rs:275-280 [new_grammar] *)
Definition new_grammar (c : ctx) : CM ctx := do t <- new_table; cret (XGrammar c t).
(** lib.rs:613-622 [parent_attribute] *)
Fixpoint parent_attribute (c : ctx) : bool :=
  match c with
  | XRoot _ _ _ _ | XGrammar _ _ => false
  | XAttribute _ => true
  | XInclude p _ _ _ _ | XOverrides p | XDefine p _ | XElement p => parent_attribute p
  end.
(** lib.rs:291-299 [new_element] *)
Definition new_element (c : ctx) : CM ctx :=
  if parent_attribute c then cerr EElementAsChildOfAttribute else cret (XElement c).

(** lib.rs:306-323 [file]; the parent of an override block is an include *)
Fixpoint file_of (c : ctx) : option path :=
  match c with
  | XRoot f _ _ _ | XInclude _ f _ _ _ => Some f
  | XOverrides p => match p with XInclude q _ _ _ _ => file_of q | _ => None end
  | XGrammar p _ | XDefine p _ | XElement p | XAttribute p => file_of p
  end.
(** lib.rs:332-346 [default_namespace_uri] *)
Fixpoint default_namespace_uri (c : ctx) : str :=
  match c with
  | XRoot _ _ _ _ | XInclude _ _ _ _ _ => []
  | XOverrides p | XGrammar p _ | XDefine p _ | XElement p | XAttribute p => default_namespace_uri p
  end.
(** lib.rs:348-367 [declare_namespace] *)
Definition declare_namespace (c : ctx) (prefix uri : str) : CM ctx :=
  match c with
  | XRoot f t ns d => cret (match assoc prefix ns with Some _ => c | None => XRoot f t (ns ++ [(prefix, uri)]) d end)
  | XInclude p f o ns d => cret (match assoc prefix ns with Some _ => c | None => XInclude p f o (ns ++ [(prefix, uri)]) d end)
  | _ => cpanic PUnreachable
  end.
(** lib.rs:379-390 [namespace_uri_for_prefix_str] *)
Fixpoint namespace_uri (c : ctx) (prefix : str) : option str :=
  match c with
  | XRoot _ _ ns _ | XInclude _ _ _ ns _ => assoc prefix ns
  | XOverrides p | XGrammar p _ | XDefine p _ | XElement p | XAttribute p => namespace_uri p prefix
  end.
(** lib.rs:369-378 [namespace_uri_for_prefix] *)
Definition namespace_uri_for_prefix (c : ctx) (prefix : str) : CM str :=
  match namespace_uri c prefix with Some u => cret u | None => cerr (EUndefinedNamespacePrefix prefix) end.
(** lib.rs:392-413 [declare_datatype] *)
Definition declare_datatype (c : ctx) (prefix uri : str) : CM ctx :=
  match c with
  | XRoot f t ns d =>
      match assoc prefix d with Some _ => cerr (EDatatypePrefixAlreadyDefined prefix) | None => cret (XRoot f t ns (d ++ [(prefix, uri)])) end
  | XInclude p f o ns d =>
      match assoc prefix d with Some _ => cerr (EDatatypePrefixAlreadyDefined prefix) | None => cret (XInclude p f o ns (d ++ [(prefix, uri)])) end
  | _ => cpanic PUnreachable
  end.
(** lib.rs:423-444 [datatype_uri_for_prefix] *)
Fixpoint datatype_uri (c : ctx) (prefix : str) : option str :=
  match c with
  | XRoot _ _ _ d => assoc prefix d
  | XInclude p _ _ _ d => match assoc prefix d with Some u => Some u | None => datatype_uri p prefix end
  | XOverrides p | XGrammar p _ | XDefine p _ | XElement p | XAttribute p => datatype_uri p prefix
  end.
(** lib.rs:415-421 [try_datatype_uri_for_prefix] *)
Definition try_datatype_uri (c : ctx) (prefix : str) : CM str :=
  match datatype_uri c prefix with Some u => cret u | None => cerr (EUndefinedDatatypePrefix prefix) end.

(** ** lib.rs:1232-1253 [append_choice], [append_interleave] *)
Definition append_choice (a c : mpat) : fres rerror mpat :=
  match a with
  | MChoice l => fok (MChoice (match c with MChoice l' => l ++ l' | _ => l ++ [c] end))
  | _ => Panic PUnreachable
  end.
Definition append_interleave (a c : mpat) : fres rerror mpat :=
  match a with
  | MInterleave l => fok (MInterleave (match c with MInterleave l' => l ++ l' | _ => l ++ [c] end))
  | _ => Panic PUnreachable
  end.
(** lib.rs:1382-1501 [merge1] *)
Definition merge1 (name : str) (a b : drule) : fres rerror drule :=
  match a, b with
  | AssignCombine _ _, AssignCombine _ _ => ferr (EDuplicateDefinition name)
  | CombineOnly CrChoice pa, CombineOnly CrChoice pb =>
      fbind (append_choice pa pb) (fun p => fok (CombineOnly CrChoice p))
  | AssignCombine (Some CrChoice) pa, CombineOnly CrChoice pb
  | CombineOnly CrChoice pa, AssignCombine (Some CrChoice) pb
  | AssignCombine None pa, CombineOnly CrChoice pb
  | CombineOnly CrChoice pa, AssignCombine None pb =>
      match pa with
      | MChoice _ => fbind (append_choice pa pb) (fun p => fok (AssignCombine (Some CrChoice) p))
      | _ => fok (AssignCombine (Some CrChoice) (MChoice [pa; pb]))
      end
  | CombineOnly CrInterleave pa, CombineOnly CrInterleave pb =>
      fbind (append_interleave pa pb) (fun p => fok (CombineOnly CrInterleave p))
  | AssignCombine (Some CrInterleave) pa, CombineOnly CrInterleave pb
  | CombineOnly CrInterleave pa, AssignCombine (Some CrInterleave) pb
  | AssignCombine None pa, CombineOnly CrInterleave pb
  | CombineOnly CrInterleave pa, AssignCombine None pb =>
      match pa with
      | MInterleave _ => fbind (append_interleave pa pb) (fun p => fok (AssignCombine (Some CrInterleave) p))
      | _ => fok (AssignCombine (Some CrInterleave) (MInterleave [pa; pb]))
      end
  | CombineOnly CrChoice _, CombineOnly CrInterleave _
  | CombineOnly CrInterleave _, CombineOnly CrChoice _
  | AssignCombine (Some CrChoice) _, CombineOnly CrInterleave _
  | AssignCombine (Some CrInterleave) _, CombineOnly CrChoice _
  | CombineOnly CrChoice _, AssignCombine (Some CrInterleave) _
  | CombineOnly CrInterleave _, AssignCombine (Some CrChoice) _ => ferr EMixesChoiceAndInterleave
  end.
(** lib.rs:1367-1381 [merge], second argument always [Some] *)
Definition merge (name : str) (a : option drule) (b : drule) : fres rerror drule :=
  match a with None => fok b | Some a => merge1 name a b end.

(** ** lib.rs:446-502 [define] *)
Definition define_in (tbl : nat) (id : str) (rule : drule) : CM unit := fun st =>
  let t := nth tbl (tables st) [] in
  match assoc id t with
  | Some r =>
      fbind (merge id (snd (nth r (cells st) (id, None))) rule) (fun rule' =>
        fok (tt, Cst (upd r (id, Some rule') (cells st)) (tables st) (ovrs st) (loaded st)))
  | None =>
      fok (tt, Cst (cells st ++ [(id, Some rule)]) (upd tbl (t ++ [(id, List.length (cells st))]) (tables st)) (ovrs st) (loaded st))
  end.
Definition get_ovr (o : nat) (id : str) : CM (option bool) := fun st => fok (assoc id (nth o (ovrs st) []), st).
Definition mark_ovr (o : nat) (id : str) : CM unit := fun st =>
  fok (tt, Cst (cells st) (tables st) (upd o (set_assoc id true (nth o (ovrs st) [])) (ovrs st)) (loaded st)).
Definition insert_ovr (o : nat) (id : str) : CM unit := fun st =>
  fok (tt, Cst (cells st) (tables st) (upd o (nth o (ovrs st) [] ++ [(id, false)]) (ovrs st)) (loaded st)).
Fixpoint define (c : ctx) (id : str) (rule : drule) : CM unit :=
  match c with
  | XRoot _ t _ _ | XGrammar _ t => define_in t id rule
  | XInclude p _ o _ _ =>
      do b <- get_ovr o id;
      match b with Some _ => mark_ovr o id | None => define p id rule end
  | XOverrides (XInclude q _ o _ _) =>
      do b <- get_ovr o id;
      match b with Some _ => cpanic PUnreachable | None => run insert_ovr o id; define q id rule end
  | XOverrides _ | XDefine _ _ | XElement _ | XAttribute _ => cpanic PUnreachable
  end.

(** lib.rs:549-567 [acquire_ref_impl] *)
Definition acquire_in (tbl : nat) (id : str) : CM nat := fun st =>
  let t := nth tbl (tables st) [] in
  match assoc id t with
  | Some r => fok (r, st)
  | None =>
      let r := List.length (cells st) in
      fok (r, Cst (cells st ++ [(id, None)]) (upd tbl (t ++ [(id, r)]) (tables st)) (ovrs st) (loaded st))
  end.
Fixpoint acquire_ref_impl (c : ctx) (id : str) : CM nat :=
  match c with
  | XRoot _ t _ _ | XGrammar _ t => acquire_in t id
  | XInclude p _ _ _ _ | XOverrides p | XDefine p _ | XElement p | XAttribute p => acquire_ref_impl p id
  end.
(** lib.rs:588-609 [check_ref_recursion] *)
Fixpoint check_ref_recursion (c : ctx) (id : str) : CM unit :=
  match c with
  | XRoot _ _ _ _ | XInclude _ _ _ _ _ | XOverrides _ | XGrammar _ _ | XElement _ => cret tt
  | XDefine _ d => if str_eqb d id then cerr (ERecursiveReference id) else cret tt
  | XAttribute p => check_ref_recursion p id
  end.
(** lib.rs:545-548 [acquire_ref] *)
Definition acquire_ref (c : ctx) (id : str) : CM nat := run check_ref_recursion c id; acquire_ref_impl c id.
(** lib.rs:569-582 [acquire_parent_ref] *)
Fixpoint acquire_parent_ref (c : ctx) (id : str) : CM nat :=
  match c with
  | XRoot _ _ _ _ => cerr ENoParentAvailable
  | XInclude p _ _ _ _ | XOverrides p | XDefine p _ | XElement p | XAttribute p => acquire_parent_ref p id
  | XGrammar p _ => acquire_ref p id
  end.
(** lib.rs:504-527 [get_ref], called with a root or grammar context only *)
Definition get_ref_in (tbl : nat) (id : str) : CM (option nat) := fun st => fok (assoc id (nth tbl (tables st) []), st).
Definition cell (r : nat) : CM (option drule) := fun st => fok (snd (nth r (cells st) ([], None)), st).
Definition take_cell (r : nat) : CM (option drule) := fun st =>
  let '(n, d) := nth r (cells st) ([], None) in
  fok (d, Cst (upd r (n, None) (cells st)) (tables st) (ovrs st) (loaded st)).
(** lib.rs:529-543 [ref_iter] and the loops at 700-710, 1630-1638: the first name without definition.
    Simplified: the code's HashMap gives the names in no particular order, the model in the order of their first use *)
Definition undefined_in (tbl : nat) : CM (option str) := fun st =>
  fok (option_map fst (find (fun '(_, r) => match snd (nth r (cells st) ([], None)) with None => true | Some _ => false end) (nth tbl (tables st) [])), st).

(** lib.rs:1180-1193 [get_schema]; [fs] is the file system and the parser *)
Definition filesys := path -> schema + nat.
Section Compiler.
Variable O : oracles.
Variable C : coracles.
Variable fs : filesys.
Definition get_schema (name : path) : CM schema := fun st =>
  match fs name with
  | inl s => fok (s, Cst (cells st) (tables st) (ovrs st) (if in_dec path_eq_dec name (loaded st) then loaded st else loaded st ++ [name]))
  | inr e => ferr (EFile e)
  end.

(** lib.rs:1838-1870 [compile_declaration] *)
Definition compile_declaration (c : ctx) (d : decl) : CM ctx :=
  match d with
  | DDefault prefix UInherit => cpanic PUnreachable
  | DDefault prefix (UUri u) => match prefix with Some p => declare_namespace c p (lit_value u) | None => cret c end
  | DNamespace prefix UInherit => cpanic PUnreachable
  | DNamespace prefix (UUri u) => declare_namespace c prefix (lit_value u)
  | DDatatypes prefix u => declare_datatype c prefix (lit_value u)
  end.
Fixpoint compile_declarations (c : ctx) (l : list decl) : CM ctx :=
  match l with [] => cret c | d :: l' => do c' <- compile_declaration c d; compile_declarations c' l' end.

(** lib.rs:1873-1932 [compile_nameclass]; [el] is [elem_attr == ElemAttr::Element] *)
Fixpoint compile_nameclass (c : ctx) (el : bool) (n : snc) : CM nameclass :=
  match n with
  | CName (NmId i) => cret (NNamed (if el then default_namespace_uri c else []) (ik_string i))
  | CName (NmC p l) => do u <- namespace_uri_for_prefix c p; cret (NNamed u l)
  | CName (NmNs u l) => cret (NNamed (lit_value u) l)
  | CNs nm ex =>
      do e <- match ex with Some e => do e' <- compile_nameclass c el e; cret (Some e') | None => cret None end;
      do u <- match nm with NsUri u => cret (lit_value u) | NsPrefix p => namespace_uri_for_prefix c p end;
      cret (NNsName u e)
  | CAny ex =>
      do e <- match ex with Some e => do e' <- compile_nameclass c el e; cret (Some e') | None => cret None end;
      cret (NAnyName e)
  | CAlt a b => do a' <- compile_nameclass c el a; do b' <- compile_nameclass c el b; cret (NAlt a' b')
  | CParen a => compile_nameclass c el a
  end.

(** lib.rs:1766-1788, 1806-1823: the datatype name with its prefix resolved *)
Definition compile_dtname (c : ctx) (n : sdtname) : CM dtname :=
  match n with
  | SdString => cret DnString
  | SdToken => cret DnToken
  | SdC p l => do u <- try_datatype_uri c p; cret (DnCName u l)
  | SdNs u l => cret (DnCName (lit_value u) l)
  end.
Definition lift_dt {A} (x : fres dt_error A) : CM A := fun st =>
  fbind (fmap_err EDatatype x) (fun a => fok (a, st)).
Definition param_values (ps : option (list sparam)) : list param :=
  match ps with Some l => map (fun '(_, k, v) => (ik_string k, lit_value v)) l | None => [] end.

(** lib.rs:1704-1760: group, interleave and choice of two compiled patterns *)
Definition seq_members (p : mpat) : list mpat := match p with MGroup l => l | _ => [p] end.
Definition inter_members (p : mpat) : list mpat := match p with MInterleave l => l | _ => [p] end.
Definition choice_members (p : mpat) : list mpat := match p with MChoice l => l | _ => [p] end.

(** lib.rs:1263-1275: the rule of one definition *)
Definition rule_of (how : method) (p : mpat) : drule :=
  match how with
  | MAssign => AssignCombine None p
  | MChoiceC => CombineOnly CrChoice (MChoice [p])
  | MInterleaveC => CombineOnly CrInterleave (MInterleave [p])
  end.

(** lib.rs:1639-1649, 1663-1677: the start pattern is moved out of its cell *)
Definition take_start (tbl : nat) : CM mpat :=
  do r <- get_ref_in tbl (lit "start");
  match r with
  | Some r => do d <- take_cell r; match d with Some d => cret (rule_pattern d) | None => cerr EStartRuleNotDefined end
  | None => cerr EStartRuleNotDefined
  end.
Definition table_of (c : ctx) : nat := match c with XRoot _ t _ _ | XGrammar _ t => t | _ => 0 end.
Definition is_include (c : ctx) : bool := match c with XInclude _ _ _ _ _ => true | _ => false end.
Definition path_from (c : ctx) (href : literal) : CM path :=
  match file_of c with
  | None => cpanic PUnreachable
  | Some f => match resolve f (lit_value href) with Some p => cret p | None => cpanic PUnwrapNone end
  end.

(** Patterns, definitions and grammar contents of one file.  [rp] and [ri] compile the pattern and
    the contents of another file. *)
Section File.
Variable rp : ctx -> spat -> CM mpat.
Variable ri : ctx -> list gcontent -> CM unit.

(** lib.rs:1195-1231 [compile_schema] *)
Definition compile_schema_with (cp : ctx -> spat -> CM mpat) (ci : ctx -> list gcontent -> CM unit) (c : ctx) (s : schema) : CM ctx :=
  do c' <- compile_declarations c (s_decls s);
  match s_top s with
  | TPattern p =>
      if is_include c' then
        match p with
        | SGrammar l => run ci c' l; cret c'
        | _ => cerr EIncludedFileMustBeGrammar
        end
      else
        do r <- cp c' p;
        run define c' (lit "start") (AssignCombine None r);
        cret c'
  | TGrammar l => run ci c' l; cret c'
  end.

(** lib.rs:1349-1361: the first override which replaced nothing; as for [undefined_in], the code's order is that of a HashMap *)
Definition check_overrides (c : ctx) : CM unit :=
  match c with
  | XInclude _ _ o _ _ => fun st =>
      match find (fun '(_, b) => negb b) (nth o (ovrs st) []) with
      | Some (n, _) => ferr (EOverrideMissingFromInclude n)
      | None => fok (tt, st)
      end
  | _ => cpanic PUnreachable
  end.

(** lib.rs:1317-1327: [inherit = prefix] of an include *)
Definition inherit_prefix (c inc : ctx) (inh : option id_or_kw) : CM ctx :=
  match inh with
  | None => cret inc
  | Some i =>
      match namespace_uri c (ik_string i) with
      | Some u => declare_namespace inc (ik_string i) u
      | None => cerr (EUndefinedNamespacePrefix (ik_string i))
      end
  end.

(** lib.rs:1503-1538 [compile_pattern] and the functions it calls (1539-1836) *)
Fixpoint compile_pattern (c : ctx) (p : spat) {struct p} : CM mpat :=
  match p with
  | SElement nc q =>
      do n <- compile_nameclass c true nc;
      do c' <- new_element c;
      do x <- compile_pattern c' q;
      cret (MElement n x)
  | SAttribute nc q =>
      do n <- compile_nameclass c false nc;
      do x <- compile_pattern (XAttribute c) q;
      cret (MAttribute n x)
  | SList q => do x <- compile_pattern c q; cret (MList x)
  | SMixed q => do x <- compile_pattern c q; cret (MMixed x)
  | SIdent i => do r <- acquire_ref c i; cret (MRef r)
  | SParent i => do r <- acquire_parent_ref c i; cret (MRef r)
  | SEmpty => cret MEmpty
  | SText => cret MText
  | SNotAllowed => cret MNotAllowed
  | SExternal href inh =>
      match inh with
      | Some _ => cpanic PUnimplemented
      | None =>
          do f <- path_from c href;
          do s <- cmap_err EInclude (get_schema f);
          do inc <- new_include c f;
          match s_top s with
          | TPattern q => cmap_err EInclude (rp inc q)
          | TGrammar l =>
              do g <- new_grammar c;
              run ri g l;
              do u <- undefined_in (table_of g);
              match u with
              | Some n => cerr (EUndefinedReference n)
              | None => take_start (table_of g)
              end
          end
      end
  | SGrammar l =>
      do g <- new_grammar c;
      run citer (compile_content g) l;
      take_start (table_of g)
  | SGroup q => compile_pattern c q
  | SListPair a b =>
      do x <- compile_pattern c a;
      do y <- compile_pattern c b;
      cret (MGroup (seq_members x ++ seq_members y))
  | SInterleavePair a b =>
      do x <- compile_pattern c a;
      do y <- compile_pattern c b;
      cret (MInterleave (inter_members x ++ inter_members y))
  | SChoicePair a b =>
      do x <- compile_pattern c a;
      do y <- compile_pattern c b;
      cret (MChoice (choice_members x ++ choice_members y))
  | SOptional q => do x <- compile_pattern c q; cret (MOptional x)
  | SZeroOrMore q => do x <- compile_pattern c q; cret (MZeroOrMore x)
  | SOneOrMore q => do x <- compile_pattern c q; cret (MOneOrMore x)
  | SValue n v =>
      do d <- compile_dtname c (match n with Some n => n | None => SdToken end);
      do x <- lift_dt (Facets.datatype_value d (lit_value v));
      cret (MValue x)
  | SData n ps ex =>
      do d <- compile_dtname c n;
      do x <- lift_dt (Facets.datatype_name O C d (param_values ps));
      do e <- match ex with Some e => do e' <- compile_pattern c e; cret (Some e') | None => cret None end;
      cret (MData x e)
  end
(** lib.rs:1680-1702 [compile_grammar_content_item] with 1254-1278 [compile_define],
    1279-1288 [compile_grammar_div], 1296-1364 [compile_include] *)
with compile_content (c : ctx) (g : gcontent) {struct g} : CM unit :=
  match g with
  | GDefine n how p =>
      do x <- compile_pattern (XDefine c n) p;
      define c n (rule_of how x)
  | GDiv l => citer (compile_content c) l
  | GInclude href inh ov =>
      do f <- path_from c href;
      do s <- cmap_err EInclude (get_schema f);
      do inc <- new_include c f;
      do inc <- inherit_prefix c inc inh;
      run match ov with
          | Some l => citer (fun i => cmap_err EInclude (compile_override (XOverrides inc) i)) l
          | None => cret tt
          end;
      do inc <- cmap_err EInclude (compile_schema_with rp ri inc s);
      check_overrides inc
  | GAnnotation _ => cret tt
  end
(** lib.rs:1329-1344: one item of an override block; 1289-1295 [compile_include_div] is
    unimplemented!() *)
with compile_override (c : ctx) (i : icontent) {struct i} : CM unit :=
  match i with
  | IDefine n how p =>
      do x <- compile_pattern (XDefine c n) p;
      define c n (rule_of how x)
  | IDiv _ => cpanic PUnimplemented
  | IAnnotation _ => cret tt
  end.
Definition compile_contents (c : ctx) : list gcontent -> CM unit := citer (compile_content c).
End File.

(** files nested at most [d] deep *)
Fixpoint nested (d : nat) : (ctx -> spat -> CM mpat) * (ctx -> list gcontent -> CM unit) :=
  match d with
  | 0 => (fun _ _ => cfuel, fun _ _ => cfuel)
  | S d => let (rp, ri) := nested d in (compile_pattern rp ri, compile_contents rp ri)
  end.

(** lib.rs:722-761 [check]: depth-first search for references without definition; [d] bounds the
    nesting of references (every nested one is new in [seen]) *)
Fixpoint check_refs (cs : list (str * option drule)) (d : nat) : list nat -> mpat -> fres rerror (list nat) :=
  fix go (seen : list nat) (p : mpat) {struct p} : fres rerror (list nat) :=
    match p with
    | MChoice l | MInterleave l | MGroup l =>
        (fix all (seen : list nat) (l : list mpat) {struct l} : fres rerror (list nat) :=
           match l with [] => fok seen | x :: l' => fbind (go seen x) (fun seen' => all seen' l') end) seen l
    | MMixed q | MOptional q | MZeroOrMore q | MOneOrMore q | MAttribute _ q | MElement _ q | MList q => go seen q
    | MEmpty | MText | MNotAllowed | MValue _ => fok seen
    | MRef r =>
        if in_dec Nat.eq_dec r seen then fok seen
        else
          match nth r cs ([], None) with
          | (_, Some rule) =>
              match d with
              | 0 => OutOfFuel
              | S d => check_refs cs d (r :: seen) (rule_pattern rule)
              end
          | (n, None) => ferr (EUndefinedReference n)
          end
    | MData _ (Some e) => go seen e
    | MData _ None => fok seen
    end.

(** lib.rs:693-719 [Compiler::compile]: the start cell and the cells *)
Definition compile_grammar (d : nat) (name : path) : fres rerror (nat * cst) :=
  (do s <- get_schema name;
   do c <- new_root name;
   let (rp, ri) := nested d in
   do c <- compile_schema_with (compile_pattern rp ri) (compile_contents rp ri) c s;
   do u <- undefined_in (table_of c);
   match u with
   | Some n => cerr (EUndefinedReference n)
   | None =>
       do r <- get_ref_in (table_of c) (lit "start");
       match r with
       | None => cerr EStartRuleNotDefined
       | Some r => fun st =>
           match nth r (cells st) ([], None) with
           | (_, Some rule) => fbind (check_refs (cells st) (S (List.length (cells st))) [] (rule_pattern rule)) (fun _ => fok (r, st))
           | (_, None) => Panic PUnwrapNone
           end
       end
   end) empty_cst.
End Compiler.

(** What the validator is built from: the start pattern, and the definitions by cell number.  A cell
    without definition is unreachable once [check] has passed; it is given [notAllowed] here. *)
Definition cell_defs (st : cst) : list mpat :=
  map (fun c => match snd c with Some r => rule_pattern r | None => MNotAllowed end) (cells st).
