(** * WhereSpec: what the positions of a schema error should be the positions of.  Nothing here refers to the compiler. *)
From Coq Require Import String.
From Verif Require Import Base Datatype Facets Store Compile Syntax SchemaCompile Located Where.

(** The constructs of a schema file, and the parts of each *)
Inductive item : Type := IPat (p : lspat) | IContent (g : lgcontent) | IOver (i : licontent) | INc (n : lnc).
Definition opt_list {A B} (h : A -> B) (o : option A) : list B := match o with Some a => [h a] | None => [] end.
Definition parts (x : item) : list item :=
  match x with
  | IPat p =>
      match p with
      | LElement _ nc q | LAttribute _ nc q => [INc nc; IPat q]
      | LList q | LMixed q | LGroup q | LOptional q | LZeroOrMore q | LOneOrMore q => [IPat q]
      | LListPair a b | LInterleavePair a b | LChoicePair a b => [IPat a; IPat b]
      | LGrammar _ l => map IContent l
      | LData _ _ ex => opt_list IPat ex
      | LIdent _ _ | LParent _ _ | LExternal _ _ _ | LValue _ _ | LEmpty | LText | LNotAllowed => []
      end
  | IContent g =>
      match g with
      | LDefine _ _ _ p => [IPat p]
      | LDiv l => map IContent l
      | LInclude _ _ _ (Some l) => map IOver l
      | LInclude _ _ _ None | LAnnotation _ => []
      end
  | IOver i =>
      match i with
      | LIDefine _ _ _ p => [IPat p]
      | LIDiv l => map IOver l
      | LIAnnotation _ => []
      end
  | INc n =>
      match n with
      | LName _ _ => []
      | LNs _ _ ex | LAny ex => opt_list INc ex
      | LAlt a b => [INc a; INc b]
      | LParen a => [INc a]
      end
  end.
(** [x] is [y] or contains it, at any depth *)
Inductive within : item -> item -> Prop :=
| In_here x : within x x
| In_part x y z : within x y -> In z (parts y) -> within x z.
Definition tops (t : ltop) : list item := match t with LTPattern p => [IPat p] | LTGrammar l => map IContent l end.

Section Spec.
Variable O : oracles.
Variable C : coracles.
Variable fs : lfilesys.
Variable flen : path -> N.
Variable main : path.

(** the construct [x] is written in the file [f] *)
Definition written (f : path) (x : item) : Prop :=
  exists s t, fs f = inl s /\ In t (tops (ls_top s)) /\ within t x.

(** [x] of file [f] contains [x'] of file [f'], possibly through patterns named by [external] *)
Inductive leads (f : path) (x : item) : path -> item -> Prop :=
| Ld_here : leads f x f x
| Ld_part g y z : leads f x g y -> In z (parts y) -> leads f x g z
| Ld_external g sp h g' s q : leads f x g (IPat (LExternal sp h None)) -> resolve g (lit_value h) = Some g' ->
    fs g' = inl s -> ls_top s = LTPattern q -> leads f x g' (IPat q).

(** [n] is defined, with body [q], at [sp] of [f]: a definition of a grammar or an override *)
Definition definition_in (f : path) (sp : span) (n : str) (q : lspat) : Prop :=
  exists how, written f (IContent (LDefine sp n how q)) \/ written f (IOver (LIDefine sp n how q)).
Definition definition_at (a : pos) (n : str) : Prop := exists q, definition_in (fst a) (snd a) n q.
(** a file that is a pattern defines [start], with no position of its own *)
Definition implicit_start (a : pos) (n : str) : Prop :=
  n = lit "start" /\ snd a = (0, 0)%N /\ exists s p, fs (fst a) = inl s /\ ls_top s = LTPattern p.
Definition defined_at (a : pos) (n : str) : Prop := definition_at a n \/ implicit_start a n.
Definition reference_at (a : pos) (n : str) : Prop :=
  written (fst a) (IPat (LIdent (snd a) n)) \/ written (fst a) (IPat (LParent (snd a) n)).
(** the file [f'] is named, at [sp] of [f], by an include or an external *)
Definition names_file (f : path) (sp : span) (f' : path) : Prop :=
  exists h, resolve f (lit_value h) = Some f' /\
  ((exists inh ov, written f (IContent (LInclude sp h inh ov))) \/ written f (IPat (LExternal sp h None))).
(** reading [f] leads to reading [g] *)
Inductive reads (f : path) : path -> Prop :=
| Rd_here : reads f f
| Rd_more g sp h : reads f g -> names_file g sp h -> reads f h.
Definition prefix_at (a : pos) (p : str) : Prop :=
  (exists l, written (fst a) (INc (LName (NmC p l) (snd a)))) \/
  (exists ex, written (fst a) (INc (LNs (NsPrefix p) (snd a) ex))) \/
  (exists sp h i ov, p = ik_string i /\ written (fst a) (IContent (LInclude sp h (Some (snd a, i)) ov))).
(** in [f] there is a datatype name, of a value or of data *)
Definition datatype_in (f : path) (n : ldtname) : Prop :=
  (exists v, written f (IPat (LValue (Some n) v))) \/ (exists ps ex, written f (IPat (LData n ps ex))).
(** at [sp], [n] names the library or the prefix *)
Definition names_library (n : ldtname) (sp : span) : Prop := (exists p lsp l, n = LdC sp p lsp l) \/ (exists u lsp l, n = LdNs sp u lsp l).
(** at [sp], [n] has the name [l] of the type *)
Definition names_type (n : ldtname) (sp : span) (l : str) : Prop := (exists psp p, n = LdC psp p sp l) \/ (exists usp u, n = LdNs usp u sp l).
(** [datatype_says f e a]: what the datatype error [e] in [f], with position [a], says is so *)
Inductive datatype_says (f : path) : dt_error -> option span -> Prop :=
(** the library of a value is named there; that of data too, if it is named by its URI *)
| Dy_value_library n v u sp : written f (IPat (LValue (Some n) v)) -> names_library n sp -> datatype_says f (DUnsupportedLibrary u) (Some sp)
| Dy_data_library usp u lsp l ps ex : written f (IPat (LData (LdNs usp u lsp l) ps ex)) -> datatype_says f (DUnsupportedLibrary (lit_value u)) (Some usp)
(** the library of data is named by a prefix, but the position is the start of the file *)
| Dy_data_prefix psp p lsp l ps ex u : written f (IPat (LData (LdC psp p lsp l) ps ex)) -> datatype_says f (DUnsupportedLibrary u) (Some (0, 0)%N)
(** the type is named there *)
| Dy_unknown n sp l : datatype_in f n -> names_type n sp l -> datatype_says f (DNameUnknown l) (Some sp)
| Dy_unsupported n sp l ps ex : written f (IPat (LData n ps ex)) -> names_type n sp l -> datatype_says f (DUnsupportedDatatype l) (Some sp)
| Dy_invalid n sp l v : written f (IPat (LValue (Some n) v)) -> names_type n sp l -> datatype_says f DInvalidValue (Some sp)
(** the first of several parameters of a type that has none *)
| Dy_param n sp an k v ps ex : written f (IPat (LData n (Some ((sp, (an, k, v)) :: ps)) ex)) -> datatype_says f (DParamNotAllowed (ik_string k)) (Some sp)
(** the parameter there is at fault: the type with the parameters before it is compiled, with this one too there is that error *)
| Dy_facet n tsp u l ps1 sp p ps2 ex fe t : written f (IPat (LData n (Some (ps1 ++ (sp, p) :: ps2)) ex)) -> names_type n tsp l -> fe <> FConflict ->
    Facets.datatype_name O C (DnCName u l) (param_values (Some (map snd ps1))) = Ok (inl t) ->
    Facets.datatype_name O C (DnCName u l) (param_values (Some (map snd ps1 ++ [p]))) = Ok (inr (DFacet fe)) -> datatype_says f (DFacet fe) (Some sp)
(** two parameters in conflict are shown nowhere *)
| Dy_conflict n ps ex : written f (IPat (LData n ps ex)) -> datatype_says f (DFacet FConflict) None.

(** [says f e]: what the error [e], reported while the file [f] is read, says is so *)
Inductive says : path -> werror -> Prop :=
| Sy_file f n : fs f = inr n -> says f (WFile n)
(** the file named there is the one the rest of the error is about *)
| Sy_include f sp f' e : names_file f sp f' -> says f' e -> says f (WInclude (f, sp) e)
(** or the rest is about an override of that include *)
| Sy_override f sp h inh l e : written f (IContent (LInclude sp h inh (Some l))) -> says f e -> says f (WInclude (f, sp) e)
(** the second position is the definition being read; the first, which is called the duplicate, was read before *)
| Sy_duplicate f sp n a : defined_at a n -> defined_at (f, sp) n -> says f (WDuplicateDefinition n a (f, sp))
| Sy_mixes f sp n a : defined_at a n -> defined_at (f, sp) n -> says f (WMixesChoiceAndInterleave a (f, sp))
| Sy_prefix f sp p : prefix_at (f, sp) p -> says f (WUndefinedNamespacePrefix p (f, sp))
| Sy_datatype_prefix f sp p lsp l : datatype_in f (LdC sp p lsp l) -> says f (WUndefinedDatatypePrefix p (f, sp))
| Sy_datatype f e a : datatype_says f e a -> says f (WDatatype e (option_map (pair f) a))
| Sy_datatype_twice f s p u : fs f = inl s -> In (DDatatypes p u) (ls_decls s) -> says f (WDatatypePrefixAlreadyDefined p)
| Sy_start f sp l : written f (IPat (LGrammar sp l)) -> says f (WStartRuleNotDefined (f, sp))
| Sy_start_main : says main (WStartRuleNotDefined (main, (0, flen main)%N))
(** the offsets are those of the reference, but the file is the main file (which is long enough, or there is no error but
    a panic) *)
| Sy_no_parent f sp n : written f (IPat (LParent sp n)) -> (fst sp <= snd sp <= flen main)%N -> says f (WNoParentAvailable (main, sp))
(** the reference is in the body of the definition *)
| Sy_recursive f sp n dsp q : definition_in f dsp n q -> within (IPat q) (IPat (LIdent sp n)) ->
    says f (WRecursiveReference n (f, sp) (f, dsp))
(** for [parent], the offsets are those of the reference but the file is that of the definition *)
| Sy_recursive_parent f sp n g dsp q : definition_in g dsp n q -> written f (IPat (LParent sp n)) -> (fst sp <= snd sp <= flen g)%N ->
    says f (WRecursiveReference n (g, sp) (g, dsp))
| Sy_element f sp nc q g asp anc aq : written g (IPat (LAttribute asp anc aq)) -> leads g (IPat aq) f (IPat (LElement sp nc q)) ->
    says f (WElementAsChildOfAttribute (g, asp) (f, sp))
(** the file named is being read, or is included with overrides and we are in these *)
| Sy_recursive_include f sp f' : names_file f sp f' ->
    (reads f' f \/ exists g isp h inh l, written g (IContent (LInclude isp h inh (Some l))) /\ resolve g (lit_value h) = Some f' /\ reads g f) ->
    says f (WRecursiveInclude f' (f, sp))
| Sy_must_be_grammar f s p : fs f = inl s -> ls_top s = LTPattern p -> (forall sp l, p <> LGrammar sp l) ->
    says f (WIncludedFileMustBeGrammar (f, (0, 0)%N))
| Sy_override_missing f sp h inh l f' osp n how q : written f (IContent (LInclude sp h inh (Some l))) -> resolve f (lit_value h) = Some f' ->
    In (LIDefine osp n how q) l -> says f (WOverrideMissingFromInclude n (f, osp) (f', (0, flen f')%N))
(** the name is referred to somewhere, but the position is the start of the main file *)
| Sy_undefined_main n a : (reference_at a n \/ n = lit "start") -> says main (WUndefinedReference n (main, (0, 0)%N))
| Sy_undefined n a : reference_at a n -> says main (WUndefinedReference n a).
End Spec.

(** ** The labels of an error *)
(** what an error inside of includes is *)
Fixpoint core (e : werror) : werror := match e with WInclude _ e => core e | _ => e end.
(** the position lies in its file *)
Definition inside (flen : path -> N) (a : pos) : Prop := (fst (snd a) <= snd (snd a) <= flen (fst a))%N.
