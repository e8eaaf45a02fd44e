(** * RngXml: what an XML schema document stands for.  A specification, from the RELAX NG
    specification (OASIS, 3 December 2001), sections 3 (full syntax) and 4.1-4.5, 4.8.

    It relates a document, seen as a tree, to the abstract schema of Syntax.v, whose meaning is
    that of SourceSpec.v.  Nothing here is taken from the parser but the types of trees
    ([xnod], [xatt]) and the two namespace names. *)
From Coq Require Import String.
From Verif Require Import Base DatatypeSpec Syntax.
From Verif Require Import XmlSyntax.

(** ** Strings (4.2) *)
Definition blank (s : str) : Prop := Forall (fun c => c = 32 \/ c = 9 \/ c = 10 \/ c = 13)%N s.
(** [s] is [t] between white space *)
Definition Padded (s t : str) : Prop := exists a b, s = a ++ t ++ b /\ blank a /\ blank b.
Definition Named (s t : str) : Prop := Padded s t /\ NCName t.

(** ** Attributes *)
Definition Has (atts : list xatt) (n : string) (v : str) : Prop := In (XAtt None (lit n) v) atts.
Definition Lacks (atts : list xatt) (n : string) : Prop := forall v, ~ Has atts n v.
(** apart from those of [names], an element has [ns], [datatypeLibrary] and foreign attributes (section 3) *)
Definition Only (atts : list xatt) (names : list string) : Prop :=
  forall a, In a atts -> xa_ns a <> Some rng_uri /\ (xa_ns a = None -> exists n, In n (names ++ ["ns"; "datatypeLibrary"]%string) /\ xa_name a = lit n).
(** the value in force: on the element or the nearest ancestor which has the attribute; "" otherwise (4.3, 4.8) *)
Inductive InForce (n : string) : list (list xatt) -> str -> Prop :=
| If_none : InForce n [] []
| If_here atts up v : Has atts n v -> InForce n (atts :: up) v
| If_above atts up v : Lacks atts n -> InForce n up v -> InForce n (atts :: up) v.

(** ** Children (4.1): what is left without foreign elements, comments, instructions and white space *)
Definition Rng (n : xnod) (nm : string) (atts : list xatt) (sc : list (option str * str)) (kids : list xnod) : Prop :=
  n = XElt (Some rng_uri) (lit nm) atts sc kids.
Inductive Elements : list xnod -> list xnod -> Prop :=
| El_nil : Elements [] []
| El_foreign ns nm a sc k ks l : ns <> Some rng_uri -> Elements ks l -> Elements (XElt ns nm a sc k :: ks) l
| El_blank s ks l : blank s -> Elements ks l -> Elements (XTxt s :: ks) l
| El_comment s ks l : Elements ks l -> Elements (XCom s :: ks) l
| El_pi ks l : Elements ks l -> Elements (XPin :: ks) l
| El_rng nm a sc k ks l : Elements ks l -> Elements (XElt (Some rng_uri) nm a sc k :: ks) (XElt (Some rng_uri) nm a sc k :: l).
(** the string in an element without element children *)
Inductive StringIn : list xnod -> str -> Prop :=
| St_nil : StringIn [] []
| St_text s ks t : StringIn ks t -> StringIn (XTxt s :: ks) (s ++ t)
| St_comment s ks t : StringIn ks t -> StringIn (XCom s :: ks) t
| St_pi ks t : StringIn ks t -> StringIn (XPin :: ks) t.
(** more than two, or one, are joined by twos (4.12) *)
Inductive Chain {A} (op : A -> A -> A) : list A -> A -> Prop :=
| Ch_one x : Chain op [x] x
| Ch_more l x y : Chain op l x -> Chain op (l ++ [y]) (op x y).

(** ** Names (4.8-4.10): a QName without a prefix is in the namespace of [ns]; with one, that of the prefix *)
Inductive QName (sc : list (option str * str)) (ns : str) : str -> sname -> Prop :=
| Q_plain s l : Named s l -> QName sc ns s (NmNs [ns] l)
| Q_prefix s p l u : Padded s (p ++ lit ":" ++ l) -> NCName p -> NCName l ->
    (p = lit "xml" /\ u = xml_ns \/ p <> lit "xml" /\ In (Some p, u) sc) -> QName sc ns s (NmNs [u] l).

Section Schemas.
(** what a datatypeLibrary attribute may be, besides "" (4.3: a URI without fragment) *)
Variable U : str -> bool.
Definition LibOk (atts : list xatt) : Prop := forall v, Has atts "datatypeLibrary" v -> v = [] \/ U v = true.

(** ** Name classes.  An <except> of <anyName> has no <anyName>, one of <nsName> no <nsName> either (4.16) *)
Inductive place : Type := Outside | InAnyName | InNsName.
Definition ups := list (list xatt).
Inductive RN : ups -> place -> xnod -> snc -> Prop :=
| RN_name up w n atts sc kids s ns q : Rng n "name" atts sc kids -> Only atts [] -> LibOk atts -> StringIn kids s -> InForce "ns" (atts :: up) ns ->
    QName sc ns s q -> RN up w n (CName q)
| RN_any up n atts sc kids e : Rng n "anyName" atts sc kids -> Only atts [] -> LibOk atts -> RE InAnyName (atts :: up) kids e -> RN up Outside n (CAny e)
| RN_ns up w n atts sc kids ns e : Rng n "nsName" atts sc kids -> Only atts [] -> LibOk atts -> w <> InNsName -> InForce "ns" (atts :: up) ns ->
    RE InNsName (atts :: up) kids e -> RN up w n (CNs (NsUri [ns]) e)
| RN_choice up w n atts sc kids ks cs c : Rng n "choice" atts sc kids -> Only atts [] -> LibOk atts -> Elements kids ks ->
    Forall2 (RN (atts :: up) w) ks cs -> Chain CAlt cs c -> RN up w n c
with RE : place -> ups -> list xnod -> option snc -> Prop :=
| RE_none w up kids : Elements kids [] -> RE w up kids None
| RE_some w up kids n atts sc ek ks cs c : Elements kids [n] -> Rng n "except" atts sc ek -> Only atts [] -> LibOk atts -> Elements ek ks ->
    Forall2 (RN (atts :: up) w) ks cs -> Chain CAlt cs c -> RE w up kids (Some c).
(** the names an attribute must not have (4.16) *)
Definition xmlns_uri : str := lit "http://www.w3.org/2000/xmlns".
Fixpoint no_xmlns (c : snc) : Prop :=
  match c with
  | CName (NmNs u l) => u <> [xmlns_uri] /\ ~ (u = [[]] /\ l = lit "xmlns")
  | CName _ => True
  | CNs n e => n <> NsUri [xmlns_uri] /\ match e with Some c => no_xmlns c | None => True end
  | CAny e => match e with Some c => no_xmlns c | None => True end
  | CAlt a b => no_xmlns a /\ no_xmlns b
  | CParen a => no_xmlns a
  end.

(** ** Resolving a reference (4.5; RFC 3986 5.2.3, "merge paths").
    References and bases are paths here, without scheme, authority, query or fragment, and not empty;
    ".." and "." are left in place: the result names the file. *)
Definition slashless (s : str) : Prop := ~ In 47%N s.
Inductive Merge : str -> str -> str -> Prop :=
| Mg_absolute b r : Merge b (lit "/" ++ r) (lit "/" ++ r)
| Mg_dir d f r : r <> [] -> hd_error r <> Some 47%N -> slashless f -> Merge (d ++ lit "/" ++ f) r (d ++ lit "/" ++ r)
| Mg_file f r : r <> [] -> hd_error r <> Some 47%N -> slashless f -> Merge f r r.
(** the xml:base attributes apply from the outermost in *)
Definition HasBase (atts : list xatt) (v : str) : Prop := In (XAtt (Some xml_ns) (lit "base") v) atts.
Inductive Base : ups -> str -> Prop :=
| Ba_none : Base [] []
| Ba_same atts up b : (forall v, ~ HasBase atts v) -> Base up b -> Base (atts :: up) b
| Ba_here atts up b v r : HasBase atts v -> Base up b -> Merge b v r -> Base (atts :: up) r.
Definition Resolved (up : ups) (href r : str) : Prop := exists b, Base up b /\ Merge b href r.

(** ** Patterns *)
Definition Method (atts : list xatt) (h : method) : Prop :=
  Lacks atts "combine" /\ h = MAssign \/
  exists v, Has atts "combine" v /\ (Padded v (lit "choice") /\ h = MChoiceC \/ Padded v (lit "interleave") /\ h = MInterleaveC).
(** the elements with one or more patterns as content and what they make of them *)
Inductive Compound : string -> (spat -> spat -> spat) -> (spat -> spat) -> Prop :=
| Cm_group : Compound "group" SListPair SGroup
| Cm_interleave : Compound "interleave" SInterleavePair (fun p => p)
| Cm_choice : Compound "choice" SChoicePair (fun p => p)
| Cm_optional : Compound "optional" SListPair SOptional
| Cm_zeroOrMore : Compound "zeroOrMore" SListPair SZeroOrMore
| Cm_oneOrMore : Compound "oneOrMore" SListPair SOneOrMore
| Cm_list : Compound "list" SListPair SList
| Cm_mixed : Compound "mixed" SListPair SMixed.
Inductive Simple : string -> spat -> Prop :=
| Sm_empty : Simple "empty" SEmpty
| Sm_text : Simple "text" SText
| Sm_notAllowed : Simple "notAllowed" SNotAllowed.
Inductive Reference : string -> (str -> spat) -> Prop :=
| Rf_ref : Reference "ref" SIdent
| Rf_parentRef : Reference "parentRef" SParent.
(** a type of <data> *)
Inductive DataType : str -> str -> sdtname -> Prop :=
| Dt_token : DataType [] (lit "token") SdToken
| Dt_other lib n : ~ (lib = [] /\ n = lit "token") -> DataType lib n (SdNs [lib] n).
Inductive Param : xnod -> sparam -> Prop :=
| Pm n atts sc kids v name s : Rng n "param" atts sc kids -> Only atts ["name"%string] -> LibOk atts -> Has atts "name" v -> Named v name -> StringIn kids s ->
    Param n (None, IKId name, [s]).

Inductive RP : ups -> xnod -> spat -> Prop :=
(** <element name="..."> *)
| RP_element up n atts sc kids v ns q ks ps p : Rng n "element" atts sc kids -> Only atts ["name"%string] -> LibOk atts -> Has atts "name" v ->
    InForce "ns" (atts :: up) ns -> QName sc ns v q -> Elements kids ks -> Forall2 (RP (atts :: up)) ks ps -> Chain SListPair ps p ->
    RP up n (SElement (CName q) p)
| RP_element_class up n atts sc kids k ks c ps p : Rng n "element" atts sc kids -> Only atts [] -> LibOk atts ->
    Elements kids (k :: ks) -> RN (atts :: up) Outside k c -> Forall2 (RP (atts :: up)) ks ps -> Chain SListPair ps p ->
    RP up n (SElement c p)
(** <attribute>: without an own ns attribute the name is in no namespace (4.8); without content it is text (4.12) *)
| RP_attribute up n atts sc kids v ns q ks ps p : Rng n "attribute" atts sc kids -> Only atts ["name"%string] -> LibOk atts -> Has atts "name" v ->
    (Has atts "ns" ns \/ Lacks atts "ns" /\ ns = []) -> QName sc ns v q -> no_xmlns (CName q) -> Elements kids ks -> Forall2 (RP (atts :: up)) ks ps ->
    (ps = [] /\ p = SText \/ ps = [p]) -> RP up n (SAttribute (CName q) p)
| RP_attribute_class up n atts sc kids k ks c ps p : Rng n "attribute" atts sc kids -> Only atts [] -> LibOk atts ->
    Elements kids (k :: ks) -> RN (atts :: up) Outside k c -> no_xmlns c -> Forall2 (RP (atts :: up)) ks ps -> (ps = [] /\ p = SText \/ ps = [p]) ->
    RP up n (SAttribute c p)
| RP_compound up n nm op f atts sc kids ks ps p : Compound nm op f -> Rng n nm atts sc kids -> Only atts [] -> LibOk atts ->
    Elements kids ks -> Forall2 (RP (atts :: up)) ks ps -> Chain op ps p -> RP up n (f p)
| RP_simple up n nm p atts sc kids : Simple nm p -> Rng n nm atts sc kids -> Only atts [] -> LibOk atts -> Elements kids [] -> RP up n p
| RP_ref up n nm f atts sc kids v i : Reference nm f -> Rng n nm atts sc kids -> Only atts ["name"%string] -> LibOk atts -> Has atts "name" v -> Named v i ->
    Elements kids [] -> RP up n (f i)
| RP_value_token up n atts sc kids s : Rng n "value" atts sc kids -> Only atts [] -> LibOk atts -> StringIn kids s -> RP up n (SValue None [s])
| RP_value up n atts sc kids s v ty lib : Rng n "value" atts sc kids -> Only atts ["type"%string] -> LibOk atts -> Has atts "type" v -> Named v ty ->
    InForce "datatypeLibrary" (atts :: up) lib -> StringIn kids s -> RP up n (SValue (Some (SdNs [lib] ty)) [s])
| RP_data up n atts sc kids v ty lib t ks ps : Rng n "data" atts sc kids -> Only atts ["type"%string] -> LibOk atts -> Has atts "type" v -> Named v ty ->
    InForce "datatypeLibrary" (atts :: up) lib -> DataType lib ty t -> Elements kids ks -> Forall2 Param ks ps -> RP up n (SData t (Some ps) None)
| RP_data_except up n atts sc kids v ty lib t ks ps e ea es ek eks eps p : Rng n "data" atts sc kids -> Only atts ["type"%string] -> LibOk atts -> Has atts "type" v -> Named v ty ->
    InForce "datatypeLibrary" (atts :: up) lib -> DataType lib ty t -> Elements kids (ks ++ [e]) -> Forall2 Param ks ps ->
    Rng e "except" ea es ek -> Only ea [] -> LibOk ea -> Elements ek eks -> Forall2 (RP (ea :: atts :: up)) eks eps -> Chain SChoicePair eps p ->
    RP up n (SData t (Some ps) (Some p))
| RP_external up n atts sc kids h r : Rng n "externalRef" atts sc kids -> Only atts ["href"%string] -> LibOk atts -> Has atts "href" h -> Resolved (atts :: up) h r ->
    Elements kids [] -> RP up n (SExternal [r] None)
| RP_grammar up n atts sc kids ks gs : Rng n "grammar" atts sc kids -> Only atts [] -> LibOk atts -> Elements kids ks -> Forall2 (RG (atts :: up)) ks gs ->
    RP up n (SGrammar gs)
(** what a grammar contains *)
with RG : ups -> xnod -> gcontent -> Prop :=
| RG_define up n name h p : RD up n name h p -> RG up n (GDefine name h p)
| RG_div up n atts sc kids ks gs : Rng n "div" atts sc kids -> Only atts [] -> LibOk atts -> Elements kids ks -> Forall2 (RG (atts :: up)) ks gs -> RG up n (GDiv gs)
| RG_include up n atts sc kids h r ks is : Rng n "include" atts sc kids -> Only atts ["href"%string] -> LibOk atts -> Has atts "href" h -> Resolved (atts :: up) h r ->
    Elements kids ks -> Forall2 (RI (atts :: up)) ks is -> RG up n (GInclude [r] None (Some is))
(** what an include contains *)
with RI : ups -> xnod -> icontent -> Prop :=
| RI_define up n name h p : RD up n name h p -> RI up n (IDefine name h p)
| RI_div up n atts sc kids ks gs : Rng n "div" atts sc kids -> Only atts [] -> LibOk atts -> Elements kids ks -> Forall2 (RI (atts :: up)) ks gs -> RI up n (IDiv gs)
(** <start>, a definition of "start", and <define> *)
with RD : ups -> xnod -> str -> method -> spat -> Prop :=
| RD_start up n atts sc kids h k p : Rng n "start" atts sc kids -> Only atts ["combine"%string] -> LibOk atts -> Method atts h -> Elements kids [k] -> RP (atts :: up) k p ->
    RD up n (lit "start") h p
| RD_define up n atts sc kids h v name ks ps p : Rng n "define" atts sc kids -> Only atts ["name"; "combine"]%string -> LibOk atts -> Method atts h -> Has atts "name" v -> Named v name ->
    Elements kids ks -> Forall2 (RP (atts :: up)) ks ps -> Chain SListPair ps p -> RD up n name h p.

(** ** Documents *)
Inductive Stands : xnod -> schema -> Prop :=
| Sd_grammar n atts sc kids gs : Rng n "grammar" atts sc kids -> RP [] n (SGrammar gs) -> Stands n (Schema [] (TGrammar gs))
| Sd_pattern n p : (forall atts sc kids, ~ Rng n "grammar" atts sc kids) -> RP [] n p -> Stands n (Schema [] (TPattern p)).
End Schemas.
