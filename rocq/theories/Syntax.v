(** * Syntax: the abstract syntax of schemas both parsers produce.
    relaxng-syntax/src/types.rs:1-339.

    Simplifications: source spans are dropped; [Box] is dropped.  The name of a declaration prefix,
    of an NCName, of an [Identifier] and of a [Keyword] is its string. *)
From Verif Require Import Base.

(** types.rs:228-250 [Literal], a vector of segments, and its value [as_string_value] *)
Definition literal := list str.
Definition lit_value (l : literal) : str := concat l.

(** types.rs:185-212 [IdentifierOrKeyword] and its [Display] *)
Inductive id_or_kw : Type := IKId (s : str) | IKKw (s : str).
Definition ik_string (i : id_or_kw) : str := match i with IKId s | IKKw s => s end.

(** types.rs:272-290 [Name]; [NmNs] is [NamespacedName] *)
Inductive sname : Type :=
| NmId (i : id_or_kw)
| NmC (prefix local : str)
| NmNs (uri : literal) (local : str).

(** types.rs:262-270, 292-314 [NameClass], [NsName] with [NamespaceOrPrefix], [AnyName], [AltName],
    [ParenName] *)
Inductive nspref : Type := NsPrefix (p : str) | NsUri (u : literal).
Inductive snc : Type :=
| CName (n : sname)
| CNs (n : nspref) (except : option snc)
| CAny (except : option snc)
| CAlt (a b : snc)
| CParen (a : snc).

(** types.rs:316-324 [QName] inside types.rs:113-121 [DatatypeName] *)
Inductive sdtname : Type :=
| SdString | SdToken | SdC (prefix local : str) | SdNs (uri : literal) (local : str).

(** types.rs:326-361: annotations *)
Definition annot_attr := (sname * literal)%type.
Inductive annot : Type := Annot (n : sname) (atts : list annot_attr) (kids : list (annot + literal)).
Record initial := Initial { in_atts : list annot_attr; in_elems : list annot }.

(** types.rs:136-142 [Param] *)
Definition sparam := (option initial * id_or_kw * literal)%type.

(** types.rs:158-163 [AssignMethod] *)
Inductive method : Type := MAssign | MChoiceC | MInterleaveC.

(** types.rs:37-64 [Pattern], 144-183 [GrammarContent], [Define], [Include], [IncludeContent] *)
Inductive spat : Type :=
| SElement (nc : snc) (p : spat)
| SAttribute (nc : snc) (p : spat)
| SList (p : spat)
| SMixed (p : spat)
| SIdent (i : str)
| SParent (i : str)
| SEmpty | SText | SNotAllowed
| SExternal (href : literal) (inherit : option id_or_kw)
| SGrammar (l : list gcontent)
| SGroup (p : spat)
| SListPair (a b : spat)
| SInterleavePair (a b : spat)
| SChoicePair (a b : spat)
| SOptional (p : spat)
| SZeroOrMore (p : spat)
| SOneOrMore (p : spat)
| SValue (n : option sdtname) (v : literal)
| SData (n : sdtname) (ps : option (list sparam)) (ex : option spat)
with gcontent : Type :=
| GDefine (name : str) (how : method) (p : spat)
| GDiv (l : list gcontent)
| GInclude (href : literal) (inherit : option id_or_kw) (ov : option (list icontent))
| GAnnotation (a : annot)
with icontent : Type :=
| IDefine (name : str) (how : method) (p : spat)
| IDiv (l : list icontent)
| IAnnotation (a : annot).

(** types.rs:214-218 [NamespaceUriLiteral]; types.rs:5-35 [Schema], [Decl];
    types.rs:144-149 [PatternOrGrammar] *)
Inductive uri_lit : Type := UInherit | UUri (l : literal).
Inductive decl : Type :=
| DNamespace (prefix : str) (u : uri_lit)
| DDefault (prefix : option str) (u : uri_lit)
| DDatatypes (prefix : str) (u : literal).
Inductive top : Type := TPattern (p : spat) | TGrammar (l : list gcontent).
Record schema := Schema { s_decls : list decl; s_top : top }.

(** Induction over patterns, grammar contents and include contents together. *)
Section Ind.
Variable P : spat -> Prop.
Variable G : gcontent -> Prop.
Variable I : icontent -> Prop.
Hypothesis h_el : forall nc p, P p -> P (SElement nc p).
Hypothesis h_at : forall nc p, P p -> P (SAttribute nc p).
Hypothesis h_li : forall p, P p -> P (SList p).
Hypothesis h_mi : forall p, P p -> P (SMixed p).
Hypothesis h_id : forall i, P (SIdent i).
Hypothesis h_pa : forall i, P (SParent i).
Hypothesis h_em : P SEmpty.
Hypothesis h_te : P SText.
Hypothesis h_na : P SNotAllowed.
Hypothesis h_ex : forall h i, P (SExternal h i).
Hypothesis h_gr : forall l, Forall G l -> P (SGrammar l).
Hypothesis h_gp : forall p, P p -> P (SGroup p).
Hypothesis h_lp : forall a b, P a -> P b -> P (SListPair a b).
Hypothesis h_ip : forall a b, P a -> P b -> P (SInterleavePair a b).
Hypothesis h_cp : forall a b, P a -> P b -> P (SChoicePair a b).
Hypothesis h_op : forall p, P p -> P (SOptional p).
Hypothesis h_ze : forall p, P p -> P (SZeroOrMore p).
Hypothesis h_on : forall p, P p -> P (SOneOrMore p).
Hypothesis h_va : forall n v, P (SValue n v).
Hypothesis h_da : forall n ps ex, (match ex with Some e => P e | None => True end) -> P (SData n ps ex).
Hypothesis h_gd : forall n h p, P p -> G (GDefine n h p).
Hypothesis h_gv : forall l, Forall G l -> G (GDiv l).
Hypothesis h_gi : forall h i ov, (match ov with Some l => Forall I l | None => True end) -> G (GInclude h i ov).
Hypothesis h_ga : forall a, G (GAnnotation a).
Hypothesis h_if : forall n h p, P p -> I (IDefine n h p).
Hypothesis h_iv : forall l, Forall I l -> I (IDiv l).
Hypothesis h_ia : forall a, I (IAnnotation a).

Fixpoint spat_ind' (p : spat) : P p :=
  match p with
  | SElement nc p => h_el nc p (spat_ind' p)
  | SAttribute nc p => h_at nc p (spat_ind' p)
  | SList p => h_li p (spat_ind' p)
  | SMixed p => h_mi p (spat_ind' p)
  | SIdent i => h_id i
  | SParent i => h_pa i
  | SEmpty => h_em | SText => h_te | SNotAllowed => h_na
  | SExternal h i => h_ex h i
  | SGrammar l => h_gr l ((fix go l : Forall G l := match l with [] => Forall_nil _ | x :: l' => Forall_cons x (gcontent_ind' x) (go l') end) l)
  | SGroup p => h_gp p (spat_ind' p)
  | SListPair a b => h_lp a b (spat_ind' a) (spat_ind' b)
  | SInterleavePair a b => h_ip a b (spat_ind' a) (spat_ind' b)
  | SChoicePair a b => h_cp a b (spat_ind' a) (spat_ind' b)
  | SOptional p => h_op p (spat_ind' p)
  | SZeroOrMore p => h_ze p (spat_ind' p)
  | SOneOrMore p => h_on p (spat_ind' p)
  | SValue n v => h_va n v
  | SData n ps ex => h_da n ps ex (match ex with Some e => spat_ind' e | None => Logic.I end)
  end
with gcontent_ind' (g : gcontent) : G g :=
  match g with
  | GDefine n h p => h_gd n h p (spat_ind' p)
  | GDiv l => h_gv l ((fix go l : Forall G l := match l with [] => Forall_nil _ | x :: l' => Forall_cons x (gcontent_ind' x) (go l') end) l)
  | GInclude h i ov => h_gi h i ov
      (match ov with
       | Some l => (fix go l : Forall I l := match l with [] => Forall_nil _ | x :: l' => Forall_cons x (icontent_ind' x) (go l') end) l
       | None => Logic.I end)
  | GAnnotation a => h_ga a
  end
with icontent_ind' (i : icontent) : I i :=
  match i with
  | IDefine n h p => h_if n h p (spat_ind' p)
  | IDiv l => h_iv l ((fix go l : Forall I l := match l with [] => Forall_nil _ | x :: l' => Forall_cons x (icontent_ind' x) (go l') end) l)
  | IAnnotation a => h_ia a
  end.
End Ind.
