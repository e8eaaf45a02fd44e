(** * CompactText: the texts of a schema in the compact syntax.

    A specification of the RELAX NG compact syntax as relations between abstract syntax and text,
    written from the grammar of
    https://www.oasis-open.org/committees/relax-ng/compact-20021121.html (quoted in the comments of
    relaxng-syntax/src/compact.rs) and independent of the parser: it says which texts denote a given
    schema, with every layout of white space and comments, every way of quoting a literal, and
    annotations.  No parsing function is mentioned.

    Restrictions of this relation with respect to that grammar, each of them a limitation of the
    parser shown by a counterexample in RefutedCompact.v:
    - a comment ends with a line ending (a comment closed by the end of the text is not allowed);
    - a name used as a reference, or as a prefix of a datatype name, does not begin with [string] or
      [token] ([no_type_keyword]);
    - a quoted name is a backslash followed by a keyword and denotes that text, backslash included;
    - white space separates declarations and grammar contents, and follows [namespace] in
      [default namespace];
    - an infix operator groups to the right, and the exception of a datatype or of a name class
      extends as far as possible;
    - grammar contents carry no initial annotation; name classes carry follow annotations only
      together with an initial one; a schema which is a pattern does not begin with [element] or
      [attribute] followed by an annotation. *)
From Coq Require Import String.
From Verif Require Import Base Syntax.

(** ** Characters and names *)
Definition within (l : list (N * N)) (c : N) : Prop := Exists (fun '(a, b) => (a <= c <= b)%N) l.
(** Namespaces in XML, NCName *)
Definition NameStart : N -> Prop := within
  [(65, 90); (95, 95); (97, 122); (0xC0, 0xD6); (0xD8, 0xF6); (0xF8, 0x2FF); (0x370, 0x37D);
   (0x37F, 0x1FFF); (0x200C, 0x200D); (0x2070, 0x218F); (0x2C00, 0x2FEF); (0x3001, 0xD7FF);
   (0xF900, 0xFDCF); (0xFDF0, 0xFFFD); (0x10000, 0xEFFFF)]%N.
Definition NameChar (c : N) : Prop :=
  NameStart c \/ within [(45, 45); (46, 46); (48, 57); (0xB7, 0xB7); (0x300, 0x36F); (0x203F, 0x2040)]%N c.
Definition NCName (s : str) : Prop := exists c t, s = c :: t /\ NameStart c /\ Forall NameChar t.
Definition Keywords : list str :=
  map lit ["attribute"; "default"; "datatypes"; "div"; "element"; "empty"; "external"; "grammar";
           "include"; "inherit"; "list"; "mixed"; "namespace"; "notAllowed"; "parent"; "start";
           "string"; "text"; "token"]%string.
(** identifier ::= (NCName - keyword) | quotedIdentifier *)
Definition Ident (s : str) : Prop :=
  (NCName s /\ ~ In s Keywords) \/ exists k, In k Keywords /\ s = 92%N :: k.
Definition begins (k s : str) : Prop := exists t, s = k ++ t.
Definition no_type_keyword (s : str) : Prop := ~ begins (lit "string") s /\ ~ begins (lit "token") s.
(** identifierOrKeyword *)
Inductive IdKw : id_or_kw -> str -> Prop :=
| IK_id s : Ident s -> IdKw (IKId s) s
| IK_kw s : In s Keywords -> IdKw (IKKw s) s.

(** ** White space and comments *)
Inductive Gap : str -> Prop :=
| Gap_nil : Gap []
| Gap_space c g : In c [32; 9; 13; 10]%N -> Gap g -> Gap (c :: g)
| Gap_comment body eol g :
    Forall (fun c => c <> 10 /\ c <> 13)%N body -> eol = [10%N] \/ eol = [13%N; 10%N] -> Gap g ->
    Gap (lit "#" ++ body ++ eol ++ g).
Definition Gap1 (g : str) : Prop := Gap g /\ g <> [].

(** ** Literals *)
(** the body of a triple-quoted segment: ([q] [q] (Char - q))* *)
Inductive Body3 (q : N) : str -> Prop :=
| B3_nil : Body3 q []
| B3_cons k c b : k <= 2 -> c <> q -> Body3 q b -> Body3 q (repeat q k ++ c :: b).
Inductive Segment : str -> str -> Prop :=
| Seg_single q b : q = 34%N \/ q = 39%N -> Forall (fun c => c <> q /\ c <> 10%N) b -> Segment b (q :: b ++ [q])
| Seg_triple q b : q = 34%N \/ q = 39%N -> Body3 q b -> Segment b ([q; q; q] ++ b ++ [q; q; q]).
(** literal ::= literalSegment ("~" literalSegment)* *)
Inductive Lit : literal -> str -> Prop :=
| Lit_one b s : Segment b s -> Lit [b] s
| Lit_cons b s g1 g2 l t : Segment b s -> Gap g1 -> Gap g2 -> Lit l t -> Lit (b :: l) (s ++ g1 ++ lit "~" ++ g2 ++ t).

(** white space separated sequences *)
Inductive Seq {A} (X : A -> str -> Prop) : list A -> str -> Prop :=
| Seq_nil : Seq X [] []
| Seq_one x s : X x s -> Seq X [x] s
| Seq_cons x s g l t : X x s -> Gap1 g -> l <> [] -> Seq X l t -> Seq X (x :: l) (s ++ g ++ t).

(** ** Names, annotations *)
Inductive Name : sname -> str -> Prop :=
| Nm_id i s : IdKw i s -> Name (NmId i) s
| Nm_c p l : NCName p -> NCName l -> Name (NmC p l) (p ++ lit ":" ++ l).
Inductive AnnAttr : annot_attr -> str -> Prop :=
| AA n s g1 g2 l t : Name n s -> Gap g1 -> Gap g2 -> Lit l t -> AnnAttr (n, l) (s ++ g1 ++ lit "=" ++ g2 ++ t).
(** ** The two relations.
    [strict] texts are all read (CompactReadTop.v); everything read is a [lax] text
    (CompactSound.v).  They differ only where [lax] is mentioned below. *)
Class mode : Type := Mode { lax : Prop }.
Definition strict_mode : mode := Mode False.
Definition lax_mode : mode := Mode True.
Section Texts.
Context {M : mode}.

(** annotationElement ::= name "[" annotationAttributes (annotationElement | literal)* "]" *)
Inductive AnnElem : annot -> str -> Prop :=
| AE n s g1 g2 atts t1 g3 kids t2 g4 :
    Name n s -> Gap g1 -> Gap g2 -> Seq AnnAttr atts t1 -> Gap g3 ->
    (atts <> [] -> kids <> [] -> lax \/ g3 <> []) ->
    Seq AnnKid kids t2 -> Gap g4 ->
    AnnElem (Annot n atts kids) (s ++ g1 ++ lit "[" ++ g2 ++ t1 ++ g3 ++ t2 ++ g4 ++ lit "]")
with AnnKid : annot + literal -> str -> Prop :=
| AK_elem a s : AnnElem a s -> AnnKid (inl a) s
| AK_lit l s : Lit l s -> AnnKid (inr l) s.
Inductive Initial_ : initial -> str -> Prop :=
| In_ann g1 atts t1 g2 els t2 g3 :
    Gap g1 -> Seq AnnAttr atts t1 -> Gap g2 -> (atts <> [] -> els <> [] -> lax \/ g2 <> []) -> Seq AnnElem els t2 -> Gap g3 ->
    Initial_ (Initial atts els) (lit "[" ++ g1 ++ t1 ++ g2 ++ t2 ++ g3 ++ lit "]").
(** an optional initial annotation, and the gap after it *)
Inductive Ann : option initial -> str -> Prop :=
| Ann_none : Ann None []
| Ann_some i s g : Initial_ i s -> Gap g -> Ann (Some i) (s ++ g).
(** follow annotations: (">>" annotationElement)* *)
Inductive Follows : str -> Prop :=
| Fo_nil : Follows []
| Fo_cons g1 g2 a s t : Gap g1 -> Gap g2 -> AnnElem a s -> Follows t -> Follows (g1 ++ lit ">>" ++ g2 ++ s ++ t).

(** ** Name classes *)
Inductive Nc : snc -> str -> Prop :=
| Nc_prim i an a s f : Ann i an -> NcPrim a s -> Follows f -> (i = None -> f = []) -> Nc a (an ++ s ++ f)
| Nc_ns_except i an p g1 g2 e s :
    Ann i an -> NCName p -> Gap g1 -> Gap g2 -> Nc e s ->
    Nc (CNs (NsPrefix p) (Some e)) (an ++ p ++ lit ":*" ++ g1 ++ lit "-" ++ g2 ++ s)
| Nc_any_except i an g1 g2 e s :
    Ann i an -> Gap g1 -> Gap g2 -> Nc e s -> Nc (CAny (Some e)) (an ++ lit "*" ++ g1 ++ lit "-" ++ g2 ++ s)
| Nc_alt i an a s f g1 g2 b t :
    Ann i an -> NcPrim a s -> Follows f -> (i = None -> f = []) -> Gap g1 -> Gap g2 -> Nc b t ->
    Nc (CAlt a b) (an ++ s ++ f ++ g1 ++ lit "|" ++ g2 ++ t)
with NcPrim : snc -> str -> Prop :=
| Np_name n s : Name n s -> NcPrim (CName n) s
| Np_ns p : NCName p -> NcPrim (CNs (NsPrefix p) None) (p ++ lit ":*")
| Np_any : NcPrim (CAny None) (lit "*")
| Np_paren g1 a s g2 : Gap g1 -> Nc a s -> Gap g2 -> NcPrim (CParen a) (lit "(" ++ g1 ++ s ++ g2 ++ lit ")")
(* an exception followed by annotations or a choice *)
| Np_ns_except p g1 g2 e s : lax -> NCName p -> Gap g1 -> Gap g2 -> Nc e s ->
    NcPrim (CNs (NsPrefix p) (Some e)) (p ++ lit ":*" ++ g1 ++ lit "-" ++ g2 ++ s)
| Np_any_except g1 g2 e s : lax -> Gap g1 -> Gap g2 -> Nc e s -> NcPrim (CAny (Some e)) (lit "*" ++ g1 ++ lit "-" ++ g2 ++ s).

(** ** Patterns *)
Inductive DtName : sdtname -> str -> Prop :=
| Dn_string : DtName SdString (lit "string")
| Dn_token : DtName SdToken (lit "token")
| Dn_c p l : NCName p -> no_type_keyword p -> NCName l -> DtName (SdC p l) (p ++ lit ":" ++ l).
Inductive Param : sparam -> str -> Prop :=
| Pm i an g0 n s g1 g2 l t :
    Ann i an -> Gap g0 -> lax \/ g0 = [] -> IdKw n s -> Gap g1 -> Gap g2 -> Lit l t ->
    Param (i, n, l) (an ++ g0 ++ s ++ g1 ++ lit "=" ++ g2 ++ t).
Inductive Params : option (list sparam) -> str -> Prop :=
| Ps_none : Params None []
| Ps_some g1 g2 l s g3 : Gap g1 -> Gap g2 -> Seq Param l s -> Gap g3 -> Params (Some l) (g1 ++ lit "{" ++ g2 ++ s ++ g3 ++ lit "}").
(** ["inherit" "=" identifierOrKeyword] *)
Inductive Inherit : option id_or_kw -> str -> Prop :=
| Ih_none : Inherit None []
| Ih_some g0 g1 g2 i s : Gap1 g0 -> Gap g1 -> Gap g2 -> IdKw i s -> Inherit (Some i) (g0 ++ lit "inherit" ++ g1 ++ lit "=" ++ g2 ++ s).
Inductive Method : method -> str -> Prop :=
| Me_assign : Method MAssign (lit "=")
| Me_choice : Method MChoiceC (lit "|=")
| Me_interleave : Method MInterleaveC (lit "&=").
Inductive InfixOp : (spat -> spat -> spat) -> str -> Prop :=
| Io_group : InfixOp SListPair (lit ",")
| Io_interleave : InfixOp SInterleavePair (lit "&")
| Io_choice : InfixOp SChoicePair (lit "|").
Inductive PostfixOp : (spat -> spat) -> str -> Prop :=
| Po_opt : PostfixOp SOptional (lit "?")
| Po_zero : PostfixOp SZeroOrMore (lit "*")
| Po_one : PostfixOp SOneOrMore (lit "+").
(** [Postfixes p q s]: the postfix operators [s] turn the pattern [p] into [q] *)
Inductive Postfixes : spat -> spat -> str -> Prop :=
| Pf_nil p : Postfixes p p []
| Pf_cons p q c op g s : PostfixOp c op -> Gap g -> Postfixes (c p) q s -> Postfixes p q (g ++ op ++ s).
Inductive NamedKw : (snc -> spat -> spat) -> str -> Prop :=
| Nk_element : NamedKw SElement (lit "element")
| Nk_attribute : NamedKw SAttribute (lit "attribute").
Inductive BracedKw : (spat -> spat) -> str -> Prop :=
| Bk_list : BracedKw SList (lit "list")
| Bk_mixed : BracedKw SMixed (lit "mixed").
Inductive PlainKw : spat -> str -> Prop :=
| Pk_empty : PlainKw SEmpty (lit "empty")
| Pk_text : PlainKw SText (lit "text")
| Pk_notAllowed : PlainKw SNotAllowed (lit "notAllowed").

Inductive Pat : spat -> str -> Prop :=
| Pt_postfix i an p s f q o : Ann i an -> Prim p s -> Follows f -> Postfixes p q o -> Pat q (an ++ s ++ f ++ o)
| Pt_infix i an p s f q o g1 g2 c op r t :
    Ann i an -> Prim p s -> Follows f -> Postfixes p q o -> Gap g1 -> InfixOp c op -> Gap g2 -> Pat r t ->
    Pat (c q r) (an ++ s ++ f ++ o ++ g1 ++ op ++ g2 ++ t)
| Pt_except i an d s ps t g1 g2 e u :
    Ann i an -> DtName d s -> Params ps t -> Gap g1 -> (ps = None -> lax \/ g1 <> []) -> Gap g2 -> Pat e u ->
    Pat (SData d ps (Some e)) (an ++ s ++ t ++ g1 ++ lit "-" ++ g2 ++ u)
with Prim : spat -> str -> Prop :=
| Pr_named c k nc g1 s g2 g3 p t g4 :
    NamedKw c k -> Gap1 g1 -> Nc nc s -> Gap g2 -> Gap g3 -> Pat p t -> Gap g4 ->
    Prim (c nc p) (k ++ g1 ++ s ++ g2 ++ lit "{" ++ g3 ++ t ++ g4 ++ lit "}")
| Pr_braced c k g1 g2 p s g3 :
    BracedKw c k -> Gap g1 -> Gap g2 -> Pat p s -> Gap g3 ->
    Prim (c p) (k ++ g1 ++ lit "{" ++ g2 ++ s ++ g3 ++ lit "}")
| Pr_value_plain g l s : Gap g -> lax \/ g = [] -> Lit l s -> Prim (SValue None l) (g ++ s)
| Pr_value d s g l t : DtName d s -> Gap g -> Lit l t -> Prim (SValue (Some d) l) (s ++ g ++ t)
| Pr_data d s ps t : DtName d s -> Params ps t -> Prim (SData d ps None) (s ++ t)
| Pr_ident i : Ident i -> no_type_keyword i -> Prim (SIdent i) i
| Pr_parent g i : Gap1 g -> Ident i -> Prim (SParent i) (lit "parent" ++ g ++ i)
| Pr_plain p k : PlainKw p k -> Prim p k
| Pr_external g l s i t : Gap1 g -> Lit l s -> Inherit i t -> Prim (SExternal l i) (lit "external" ++ g ++ s ++ t)
| Pr_grammar g1 g2 l s g3 : Gap g1 -> Gap g2 -> Seq GItem l s -> Gap g3 ->
    Prim (SGrammar l) (lit "grammar" ++ g1 ++ lit "{" ++ g2 ++ s ++ g3 ++ lit "}")
| Pr_group g1 p s g2 : Gap g1 -> Pat p s -> Gap g2 -> Prim (SGroup p) (lit "(" ++ g1 ++ s ++ g2 ++ lit ")")
(* an exception followed by annotations or operators *)
| Pr_except d s ps t g1 g2 e u : lax -> DtName d s -> Params ps t -> Gap g1 -> Gap g2 -> Pat e u ->
    Prim (SData d ps (Some e)) (s ++ t ++ g1 ++ lit "-" ++ g2 ++ u)
with GItem : gcontent -> str -> Prop :=
| Gi_start h m g1 g2 p s : Gap g1 -> Method h m -> Gap g2 -> Pat p s ->
    GItem (GDefine (lit "start") h p) (lit "start" ++ g1 ++ m ++ g2 ++ s)
| Gi_define i h m g1 g2 p s : Ident i -> Gap g1 -> Method h m -> Gap g2 -> Pat p s ->
    GItem (GDefine i h p) (i ++ g1 ++ m ++ g2 ++ s)
| Gi_div g1 g2 l s g3 : Gap g1 -> Gap g2 -> Seq GItem l s -> Gap g3 ->
    GItem (GDiv l) (lit "div" ++ g1 ++ lit "{" ++ g2 ++ s ++ g3 ++ lit "}")
| Gi_include g l s i t : Gap1 g -> Lit l s -> Inherit i t ->
    GItem (GInclude l i None) (lit "include" ++ g ++ s ++ t)
| Gi_include_over g l s i t g1 g2 ov u g3 : Gap1 g -> Lit l s -> Inherit i t -> Gap g1 -> Gap g2 -> Seq IItem ov u -> Gap g3 ->
    GItem (GInclude l i (Some ov)) (lit "include" ++ g ++ s ++ t ++ g1 ++ lit "{" ++ g2 ++ u ++ g3 ++ lit "}")
| Gi_annotation a s : AnnElem a s -> GItem (GAnnotation a) s
with IItem : icontent -> str -> Prop :=
| Ii_start i an h m g1 g2 p s : Ann i an -> Gap g1 -> Method h m -> Gap g2 -> Pat p s ->
    IItem (IDefine (lit "start") h p) (an ++ lit "start" ++ g1 ++ m ++ g2 ++ s)
| Ii_define i an x h m g1 g2 p s : Ann i an -> Ident x -> Gap g1 -> Method h m -> Gap g2 -> Pat p s ->
    IItem (IDefine x h p) (an ++ x ++ g1 ++ m ++ g2 ++ s)
| Ii_div i an g1 g2 l s g3 : Ann i an -> Gap g1 -> Gap g2 -> Seq IItem l s -> Gap g3 ->
    IItem (IDiv l) (an ++ lit "div" ++ g1 ++ lit "{" ++ g2 ++ s ++ g3 ++ lit "}")
| Ii_annotation i an a s : Ann i an -> AnnElem a s -> IItem (IAnnotation a) (an ++ s).

(** ** Declarations and schemas *)
Inductive UriLit : uri_lit -> str -> Prop :=
| Ul_inherit : UriLit UInherit (lit "inherit")
| Ul_uri l s : Lit l s -> UriLit (UUri l) s.
Inductive Decl : decl -> str -> Prop :=
| De_namespace g1 p s g2 g3 u t : Gap1 g1 -> IdKw p s -> Gap g2 -> Gap g3 -> UriLit u t ->
    Decl (DNamespace (ik_string p) u) (lit "namespace" ++ g1 ++ s ++ g2 ++ lit "=" ++ g3 ++ t)
| De_default g1 g2 g3 u t : Gap1 g1 -> Gap1 g2 -> Gap g3 -> UriLit u t ->
    Decl (DDefault None u) (lit "default" ++ g1 ++ lit "namespace" ++ g2 ++ lit "=" ++ g3 ++ t)
| De_default_prefix g1 g2 p s g3 g4 u t : Gap1 g1 -> Gap1 g2 -> IdKw p s -> Gap g3 -> Gap g4 -> UriLit u t ->
    Decl (DDefault (Some (ik_string p)) u)
      (lit "default" ++ g1 ++ lit "namespace" ++ g2 ++ s ++ g3 ++ lit "=" ++ g4 ++ t)
| De_datatypes g1 p s g2 g3 l t : Gap1 g1 -> IdKw p s -> Gap g2 -> Gap g3 -> Lit l t ->
    Decl (DDatatypes (ik_string p) l) (lit "datatypes" ++ g1 ++ s ++ g2 ++ lit "=" ++ g3 ++ t).
(** the text begins with [element] or [attribute] and an annotation *)
Definition annotated_name_class_first (s : str) : Prop :=
  exists c k g t, NamedKw c k /\ Gap g /\ s = k ++ g ++ lit "[" ++ t.
Inductive Top : top -> str -> Prop :=
| To_grammar l s : l <> [] -> Seq GItem l s -> Top (TGrammar l) s
| To_pattern p s : Pat p s -> lax \/ ~ annotated_name_class_first s -> Top (TPattern p) s.
(** [SchemaText x s]: the text [s] denotes the schema [x] *)
Inductive SchemaText : schema -> str -> Prop :=
| St g0 ds s g1 t u g2 :
    Gap g0 -> Seq Decl ds s -> Gap g1 -> (ds <> [] -> lax \/ g1 <> []) -> Top t u -> Gap g2 ->
    SchemaText (Schema ds t) (g0 ++ s ++ g1 ++ u ++ g2).
End Texts.
