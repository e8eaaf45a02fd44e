(** * Infoset: what a document says, by XML 1.0 and Namespaces in XML.

    Independent of the validator: it shares only the syntax trees of documents ([xnode], [xdoc] in
    Doc.v) and content ([item], [qname], [attr]).
    [Document d root]: the document element of [d], with namespaces resolved, references
    replaced, attribute values normalized and character data joined, is [root].

    Simplifications: an entity's literal value is its replacement text (true of values without
    '&', '%' and carriage returns; the theorems assume more); line ends are not normalized
    (the theorems assume there are no carriage returns); attributes have no declared type. *)
From Coq Require Import String.
From Verif Require Import Base Store Lang Doc Events.
Local Open Scope N_scope.

(** ** Character data *)
(** predefined entities (4.6) *)
Definition predefined : list (str * str) :=
  [ (lit "lt"%string, [60]); (lit "gt"%string, [62]); (lit "amp"%string, [38]); (lit "apos"%string, [39]); (lit "quot"%string, [34]) ].
(** the first declaration of a name is the binding one (4.2) *)
Fixpoint first_binding (k : str) (l : list (str * str)) : option str :=
  match l with
  | [] => None
  | (k', v) :: l' => if str_eqb k k' then Some v else first_binding k l'
  end.
(** general entities declared in the document type declaration, in order *)
Fixpoint declared (prolog : list token) : list (str * str) :=
  match prolog with
  | TEntityDeclaration n (Some v) :: l => (n, v) :: declared l
  | _ :: l => declared l
  | [] => []
  end.
Definition entities (prolog : list token) : list (str * str) := predefined ++ declared prolog.
(** numerals *)
Definition dec_digit (c : N) : Prop := 48 <= c <= 57.
Definition hex_digit (c : N) : Prop := 48 <= c <= 57 \/ 65 <= c <= 70 \/ 97 <= c <= 102.
Definition hex_value (c : N) : N := if c <=? 57 then c - 48 else if c <=? 70 then c - 55 else c - 87.
Definition dec_number (ds : str) : N := fold_left (fun n c => n * 10 + (c - 48)) ds 0.
Definition hex_number (ds : str) : N := fold_left (fun n c => n * 16 + hex_value c) ds 0.
(** [Char] (2.2) *)
Definition xml_char (c : N) : Prop :=
  c = 9 \/ c = 10 \/ c = 13 \/ 32 <= c <= 55295 \/ 57344 <= c <= 65533 \/ 65536 <= c <= 1114111.

(** [Decodes ents raw s]: replacing the references in [raw] gives [s]. *)
Inductive Decodes (ents : list (str * str)) : str -> str -> Prop :=
| De_nil : Decodes ents [] []
| De_char c r s : c <> 38 -> Decodes ents r s -> Decodes ents (c :: r) (c :: s)
| De_entity h name v r s : h <> 35 -> ~ In 59 (h :: name) -> first_binding (h :: name) ents = Some v -> Decodes ents r s ->
    Decodes ents (38 :: (h :: name) ++ 59 :: r) (v ++ s)
| De_dec d ds r s : Forall dec_digit (d :: ds) -> xml_char (dec_number (d :: ds)) -> Decodes ents r s ->
    Decodes ents (38 :: 35 :: (d :: ds) ++ 59 :: r) (dec_number (d :: ds) :: s)
| De_hex d ds r s : Forall hex_digit (d :: ds) -> xml_char (hex_number (d :: ds)) -> Decodes ents r s ->
    Decodes ents (38 :: 35 :: 120 :: (d :: ds) ++ 59 :: r) (hex_number (d :: ds) :: s).
(** attribute-value normalization (3.3.3) *)
Definition space_out (s : str) : str := map (fun c => if (c =? 9) || (c =? 10) || (c =? 13) then 32 else c) s.
Definition AttValue (ents : list (str * str)) (raw s : str) : Prop :=
  Decodes (map (fun '(n, v) => (n, space_out v)) ents) (space_out raw) s.

(** ** Namespaces *)
Definition nsenv := list (str * str).     (* prefix, namespace name; innermost first *)
Definition xml_prefix : str := lit "xml"%string.
Definition xml_namespace : str := lit "http://www.w3.org/XML/1998/namespace"%string.
Definition initial_env : nsenv := [(xml_prefix, xml_namespace)].
(** the namespace declaration an attribute makes, if any *)
Definition ns_decl (a : str * str * str) : option (str * str) :=
  let '(p, l, v) := a in
  if str_eqb p (lit "xmlns"%string) then Some (l, v)
  else if str_eqb p [] && str_eqb l (lit "xmlns"%string) then Some ([], v) else None.
Definition ns_declared (atts : list (str * str * str)) : nsenv :=
  flat_map (fun a => match ns_decl a with Some d => [d] | None => [] end) atts.
Definition ordinary (atts : list (str * str * str)) : list (str * str * str) :=
  filter (fun a => match ns_decl a with Some _ => false | None => true end) atts.
(** [elem_ns env p u]: an element name with prefix [p] is in namespace [u] *)
Inductive elem_ns (env : nsenv) : str -> option str -> Prop :=
| En_prefix c p u : first_binding (c :: p) env = Some u -> elem_ns env (c :: p) (Some u)
| En_none : first_binding [] env = None -> elem_ns env [] None
| En_undo : first_binding [] env = Some [] -> elem_ns env [] None
| En_default c u : first_binding [] env = Some (c :: u) -> elem_ns env [] (Some (c :: u)).
Inductive att_ns (env : nsenv) : str -> option str -> Prop :=
| An_prefix c p u : first_binding (c :: p) env = Some u -> att_ns env (c :: p) (Some u)
| An_none : att_ns env [] None.

(** ** Content *)
(** adjacent character data is one string; no empty strings *)
Fixpoint joined (k : list item) : list item :=
  match k with
  | [] => []
  | Txt s :: k' =>
      match joined k' with
      | Txt s' :: k'' => Txt (s ++ s') :: k''
      | k'' => match s with [] => k'' | _ => Txt s :: k'' end
      end
  | Elm n a ks :: k' => Elm n a ks :: joined k'
  end.

(** character data joined at every level *)
Fixpoint merged (i : item) : item :=
  match i with Txt s => Txt s | Elm n a k => Elm n a (joined (map merged k)) end.
(** the children are as after joining *)
Fixpoint sepb (w : list item) : bool :=
  match w with
  | Txt _ :: ((Txt _ :: _) as w') => false
  | _ :: w' => sepb w'
  | [] => true
  end.
Definition nonempty (i : item) : bool := match i with Txt [] => false | _ => true end.
Definition whole (k : list item) : bool := sepb k && forallb nonempty k.
(** names of the elements whose character data comes in several pieces, or in an empty one *)
Fixpoint pieces (i : item) : list qname :=
  match i with
  | Txt _ => []
  | Elm n _ k => (if whole k then [] else [n]) ++ flat_map pieces k
  end.

Section Info.
Variable ents : list (str * str).
Inductive Att (env : nsenv) : str * str * str -> attr -> Prop :=
| Att_intro p l v u v' : att_ns env p u -> AttValue ents v v' -> Att env (p, l, v) (Attr (QName u l) v').
Inductive Node : nsenv -> xnode -> list item -> Prop :=
| N_text env start raw s : Decodes ents raw s -> Node env (XText start raw) [Txt s]
| N_cdata env s : Node env (XCdata s) [Txt s]
| N_comment env s : Node env (XComment s) []
| N_pi env s : Node env (XPI s) []
| N_elem env p l a sc kids u atts ks : elem_ns (ns_declared a ++ env) p u -> Forall2 (Att (ns_declared a ++ env)) (ordinary a) atts ->
    Nodes (ns_declared a ++ env) kids ks -> Node env (XElem p l a sc kids) [Elm (QName u l) atts (joined ks)]
with Nodes : nsenv -> list xnode -> list item -> Prop :=
| Ns_nil env : Nodes env [] []
| Ns_cons env k ks i is : Node env k i -> Nodes env ks is -> Nodes env (k :: ks) (i ++ is).
End Info.
Definition Document (d : xdoc) (root : item) : Prop :=
  Node (entities (d_prolog d)) initial_env (d_root d) [root].

Scheme Node_mut := Minimality for Node Sort Prop
  with Nodes_mut := Minimality for Nodes Sort Prop.
Combined Scheme Node_Nodes_ind from Node_mut, Nodes_mut.

(** ** Documents in scope: what relaxng-rust reads as XML prescribes *)
(** all namespace declarations in a tree *)
Fixpoint all_decls (x : xnode) : nsenv :=
  match x with
  | XElem _ _ a _ kids => ns_declared a ++ (fix go (ks : list xnode) := match ks with [] => [] | k :: ks' => all_decls k ++ go ks' end) kids
  | _ => []
  end.
Definition char_data (x : xnode) : bool := match x with XText _ _ | XCdata _ => true | _ => false end.
Definition invisible (x : xnode) : bool := match x with XComment _ | XPI _ => true | _ => false end.
(** no character data directly follows character data, comments and processing instructions aside *)
Fixpoint apart (after_chars : bool) (ks : list xnode) : Prop :=
  match ks with
  | [] => True
  | k :: ks' => if invisible k then apart after_chars ks'
                else (char_data k = true -> after_chars = false) /\ apart (char_data k) ks'
  end.
Section DocScope.
Variable decl : list (str * str).     (* the declared entities *)
(** a text token is "clean" if it has no references, or no entity's value has its byte length *)
Definition clean_text (raw : str) : Prop :=
  raw <> [] /\ (~ In 38 raw \/ Forall (fun '(_, v) => utf8_len v <> utf8_len raw) decl).
Definition clean_value (v : str) : Prop := Forall (fun c => c <> 38 /\ c <> 9 /\ c <> 10 /\ c <> 13) v.
Fixpoint clean (x : xnode) : Prop :=
  match x with
  | XText _ raw => clean_text raw
  | XCdata s => s <> []
  | XComment _ | XPI _ => True
  | XElem p _ a _ kids =>
      p <> xml_prefix /\
      Forall (fun '(q, _, v) => q <> xml_prefix /\ clean_value v) (ordinary a) /\
      apart false kids /\
      (fix go (ks : list xnode) : Prop := match ks with [] => True | k :: ks' => clean k /\ go ks' end) kids
  end.
(** the same, but character data may come in any number of pieces *)
Fixpoint legible (x : xnode) : Prop :=
  match x with
  | XText _ raw => clean_text raw
  | XCdata _ | XComment _ | XPI _ => True
  | XElem p _ a _ kids =>
      p <> xml_prefix /\
      Forall (fun '(q, _, v) => q <> xml_prefix /\ clean_value v) (ordinary a) /\
      (fix go (ks : list xnode) : Prop := match ks with [] => True | k :: ks' => legible k /\ go ks' end) kids
  end.
End DocScope.
(** [SplitIn env x q]: an element named [q] in [x] has its character data in several pieces
    (around CDATA sections, comments or processing instructions), or an empty CDATA section *)
Inductive SplitIn : nsenv -> xnode -> qname -> Prop :=
| split_here env p l a sc kids u : elem_ns (ns_declared a ++ env) p u -> ~ apart false kids \/ In (XCdata []) kids ->
    SplitIn env (XElem p l a sc kids) (QName u l)
| split_below env p l a sc kids k q : In k kids -> SplitIn (ns_declared a ++ env) k q -> SplitIn env (XElem p l a sc kids) q.
Record doc_reads (d : xdoc) : Prop := {
  dr_wf : doc_wf d;
  dr_prefixes : forall p u u', In (p, u) (all_decls (d_root d)) -> In (p, u') (all_decls (d_root d)) -> u = u';
  dr_default : forall u, ~ In ([], u) (all_decls (d_root d));
  dr_entities : NoDup (map fst (entities (d_prolog d)));
  dr_values : forall n v, In (n, v) (declared (d_prolog d)) -> v <> [] /\ ~ In 38 v /\ ~ In 60 v;
  dr_legible : legible (declared (d_prolog d)) (d_root d)
}.
Record doc_scope (d : xdoc) : Prop := {
  ds_wf : doc_wf d;
  (* a prefix means the same everywhere in the document *)
  ds_prefixes : forall p u u', In (p, u) (all_decls (d_root d)) -> In (p, u') (all_decls (d_root d)) -> u = u';
  (* no default namespace *)
  ds_default : forall u, ~ In ([], u) (all_decls (d_root d));
  (* entities: declared once, not empty, plain text *)
  ds_entities : NoDup (map fst (entities (d_prolog d)));
  ds_values : forall n v, In (n, v) (declared (d_prolog d)) -> v <> [] /\ ~ In 38 v /\ ~ In 60 v;
  ds_clean : clean (declared (d_prolog d)) (d_root d)
}.
