(** * XmlScope: the documents on which the parser of the XML syntax is compared with RngXml.v.

    Conditions on every RELAX NG element of the document, none on foreign ones.  Some hold of any
    tree an XML parser builds; the others are where xml.rs departs from the specification
    (RefutedXml.v shows they cannot be dropped). *)
From Coq Require Import String.
From Verif Require Import Base DatatypeSpec Syntax XmlSyntax RngXml.

(** the elements of a document with the attributes of their ancestors, foreign elements left out *)
Inductive Within : ups -> xnod -> ups -> xnod -> Prop :=
| Wi_here up n : Within up n up n
| Wi_kid up nm atts sc kids k up' n' : In k kids -> Within (atts :: up) k up' n' -> Within up (XElt (Some rng_uri) nm atts sc kids) up' n'.

Definition is_space (c : N) : Prop := (c = 32 \/ c = 9 \/ c = 10 \/ c = 13)%N.
(** white space in Unicode only is absent *)
Definition clear (s : str) : Prop := Forall (fun c => is_uni_ws c = true -> is_space c) s.
(** the names of the elements, by what they hold *)
Definition string_names : list string := ["name"; "value"; "param"]%string.
Definition pattern_names : list string :=
  ["element"; "attribute"; "group"; "interleave"; "choice"; "optional"; "zeroOrMore"; "oneOrMore"; "list"; "mixed";
   "ref"; "parentRef"; "empty"; "text"; "value"; "data"; "notAllowed"; "externalRef"; "grammar"]%string.
Definition own_attributes (nm : string) : list string :=
  match nm with
  | "define" => ["name"; "combine"]
  | "ref" | "parentRef" | "param" | "element" | "attribute" => ["name"]
  | "value" | "data" => ["type"]
  | "include" | "externalRef" => ["href"]
  | "start" => ["combine"]
  | _ => []
  end%string.
(** a path without "." segments and, but for a last one, empty segments *)
Inductive Segments : str -> Prop :=
| Sg_last s : slashless s -> s <> lit "." -> Segments s
| Sg_more s r : slashless s -> s <> [] -> s <> lit "." -> Segments r -> Segments (s ++ lit "/" ++ r).
Definition clean_path (v : str) : Prop := v <> [] /\ (Segments v \/ exists r, v = lit "/" ++ r /\ Segments r).

Section Scope.
Variable U : str -> bool.
Record Local (up : ups) (nm : string) (atts : list xatt) (sc : list (option str * str)) (kids : list xnod) : Prop := {
  (** trees of XML documents *)
  l_distinct : NoDup (map (fun a => (xa_ns a, xa_name a)) atts);
  l_prefixes : NoDup (map fst sc) /\ forall p u, In (Some p, u) sc -> NCName p /\ u <> [];
  l_adjacent : forall a s t b, kids <> a ++ XTxt s :: XTxt t :: b;
  (** white space is XML white space; only the elements which hold a string hold other text *)
  l_clear : Forall (fun a => clear (xa_value a)) atts /\ forall s, In (XTxt s) kids -> clear s;
  l_text : ~ In nm string_names -> forall s, In (XTxt s) kids -> blank s;
  (** a string is not interrupted; a parameter is not empty *)
  l_string : In nm string_names -> forall k, In k kids -> match k with XCom _ | XPin => False | XElt _ _ _ _ _ => nm <> "param"%string | XTxt _ => True end;
  l_param : nm = "param"%string -> kids <> [];
  (** attributes: no unknown ones where they are not looked for; no ns, datatypeLibrary where they are refused *)
  l_foreign : forall a, In a atts -> xa_ns a <> Some rng_uri;
  l_only : ~ In nm ["element"; "attribute"; "data"; "start"; "empty"; "text"; "notAllowed"]%string -> Only atts (own_attributes nm);
  l_no_ns : In nm ["data"; "start"; "empty"; "text"; "notAllowed"]%string -> Lacks atts "ns";
  l_no_lib : In nm ["start"; "empty"; "text"; "notAllowed"]%string -> Lacks atts "datatypeLibrary";
  (** a datatypeLibrary is examined on patterns only, and not on the root <grammar> and the <choice> of a name class *)
  l_lib : ~ In nm pattern_names \/ nm = "choice"%string \/ up = [] /\ nm = "grammar"%string -> LibOk U atts;
  (** no white space beside the colon of a name; <name> has no prefix *)
  l_colon : In nm ["element"; "attribute"]%string -> forall v, Has atts "name" v -> forall a b c, is_space c -> v <> a ++ c :: lit ":" ++ b /\ v <> a ++ lit ":" ++ c :: b;
  l_no_prefix : nm = "name"%string -> forall s, In (XTxt s) kids -> ~ In 58%N s;
  (** an attribute's name without prefix has an own ns, or there is none in force *)
  l_att_ns : nm = "attribute"%string -> forall v, Has atts "name" v -> ~ In 58%N v -> (exists ns, Has atts "ns" ns) \/ InForce "ns" up [];
  (** forbidden names of attributes are written without detours *)
  l_att_xmlns : nm = "attribute"%string -> (forall p u, In (p, u) sc -> u <> xmlns_uri) /\
                  forall v, Has atts "name" v -> (In 58%N v -> ~ InForce "ns" (atts :: up) xmlns_uri) /\ (Padded v (lit "xmlns") -> v = lit "xmlns");
  l_class_xmlns : In nm ["name"; "nsName"]%string -> ~ InForce "ns" (atts :: up) xmlns_uri /\ forall s, In (XTxt s) kids -> ~ Padded s (lit "xmlns");
  (** no <nsName> in the <except> of another *)
  l_nsname : nm = "nsName"%string -> forall k up' a s ks, In k kids -> ~ Within (atts :: up) k up' (XElt (Some rng_uri) (lit "nsName") a s ks);
  (** the type token is that of the built-in library *)
  l_token : nm = "data"%string -> forall v, Has atts "type" v -> Padded v (lit "token") -> InForce "datatypeLibrary" (atts :: up) [];
  (** other files: no namespace is passed on; references and bases are simple paths *)
  l_file : In nm ["externalRef"; "include"]%string -> InForce "ns" (atts :: up) [] /\ forall h, Has atts "href" h -> h <> [];
  l_external : nm = "externalRef"%string -> Elements kids [];
  l_base : forall v, HasBase atts v -> clean_path v;
  (** nothing but <start> is called "start" *)
  l_start : In nm ["define"; "ref"; "parentRef"]%string -> forall v, Has atts "name" v -> ~ Padded v (lit "start")
}.
Definition XScope (X : xnod) : Prop :=
  forall up nm atts sc kids, Within [] X up (XElt (Some rng_uri) (lit nm) atts sc kids) -> Local up nm atts sc kids.
End Scope.
