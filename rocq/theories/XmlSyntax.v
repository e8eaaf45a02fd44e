(** * XmlSyntax: the parser of the XML syntax.  relaxng-syntax/src/xml.rs.

    The input is the tree roxmltree builds from the text (roxmltree itself is not modelled):
    elements with their expanded name, attributes, namespaces in scope and children; adjacent
    character data is one text node, references are replaced.

    Simplifications: spans and the kinds and messages of errors are dropped, so a [Result] is an
    [option], and the parts of an element may be examined in any order; the debugging output
    of [ncname] is dropped.  [first_rng_child]/[next_rng_sibling] loops are functions of the list of
    children.  [U] stands for [fluent_uri]: whether a string is a URI without fragment. *)
From Coq Require Import String.
From Verif Require Import Base Datatype Facets Syntax.

(** ** Trees *)
Record xatt := XAtt { xa_ns : option str; xa_name : str; xa_value : str }.
(** [scope]: [Node::namespaces], a prefix ([None]: default) and its URI *)
Inductive xnod : Type :=
| XElt (ns : option str) (name : str) (atts : list xatt) (scope : list (option str * str)) (kids : list xnod)
| XTxt (s : str)
| XCom (s : str)
| XPin.

Definition rng_uri : str := lit "http://relaxng.org/ns/structure/1.0".     (* xml.rs:54 *)
Definition xml_ns : str := lit "http://www.w3.org/XML/1998/namespace".
(** xml.rs:974-976 [is_rng] *)
Definition is_rng (ns : option str) : bool := match ns with Some u => str_eqb u rng_uri | None => false end.
(** xml.rs:961-963 [is_rng_node]; with 115-137 [first_rng_child], [next_rng_sibling]: the element children in the namespace *)
Definition is_elt (n : xnod) : bool := match n with XElt _ _ _ _ _ => true | _ => false end.
Definition is_rng_el (n : xnod) : bool := match n with XElt ns _ _ _ _ => is_rng ns | _ => false end.
(** xml.rs:965-972 [is_rng_att] *)
Definition is_rng_att (a : xatt) : bool := match xa_ns a with None => true | ns => is_rng ns end.
(** [Node::attribute_node] of a name without namespace *)
Fixpoint att (n : string) (atts : list xatt) : option str :=
  match atts with
  | [] => None
  | a :: l => if (match xa_ns a with None => true | Some _ => false end) && str_eqb (xa_name a) (lit n) then Some (xa_value a) else att n l
  end.
(** [Node::text]: an element's is that of its first child, if that is a text node *)
Definition node_text (n : xnod) : option str :=
  match n with XTxt s => Some s | XCom s => Some s | XElt _ _ _ _ (XTxt s :: _) => Some s | _ => None end.

(** the attributes of an element and of its ancestors, innermost first *)
Definition ancestry := list (list xatt).
(** xml.rs:264-296 [get_ns], [get_ns_att], [get_datatype_lib], [get_dt_lib_att] *)
Fixpoint inherited (n : string) (up : ancestry) : option str :=
  match up with
  | [] => None
  | atts :: up' => match att n atts with Some v => Some v | None => inherited n up' end
  end.
Definition or_empty (o : option str) : str := match o with Some s => s | None => [] end.

(** ** Strings *)
(** [str::trim] *)
Fixpoint drop_ws (s : str) : str := match s with c :: s' => if is_uni_ws c then drop_ws s' else s | [] => [] end.
Definition trim (s : str) : str := rev (drop_ws (rev (drop_ws s))).
(** xml.rs:867-889 [ncname], 904-925 [ident] (the characters: 927-955) *)
Definition ncname (v : str) : option str :=
  match trim v with
  | [] => None
  | c :: t => if nc_start_char c && forallb nc_char t then Some (c :: t) else None
  end.
Definition has_colon (v : str) : bool := existsb (fun c => (c =? 58)%N) v.
(** xml.rs:728-735 [attr_ncname] *)
Definition attr_ncname (v : str) : option str := if has_colon v then None else ncname (trim v).
(** xml.rs:891-902 [lookup_namespace_def] *)
Fixpoint scope_uri (sc : list (option str * str)) (p : str) : option str :=
  match sc with
  | [] => None
  | (Some q, u) :: sc' => if str_eqb q p then Some u else scope_uri sc' p
  | (None, _) :: sc' => scope_uri sc' p
  end.
Definition prefix_uri (sc : list (option str * str)) (p : str) : option str :=
  if str_eqb p (lit "xml") then Some xml_ns else scope_uri sc p.

(** ** Names *)
(** xml.rs:820-843 [qname_att]; [up] begins with the element's own attributes *)
Definition qname_att (sc : list (option str * str)) (up : ancestry) (v : str) : option sname :=
  match find_colon v with
  | Some (p, l) =>
      match prefix_uri sc (trim p), ncname l with
      | Some u, Some l' => Some (NmNs [u] l')
      | _, _ => None
      end
  | None => match ncname v with Some l => Some (NmNs [or_empty (inherited "ns" up)] l) | None => None end
  end.
(** xml.rs:845-865 [qname_el] with 994-1000 [no_element_children]: the children of a <name> *)
Definition qname_el (up : ancestry) (kids : list xnod) : option sname :=
  if existsb is_elt kids then None
  else match kids with
       | XTxt v :: _ =>
           match find_colon v with
           | Some (p, l) =>
               match ncname (trim p), ncname (trim l) with
               | Some p', Some l' => Some (NmC p' l')
               | _, _ => None
               end
           | None => match ncname v with Some l => Some (NmNs [or_empty (inherited "ns" up)] l) | None => None end
           end
       | _ => None
       end.

(** all RELAX NG element children, converted *)
Definition each {A} (f : xnod -> option A) : list xnod -> option (list A) :=
  fix go (ks : list xnod) : option (list A) :=
    match ks with
    | [] => Some []
    | k :: ks' =>
        if is_rng_el k then match f k, go ks' with Some x, Some l => Some (x :: l) | _, _ => None end else go ks'
    end.
(** the first one and the others *)
Definition first_rest {A B} (f : xnod -> option A) (g : xnod -> option B) : list xnod -> option (A * list B) :=
  fix go (ks : list xnod) : option (A * list B) :=
    match ks with
    | [] => None
    | k :: ks' =>
        if is_rng_el k then match f k, each g ks' with Some x, Some l => Some (x, l) | _, _ => None end else go ks'
    end.
(** the loops of xml.rs:226-237, 298-317, 370-390, 545-553: at least one, joined to the left *)
Definition joined {A} (op : A -> A -> A) (l : option (list A)) : option A :=
  match l with Some (x :: l') => Some (fold_left op l' x) | _ => None end.
Definition named (n : xnod) (s : string) : bool :=        (* xml.rs:957-959 [is_el] *)
  match n with XElt ns nm _ _ _ => is_rng ns && str_eqb nm (lit s) | _ => false end.
(** xml.rs:207-224 [any_name], 239-262 [ns_name], 520-536 [data]: an optional <except> and nothing else *)
Definition except_child {A} (f : list xatt -> xnod -> option A) (op : A -> A -> A) : list xnod -> option (option A) :=
  fix go (ks : list xnod) : option (option A) :=
    match ks with
    | [] => Some None
    | k :: ks' =>
        if is_rng_el k then
          match k with
          | XElt _ nm a _ gk =>
              if str_eqb nm (lit "except") then
                if existsb is_rng_el ks' then None
                else match joined op (each (f a) gk) with Some x => Some (Some x) | None => None end
              else None
          | _ => None
          end
        else go ks'
    end.

(** xml.rs:177-205 [name_class] with [any_name], [except_nameclass], [ns_name], [name_class_choice] *)
Fixpoint name_class (up : ancestry) (in_except : bool) (n : xnod) {struct n} : option snc :=
  match n with
  | XElt ns nm atts sc kids =>
      if is_rng ns then
        let up := atts :: up in
        if str_eqb nm (lit "name") then match qname_el up kids with Some q => Some (CName q) | None => None end
        else if str_eqb nm (lit "anyName") then
          if in_except then None
          else match except_child (fun a => name_class (a :: up) true) CAlt kids with Some e => Some (CAny e) | None => None end
        else if str_eqb nm (lit "nsName") then
          match except_child (fun a => name_class (a :: up) true) CAlt kids with
          | Some e => Some (CNs (NsUri [or_empty (inherited "ns" up)]) e)
          | None => None
          end
        else if str_eqb nm (lit "choice") then joined CAlt (each (name_class up in_except) kids)
        else None
      else None
  | _ => None
  end.

(** ** Attributes *)
(** xml.rs:161-169 [no_attrs_except], 978-984 [no_attrs] *)
Definition no_attrs_except (atts : list xatt) (names : list string) : bool :=
  negb (existsb (fun a => is_rng_att a && negb (existsb (fun n => str_eqb (xa_name a) (lit n)) names)) atts).
Section Parser.
Variable U : str -> bool.
(** xml.rs:86-113 [check_standard_attrs] *)
Definition std_attrs (atts : list xatt) : bool :=
  match att "datatypeLibrary" atts with
  | Some v => match v with [] => true | _ => U v end
  | None => true
  end.
(** xml.rs:319-336: the checks of [attribute] on a name attribute *)
Definition attribute_name_ok (up : ancestry) (name : str) : bool :=
  let ns := inherited "ns" up in
  negb (str_eqb name (lit "xmlns") && str_eqb (or_empty ns) []) &&
  negb (match ns with Some u => str_eqb u (lit "http://www.w3.org/2000/xmlns") | None => false end).

(** ** Paths *)
Definition ends_slash (s : str) : bool := match rev s with c :: _ => (c =? 47)%N | [] => false end.
(** trailing "/" and "/." do not count ([Components::as_path]); [r] is the path reversed *)
Fixpoint trim_sep (r : str) : str :=
  match r with
  | [] => []
  | c :: r' =>
      if (c =? 47)%N then match r' with [] => r | _ => trim_sep r' end
      else if (c =? 46)%N then match r' with d :: r'' => if (d =? 47)%N then trim_sep r' else r | [] => r end
      else r
  end.
Fixpoint drop_component (r : str) : str := match r with [] => [] | c :: r' => if (c =? 47)%N then r else drop_component r' end.
(** [PathBuf::pop]: truncate to the parent, if there is one *)
Definition path_pop (s : str) : str :=
  match trim_sep (rev s) with
  | [] => s
  | c :: r => if (c =? 47)%N then s else rev (trim_sep (drop_component (c :: r)))
  end.
(** [PathBuf::push] of a relative path *)
Definition path_push (s new : str) : str :=
  match s with [] => new | _ => if ends_slash s then s ++ new else s ++ lit "/" ++ new end.
(** xml.rs:751-766 [resolve] *)
Definition resolve_path (result : option str) (new : str) : option str :=
  Some (match new with
        | c :: _ => if (c =? 47)%N then new
                    else match result with
                         | Some old => path_push (if ends_slash old then old else path_pop old) new
                         | None => new
                         end
        | [] => match result with
                | Some old => path_push (if ends_slash old then old else path_pop old) new
                | None => new
                end
        end).
(** xml.rs:737-749 [rebase_path] *)
Fixpoint xml_base (atts : list xatt) : option str :=
  match atts with
  | [] => None
  | a :: l => if (match xa_ns a with Some u => str_eqb u xml_ns | None => false end) && str_eqb (xa_name a) (lit "base") then Some (xa_value a) else xml_base l
  end.
Definition bases (up : ancestry) : list str := flat_map (fun a => match xml_base a with Some b => [b] | None => [] end) up.
Definition rebase_path (up : ancestry) (href : str) : str :=
  or_empty (resolve_path (fold_left resolve_path (rev (bases up)) None) href).

(** ** Patterns *)
(** xml.rs:571-594 [param] *)
Definition param_el (n : xnod) : option sparam :=
  match n with
  | XElt _ _ atts _ kids =>
      match att "name" atts, kids with
      | Some v, k :: _ =>
          match attr_ncname v, node_text k with
          | Some name, Some s => Some (None, IKId name, [s])
          | _, _ => None
          end
      | _, _ => None
      end
  | _ => None
  end.
(** xml.rs:515-543 [data], 555-569 [params]: the children of <data>: parameters, then perhaps an exception *)
Definition data_children (f : list xatt -> xnod -> option spat) : list xnod -> option (list sparam * option spat) :=
  fix go (ks : list xnod) : option (list sparam * option spat) :=
    match ks with
    | [] => Some ([], None)
    | k :: ks' =>
        if is_rng_el k then
          if named k "param" then
            match param_el k, go ks' with Some p, Some (ps, e) => Some (p :: ps, e) | _, _ => None end
          else match except_child f SChoicePair ks with Some e => Some ([], e) | None => None end
        else go ks'
    end.
(** xml.rs:457-490 [value] *)
Definition value_el (up : ancestry) (atts : list xatt) (kids : list xnod) : option spat :=
  if existsb is_elt kids then None
  else
    let ty := match att "type" atts with
              | None => Some None
              | Some v => match ncname v with
                          | Some l => Some (Some (SdNs [or_empty (inherited "datatypeLibrary" up)] l))
                          | None => None
                          end
              end in
    let val := match kids with [] => Some [] | k :: _ => node_text k end in
    match ty, val with Some t, Some v => Some (SValue t [v]) | _, _ => None end.
(** xml.rs:492-508: the type of <data> *)
Definition data_type (up : ancestry) (v : str) : option sdtname :=
  if str_eqb (trim v) (lit "token") then Some SdToken
  else match ncname (trim v) with Some l => Some (SdNs [or_empty (inherited "datatypeLibrary" up)] l) | None => None end.
Definition no_rng_children (kids : list xnod) : bool := negb (existsb is_rng_el kids).
(** xml.rs:654-667, 691-704: combine *)
Definition combine_of (atts : list xatt) : option method :=
  match att "combine" atts with
  | None => Some MAssign
  | Some v => if str_eqb (trim v) (lit "choice") then Some MChoiceC else if str_eqb (trim v) (lit "interleave") then Some MInterleaveC else None
  end.
(** the elements that are patterns (xml.rs:59-79) *)
Inductive pkind : Type :=
| KElement | KAttribute | KGroup | KInterleave | KChoice | KOptional | KZeroOrMore | KOneOrMore | KList | KMixed
| KRef | KParentRef | KEmpty | KText | KValue | KData | KNotAllowed | KExternalRef | KGrammar.
Definition pattern_kinds : list (string * pkind) :=
  [("element", KElement); ("attribute", KAttribute); ("group", KGroup); ("interleave", KInterleave); ("choice", KChoice);
   ("optional", KOptional); ("zeroOrMore", KZeroOrMore); ("oneOrMore", KOneOrMore); ("list", KList); ("mixed", KMixed);
   ("ref", KRef); ("parentRef", KParentRef); ("empty", KEmpty); ("text", KText); ("value", KValue); ("data", KData);
   ("notAllowed", KNotAllowed); ("externalRef", KExternalRef); ("grammar", KGrammar)]%string.
(** the elements that are grammar contents (xml.rs:635-639) *)
Inductive ckind : Type := KStart | KDefine | KDiv | KInclude.
Definition content_kinds : list (string * ckind) := [("start", KStart); ("define", KDefine); ("div", KDiv); ("include", KInclude)]%string.

Definition the_name (atts : list xatt) : option str := match att "name" atts with Some v => attr_ncname v | None => None end.
Definition opt1 {A B} (f : A -> B) (o : option A) : option B := match o with Some a => Some (f a) | None => None end.
(** xml.rs:653-688 [start], 690-715 [define]: [gp] the joined children, [one] the only child *)
Definition start_of_el (atts : list xatt) (kids : option (list spat)) : option (str * method * spat) :=
  match combine_of atts, kids with
  | Some h, Some [p] => if no_attrs_except atts ["combine"%string] then Some (lit "start", h, p) else None
  | _, _ => None
  end.
Definition define_of_el (atts : list xatt) (kids : option (list spat)) : option (str * method * spat) :=
  match combine_of atts, the_name atts, joined SListPair kids with
  | Some h, Some n, Some p => Some (n, h, p)
  | _, _, _ => None
  end.

(** xml.rs:56-84 [pattern]; 617-651 [grammar], [grammar_content]; 717-726 [div_grammar_content];
    768-818 [include], [include_content], [div_include_content] *)
Fixpoint pattern (up : ancestry) (n : xnod) {struct n} : option spat :=
  match n with
  | XElt ns nm atts sc kids =>
      if is_rng ns && std_attrs atts then
        let up := atts :: up in
        match find_entry nm pattern_kinds with
        | None => None
        | Some KElement =>                                         (* xml.rs:138-159 *)
            if no_attrs_except atts ["name"; "ns"; "datatypeLibrary"]%string then
              match att "name" atts with
              | Some v => match qname_att sc up v, joined SListPair (each (pattern up) kids) with
                          | Some q, Some p => Some (SElement (CName q) p)
                          | _, _ => None
                          end
              | None => match first_rest (name_class up false) (pattern up) kids with
                        | Some (c, l) => match joined SListPair (Some l) with Some p => Some (SElement c p) | None => None end
                        | None => None
                        end
              end
            else None
        | Some KAttribute =>                                       (* xml.rs:319-362 *)
            if no_attrs_except atts ["name"; "ns"; "datatypeLibrary"]%string then
              match att "name" atts with
              | Some v =>
                  if attribute_name_ok up v then
                    match qname_att sc up v, each (pattern up) kids with
                    | Some q, Some [] => Some (SAttribute (CName q) SText)
                    | Some q, Some [p] => Some (SAttribute (CName q) p)
                    | _, _ => None
                    end
                  else None
              | None => match first_rest (name_class up false) (pattern up) kids with
                        | Some (c, []) => Some (SAttribute c SText)
                        | Some (c, [p]) => Some (SAttribute c p)
                        | _ => None
                        end
              end
            else None
        | Some KGroup => opt1 SGroup (joined SListPair (each (pattern up) kids))                   (* xml.rs:364-369, 370-426 *)
        | Some KInterleave => joined SInterleavePair (each (pattern up) kids)
        | Some KChoice => joined SChoicePair (each (pattern up) kids)
        | Some KOptional => opt1 SOptional (joined SListPair (each (pattern up) kids))
        | Some KZeroOrMore => opt1 SZeroOrMore (joined SListPair (each (pattern up) kids))
        | Some KOneOrMore => opt1 SOneOrMore (joined SListPair (each (pattern up) kids))
        | Some KList => opt1 SList (joined SListPair (each (pattern up) kids))
        | Some KMixed => opt1 SMixed (joined SListPair (each (pattern up) kids))
        | Some KRef => if no_rng_children kids then opt1 SIdent (the_name atts) else None           (* xml.rs:427-434 *)
        | Some KParentRef => if no_rng_children kids then opt1 SParent (the_name atts) else None
        | Some KEmpty => if no_attrs_except atts [] && no_rng_children kids then Some SEmpty else None
        | Some KText => if no_attrs_except atts [] && no_rng_children kids then Some SText else None
        | Some KNotAllowed => if no_attrs_except atts [] && no_rng_children kids then Some SNotAllowed else None
        | Some KValue => value_el up atts kids
        | Some KData =>
            match att "type" atts with
            | None => None
            | Some v =>
                if no_attrs_except atts ["type"; "datatypeLibrary"]%string then
                  match data_type up v, data_children (fun a => pattern (a :: up)) kids with
                  | Some t, Some (ps, e) => Some (SData t (Some ps) e)
                  | _, _ => None
                  end
                else None
            end
        | Some KExternalRef => match att "href" atts with Some h => Some (SExternal [rebase_path up h] None) | None => None end
        | Some KGrammar => opt1 SGrammar (each (grammar_content up) kids)
        end
      else None
  | _ => None
  end
with grammar_content (up : ancestry) (n : xnod) {struct n} : option gcontent :=
  match n with
  | XElt ns nm atts sc kids =>
      if is_rng ns then
        let up := atts :: up in
        match find_entry nm content_kinds with
        | None => None
        | Some KStart => opt1 (fun '(n, h, p) => GDefine n h p) (start_of_el atts (each (pattern up) kids))
        | Some KDefine => opt1 (fun '(n, h, p) => GDefine n h p) (define_of_el atts (each (pattern up) kids))
        | Some KDiv => opt1 GDiv (each (grammar_content up) kids)
        | Some KInclude =>
            match att "href" atts, each (include_content up) kids with
            | Some h, Some l => Some (GInclude [rebase_path up h] None (Some l))
            | _, _ => None
            end
        end
      else None
  | _ => None
  end
with include_content (up : ancestry) (n : xnod) {struct n} : option icontent :=
  match n with
  | XElt ns nm atts sc kids =>
      if is_rng ns then
        let up := atts :: up in
        match find_entry nm content_kinds with
        | Some KStart => opt1 (fun '(n, h, p) => IDefine n h p) (start_of_el atts (each (pattern up) kids))
        | Some KDefine => opt1 (fun '(n, h, p) => IDefine n h p) (define_of_el atts (each (pattern up) kids))
        | Some KDiv => opt1 IDiv (each (include_content up) kids)
        | Some KInclude | None => None
        end
      else None
  | _ => None
  end.

(** xml.rs:17-34 [parse], 36-50 [pattern_or_grammar], on the root element *)
Definition parse (root : xnod) : option schema :=
  match root with
  | XElt ns nm atts _ kids =>
      if is_rng ns then
        if str_eqb nm (lit "grammar")
        then match each (grammar_content [atts]) kids with Some l => Some (Schema [] (TGrammar l)) | None => None end
        else match pattern [] root with Some p => Some (Schema [] (TPattern p)) | None => None end
      else None
  | _ => None
  end.
End Parser.

(** ** Errors of the XML parser (xml.rs:18-29): the span reported for a position (row and column, counted from 1).
    A text is its bytes; [str::lines] cuts at line feeds and drops one carriage return before each;
    [usize] subtraction below 0 panics ([None]; in a release build it wraps to a span near 2^64). *)
Fixpoint lines_from (cur : str) (s : str) : list str :=
  match s with
  | [] => match cur with [] => [] | _ => [rev cur] end
  | c :: s' => if (c =? 10)%N then rev (match cur with d :: r => if (d =? 13)%N then r else cur | [] => [] end) :: lines_from [] s' else lines_from (c :: cur) s'
  end.
Definition lines (s : str) : list str := lines_from [] s.
Definition error_span (text : str) (row col : nat) : option (nat * nat) :=
  let '(off, len) := fold_left (fun '(acc, _) line => (acc + List.length line, List.length line)) (firstn row (lines text)) (0, 0) in
  if (col <=? len)%nat then Some (off + col, len - col) else None.
