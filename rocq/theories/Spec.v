(** * Spec: RELAX NG validity, from the specification (OASIS, 3 December 2001, sections 7 and 9.3).

    This file is the independent specification the validator is compared with.  It uses the
    schema syntax ([mpat], an abstract syntax tree with named definitions) and trees of elements
    and strings, and nothing of the validator: no store, no derivatives.
    The only shared notion is whether a string is in a datatype ([dt_valid], [dt_value_valid]):
    what the datatypes themselves accept is the subject of other properties. *)
From Coq Require Import Permutation.
From Verif Require Import Base Datatype Store Lang Compile.

(** ** 9.2 Name classes.  A name is a namespace URI (empty when absent) and a local name. *)
Definition uri (q : qname) : str := match q_ns q with Some u => u | None => [] end.
Fixpoint in_class (nc : nameclass) (q : qname) : Prop :=
  match nc with
  | NNamed ns name => uri q = ns /\ q_local q = name
  | NNsName ns None => uri q = ns
  | NNsName ns (Some e) => uri q = ns /\ ~ in_class e q
  | NAnyName None => True
  | NAnyName (Some e) => ~ in_class e q
  | NAlt a b => in_class a q \/ in_class b q
  end.

(** ** Strings *)
Definition blank (s : str) : Prop := Forall (fun c => is_xml_ws c = true) s.
(** [ws]: nothing, or one string of white space. *)
Definition ws (m : list item) : Prop := m = [] \/ exists s, m = [Txt s] /\ blank s.
(** tokens of a list: maximal runs of characters that are not white space *)
Definition xml_split (s : str) : list str := split_on is_xml_ws [] s.
(** okAsChildren: no empty string, no two adjacent strings *)
Definition children_ok (k : list item) : Prop := ~ In (Txt []) k /\ sep k.

Section Spec.
Variable sp : N -> bool.  (* what separates the tokens of a list: in the specification, XML white space *)
Variable O : oracles.
Variable defs : list mpat.
Variable w3 : bool.  (* whether rule "weak match 3" is part of the relation; the specification has it *)
Definition deref (r : nat) : option mpat := nth_error defs r.

(** 7.1.4 restricts except patterns to data, value and choice; [XM e s b] says that string [s]
    is ([b = true]) or is not ([b = false]) matched by the except pattern [e]. *)
Inductive XM : mpat -> str -> bool -> Prop :=
| XM_na s : XM MNotAllowed s false
| XM_choice_one x s b : XM x s b -> XM (MChoice [x]) s b
| XM_choice x y l s b1 b2 : XM x s b1 -> XM (MChoice (y :: l)) s b2 -> XM (MChoice (x :: y :: l)) s (b1 || b2)
| XM_data d s b : dt_valid O d s = Ok b -> XM (MData d None) s b
| XM_value v s b : dt_value_valid v s = Ok b -> XM (MValue v) s b
| XM_except d e s b1 b2 : dt_valid O d s = Ok b1 -> XM e s b2 -> XM (MData d (Some e)) s (b1 && negb b2)
| XM_ref r X s b : deref r = Some X -> XM X s b -> XM (MRef r) s b.

(** ** 9.3 Patterns.  [Mg a m X]: attributes [a] (a bag) and mixed sequence [m] match [X];
    [Wg a m X]: they match weakly. *)
Inductive Mg : list attr -> list item -> mpat -> Prop :=
| M_choice x l a m : In x l -> Mg a m x -> Mg a m (MChoice l)
| M_group_one x a m : Mg a m x -> Mg a m (MGroup [x])
| M_group x y l a1 a2 a m1 m2 : Permutation a (a1 ++ a2) -> Mg a1 m1 x -> Mg a2 m2 (MGroup (y :: l)) ->
    Mg a (m1 ++ m2) (MGroup (x :: y :: l))
| M_inter_one x a m : Mg a m x -> Mg a m (MInterleave [x])
| M_inter x y l a1 a2 a m1 m2 m : Permutation a (a1 ++ a2) -> merge m1 m2 m -> Mg a1 m1 x -> Mg a2 m2 (MInterleave (y :: l)) ->
    Mg a m (MInterleave (x :: y :: l))
| M_mixed p a m : Mg a m (MInterleave [p; MText]) -> Mg a m (MMixed p)                 (* 4.13 *)
| M_optional p a m : Mg a m (MChoice [p; MEmpty]) -> Mg a m (MOptional p)              (* 4.14 *)
| M_zero p a m : Mg a m (MChoice [MOneOrMore p; MEmpty]) -> Mg a m (MZeroOrMore p)     (* 4.15 *)
| M_one p a m : Mg a m p -> Mg a m (MOneOrMore p)
| M_more p a1 a2 a m1 m2 : Permutation a (a1 ++ a2) -> Mg a1 m1 p -> Mg a2 m2 (MOneOrMore p) -> Mg a (m1 ++ m2) (MOneOrMore p)
| M_empty : Mg [] [] MEmpty
| M_text m : Forall (fun i => exists s, i = Txt s) m -> Mg [] m MText
| M_attribute nc p x : in_class nc (a_name x) -> Wg [] [Txt (a_value x)] p -> Mg [x] [] (MAttribute nc p)
| M_element nc p nm a k ws1 ws2 : in_class nc nm -> children_ok k -> Wg a k p -> ws ws1 -> ws ws2 ->
    Mg [] (ws1 ++ Elm nm a k :: ws2) (MElement nc p)
| M_ref r X a m : deref r = Some X -> Mg a m X -> Mg a m (MRef r)
| M_data d s : dt_valid O d s = Ok true -> Mg [] [Txt s] (MData d None)
| M_except d e s : dt_valid O d s = Ok true -> XM e s false -> Mg [] [Txt s] (MData d (Some e))
| M_value v s : dt_value_valid v s = Ok true -> Mg [] [Txt s] (MValue v)
| M_list p s : Mg [] (map Txt (split_on sp [] s)) p -> Mg [] [Txt s] (MList p)
with Wg : list attr -> list item -> mpat -> Prop :=
| W_1 a m p : Mg a m p -> Wg a m p
| W_2 a s p : blank s -> Mg a [] p -> Wg a [Txt s] p
| W_3 a p : w3 = true -> Mg a [Txt []] p -> Wg a [] p.

(** ** 7 Restrictions *)
(** no attribute pattern reached without entering an element *)
Inductive noatt : mpat -> Prop :=
| No_ch0 : noatt (MChoice []) | No_ch x l : noatt x -> noatt (MChoice l) -> noatt (MChoice (x :: l))
| No_gr0 : noatt (MGroup []) | No_gr x l : noatt x -> noatt (MGroup l) -> noatt (MGroup (x :: l))
| No_in0 : noatt (MInterleave []) | No_in x l : noatt x -> noatt (MInterleave l) -> noatt (MInterleave (x :: l))
| No_mixed p : noatt p -> noatt (MMixed p)
| No_empty : noatt MEmpty | No_text : noatt MText | No_na : noatt MNotAllowed
| No_opt p : noatt p -> noatt (MOptional p)
| No_zero p : noatt p -> noatt (MZeroOrMore p)
| No_one p : noatt p -> noatt (MOneOrMore p)
| No_elem nc p : noatt (MElement nc p)
| No_ref r X : deref r = Some X -> noatt X -> noatt (MRef r)
| No_value v : noatt (MValue v) | No_data d e : noatt (MData d e) | No_list p : noatt (MList p).
(** 7.1.2: inside oneOrMore, attributes are not inside group or interleave *)
Inductive single_atts : mpat -> Prop :=
| Sa_no p : noatt p -> single_atts p
| Sa_attr nc p : single_atts (MAttribute nc p)
| Sa_ch0 : single_atts (MChoice []) | Sa_ch x l : single_atts x -> single_atts (MChoice l) -> single_atts (MChoice (x :: l))
| Sa_gr x : single_atts x -> single_atts (MGroup [x])
| Sa_in x : single_atts x -> single_atts (MInterleave [x])
| Sa_opt p : single_atts p -> single_atts (MOptional p)
| Sa_zero p : single_atts p -> single_atts (MZeroOrMore p)
| Sa_one p : single_atts p -> single_atts (MOneOrMore p)
| Sa_ref r X : deref r = Some X -> single_atts X -> single_atts (MRef r).
(** 7.1.3: no element, attribute, text, list or interleave inside list *)
Inductive list_body : mpat -> Prop :=
| Lb_ch1 x : list_body x -> list_body (MChoice [x])
| Lb_ch x y l : list_body x -> list_body (MChoice (y :: l)) -> list_body (MChoice (x :: y :: l))
| Lb_gr1 x : list_body x -> list_body (MGroup [x])
| Lb_gr x y l : list_body x -> list_body (MGroup (y :: l)) -> list_body (MGroup (x :: y :: l))
| Lb_empty : list_body MEmpty | Lb_na : list_body MNotAllowed
| Lb_opt p : list_body p -> list_body (MOptional p)
| Lb_zero p : list_body p -> list_body (MZeroOrMore p)
| Lb_one p : list_body p -> list_body (MOneOrMore p)
| Lb_value v : list_body (MValue v) | Lb_data d e : list_body (MData d e)
| Lb_ref r X : deref r = Some X -> list_body X -> list_body (MRef r).
(** 7.2: string sequences.  [CT t X]: [X] has a content type, at most [t]
    ([TE] = empty, [TN] = complex, [TA] = simple).  The derivation goes through references but
    not into elements, so it also excludes recursion outside elements (4.19). *)
Inductive CT : ctype -> mpat -> Prop :=
| CT_EN X : CT TE X -> CT TN X
| CT_NA X : CT TN X -> CT TA X
| CT_ch1 t x : CT t x -> CT t (MChoice [x])
| CT_ch t x y l : CT t x -> CT t (MChoice (y :: l)) -> CT t (MChoice (x :: y :: l))
| CT_gr1 t x : CT t x -> CT t (MGroup [x])
| CT_gr t x y l : t <> TA -> CT t x -> CT t (MGroup (y :: l)) -> CT t (MGroup (x :: y :: l))
| CT_grl x y l : CT TE x -> CT TA (MGroup (y :: l)) -> CT TA (MGroup (x :: y :: l))
| CT_grr x y l : CT TA x -> CT TE (MGroup (y :: l)) -> CT TA (MGroup (x :: y :: l))
| CT_in1 t x : CT t x -> CT t (MInterleave [x])
| CT_in t x y l : t <> TA -> CT t x -> CT t (MInterleave (y :: l)) -> CT t (MInterleave (x :: y :: l))
| CT_inl x y l : CT TE x -> CT TA (MInterleave (y :: l)) -> CT TA (MInterleave (x :: y :: l))
| CT_inr x y l : CT TA x -> CT TE (MInterleave (y :: l)) -> CT TA (MInterleave (x :: y :: l))
| CT_mixed p : CT TN p -> CT TN (MMixed p)
| CT_empty : CT TE MEmpty
| CT_na : CT TE MNotAllowed
| CT_text : CT TN MText
| CT_opt t p : CT t p -> CT t (MOptional p)
| CT_zero t p : t <> TA -> CT t p -> CT t (MZeroOrMore p)
| CT_one t p : t <> TA -> CT t p -> CT t (MOneOrMore p)
| CT_attr nc p : CT TA p -> CT TE (MAttribute nc p)
| CT_elem nc p : CT TN (MElement nc p)
| CT_ref t r X : deref r = Some X -> CT t X -> CT t (MRef r)
| CT_value v : CT TA (MValue v)
| CT_data d e : CT TA (MData d e)
| CT_list p : list_body p -> CT TA (MList p).
(** the restrictions, in every subpattern *)
Fixpoint restr (X : mpat) : Prop :=
  match X with
  | MChoice l | MInterleave l | MGroup l =>
      l <> [] /\ (fix go (l : list mpat) : Prop := match l with [] => True | x :: l' => restr x /\ go l' end) l
  | MMixed p | MOptional p | MList p => restr p
  | MZeroOrMore p | MOneOrMore p => restr p /\ single_atts p
  | MAttribute _ p => restr p
  | MElement _ p => restr p /\ CT TA p
  | MRef r => deref r <> None
  | MData _ (Some e) => restr e
  | MData _ None | MValue _ | MEmpty | MText | MNotAllowed => True
  end.
End Spec.

Arguments M_choice {sp}. Arguments M_group_one {sp}. Arguments M_group {sp}. Arguments M_inter_one {sp}. Arguments M_inter {sp}.
Arguments M_mixed {sp}. Arguments M_optional {sp}. Arguments M_zero {sp}. Arguments M_one {sp}. Arguments M_more {sp}.
Arguments M_empty {sp}. Arguments M_text {sp}. Arguments M_attribute {sp}. Arguments M_element {sp}. Arguments M_ref {sp}.
Arguments M_data {sp}. Arguments M_except {sp}. Arguments M_value {sp}. Arguments M_list {sp}.
Arguments W_1 {sp}. Arguments W_2 {sp}. Arguments W_3 {sp}.

(** The relation of the specification. *)
Notation M := (Mg is_xml_ws).
Notation W := (Wg is_xml_ws).

(** ** Valid documents.  [root] is the document element. *)
Definition rng_valid (O : oracles) (defs : list mpat) (start : mpat) (root : item) : Prop :=
  M O defs true [] [root] start.

Scheme M_mut := Minimality for Mg Sort Prop
  with W_mut := Minimality for Wg Sort Prop.
Combined Scheme MW_ind from M_mut, W_mut.
