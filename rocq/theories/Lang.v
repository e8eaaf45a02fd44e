(** * Lang: the language denoted by a pattern of the store.

    Content is a list of items (text chunks as delivered by the tokenizer, and elements with
    their resolved name, attributes in document order, and content).  [L] is the matching
    relation the derivative functions are proved against; [LF] adds the stack of enclosing
    contents ([After]).  White-space-only chunks may be skipped anywhere in content. *)
From Verif Require Import Base Datatype Store.

Inductive item : Type :=
| Txt (s : str)
| Elm (nm : qname) (atts : list attr) (kids : list item).

Definition ws_item (i : item) : bool := match i with Txt s => is_whitespace_str s | Elm _ _ _ => false end.
Definition all_ws (w : list item) : bool := forallb ws_item w.
Definition txt_item (i : item) : bool := match i with Txt _ => true | Elm _ _ _ => false end.
Definition all_txt (w : list item) : bool := forallb txt_item w.

(** [merge a b c]: [c] is an interleaving (shuffle) of [a] and [b]. *)
Inductive merge {A : Type} : list A -> list A -> list A -> Prop :=
| merge_nil : merge [] [] []
| merge_l x a b c : merge a b c -> merge (x :: a) b (x :: c)
| merge_r x a b c : merge a b c -> merge a (x :: b) (x :: c).

(** A chunk of only (Unicode) white space is made of XML white space: excludes the corner case
    where [str::split_whitespace] and XML white space disagree about blankness. *)
Definition okc (s : str) : Prop := split_whitespace s = [] -> is_whitespace_str s = true.

Section Lang.
Variable O : oracles.
Variable st : store.

(** Boolean value of an except pattern (data, value, choice, notAllowed, nested data-except). *)
Inductive SM : pid -> str -> bool -> Prop :=
| SM_na id s : nth_error (pats st) id = Some PNotAllowed -> SM id s false
| SM_choice id l r n s b1 b2 :
    nth_error (pats st) id = Some (PChoice l r n) -> SM l s b1 -> SM r s b2 -> SM id s (b1 || b2)
| SM_data id d s b : nth_error (pats st) id = Some (PDatatype d) -> dt_valid O d s = Ok b -> SM id s b
| SM_value id v s b : nth_error (pats st) id = Some (PDatatypeValue v) -> dt_value_valid v s = Ok b -> SM id s b
| SM_except id d e s b1 b2 :
    nth_error (pats st) id = Some (PDatatypeExcept d e) -> dt_valid O d s = Ok b1 -> SM e s b2 ->
    SM id s (b1 && negb b2).

Inductive L : pid -> list attr -> list item -> Prop :=
| L_choice_l id l r n a w : nth_error (pats st) id = Some (PChoice l r n) -> L l a w -> L id a w
| L_choice_r id l r n a w : nth_error (pats st) id = Some (PChoice l r n) -> L r a w -> L id a w
| L_group id l r n a1 a2 a w1 w2 :
    nth_error (pats st) id = Some (PGroup l r n) -> merge a1 a2 a -> L l a1 w1 -> L r a2 w2 ->
    L id a (w1 ++ w2)
| L_interleave id l r n a1 a2 a w1 w2 w :
    nth_error (pats st) id = Some (PInterleave l r n) -> merge a1 a2 a -> merge w1 w2 w ->
    L l a1 w1 -> L r a2 w2 -> L id a w
| L_one id p n a w : nth_error (pats st) id = Some (POneOrMore p n) -> L p a w -> L id a w
| L_more_nil id p n w1 w2 :
    nth_error (pats st) id = Some (POneOrMore p n) -> L p [] w1 -> L id [] w2 -> L id [] (w1 ++ w2)
| L_more_cons id p n x a1 a2 a w1 w2 :
    nth_error (pats st) id = Some (POneOrMore p n) -> L p (x :: a1) w1 -> L id a2 w2 ->
    merge a1 a2 a -> L id (x :: a) (w1 ++ w2)
| L_empty id w : nth_error (pats st) id = Some PEmpty -> all_ws w = true -> L id [] w
| L_text id w : nth_error (pats st) id = Some PText -> all_txt w = true -> L id [] w
| L_attr_val id nc p x w :
    nth_error (pats st) id = Some (PAttribute nc p) -> contains nc (a_name x) = true ->
    L p [] [Txt (a_value x)] -> all_ws w = true -> L id [x] w
| L_attr_blank id nc p x w :
    nth_error (pats st) id = Some (PAttribute nc p) -> contains nc (a_name x) = true ->
    is_whitespace_str (a_value x) = true -> L p [] [] -> all_ws w = true -> L id [x] w
| L_element id nc p nm a k w1 w2 :
    nth_error (pats st) id = Some (PElement nc p) -> contains nc nm = true -> L p a k ->
    all_ws w1 = true -> all_ws w2 = true -> L id [] (w1 ++ Elm nm a k :: w2)
| L_data id d s w1 w2 :
    nth_error (pats st) id = Some (PDatatype d) -> dt_valid O d s = Ok true ->
    all_ws w1 = true -> all_ws w2 = true -> L id [] (w1 ++ Txt s :: w2)
| L_value id v s w1 w2 :
    nth_error (pats st) id = Some (PDatatypeValue v) -> dt_value_valid v s = Ok true ->
    all_ws w1 = true -> all_ws w2 = true -> L id [] (w1 ++ Txt s :: w2)
| L_except id d e s w1 w2 :
    nth_error (pats st) id = Some (PDatatypeExcept d e) -> dt_valid O d s = Ok true -> SM e s false ->
    all_ws w1 = true -> all_ws w2 = true -> L id [] (w1 ++ Txt s :: w2)
| L_list id p ss :
    nth_error (pats st) id = Some (PList p) -> ss <> [] ->
    L p [] (map Txt (flat_map split_whitespace ss)) -> L id [] (map Txt ss).

(** [LF id a w ks]: the current content matches with attributes [a] still to be read and content
    [w], and the remaining contents of the enclosing elements, innermost first, are [ks]. *)
Inductive LF : pid -> list attr -> list item -> list (list item) -> Prop :=
| LF_base id a w : L id a w -> LF id a w []
| LF_choice_l id l r n a w ks : nth_error (pats st) id = Some (PChoice l r n) -> LF l a w ks -> LF id a w ks
| LF_choice_r id l r n a w ks : nth_error (pats st) id = Some (PChoice l r n) -> LF r a w ks -> LF id a w ks
| LF_after id p1 p2 a w k ks :
    nth_error (pats st) id = Some (PAfter p1 p2) -> L p1 a w -> LF p2 [] k ks -> LF id a w (k :: ks).

End Lang.

(** ** Well-formedness of store patterns *)
(** Content types, an upper bound on what a pattern may contain at content level:
    [TE] only attributes and empty; [TN] no data/value/list; [TA] anything. *)
Inductive ctype : Type := TE | TN | TA.

Definition nul (st : store) (id : pid) : bool :=
  match nth_error (pats st) id with Some p => is_nullable p | None => false end.

Section Wf.
Variable O : oracles.
Variable allowed : panic -> Prop.   (* the panics a theorem tolerates *)

Definition dt_fine (d : dt) : Prop := forall s p, dt_valid O d s = Panic p -> allowed p.
Definition value_fine (v : dt_value) : Prop := forall s p, dt_value_valid v s = Panic p -> allowed p.

(** except patterns: data, value, data-except, choice, notAllowed *)
Inductive KS (st : store) : pid -> Prop :=
| KS_choice id l r n : nth_error (pats st) id = Some (PChoice l r n) -> KS st l -> KS st r -> KS st id
| KS_na id : nth_error (pats st) id = Some PNotAllowed -> KS st id
| KS_data id d : nth_error (pats st) id = Some (PDatatype d) -> dt_fine d -> KS st id
| KS_value id v : nth_error (pats st) id = Some (PDatatypeValue v) -> value_fine v -> KS st id
| KS_except id d e : nth_error (pats st) id = Some (PDatatypeExcept d e) -> dt_fine d -> KS st e -> KS st id.

(** [KM st m j t ts id]: [id] denotes a finite tree (elements are leaves) whose lists are nested at
    most [j] deep, whose current content has type at most [t], and which is enclosed in frames of
    content types [ts], innermost first.  With [m = true] the nullability flags of the current
    content are exact.  With [m = false] they may be stale, except below a oneOrMore: this is the
    state of element content built while recursive references were still placeholders;
    start_tag_close_deriv recomputes the flags (lib.rs:1148-1177). *)
Inductive KM (st : store) : bool -> nat -> ctype -> list ctype -> pid -> Prop :=
| K_choice m j t ts id l r n : nth_error (pats st) id = Some (PChoice l r n) ->
    KM st m j t ts l -> KM st m j t ts r -> (m = true -> n = nul st l || nul st r) -> KM st m j t ts id
| K_na m j t ts id : nth_error (pats st) id = Some PNotAllowed -> KM st m j t ts id
| K_after m j t t' ts id p1 p2 : nth_error (pats st) id = Some (PAfter p1 p2) ->
    KM st m j t [] p1 -> KM st true j t' ts p2 -> KM st m j t (t' :: ts) id
| K_group m j t id l r n : nth_error (pats st) id = Some (PGroup l r n) ->
    KM st m j t [] l -> KM st m j t [] r -> (m = true -> n = nul st l && nul st r) -> KM st m j t [] id
| K_inter m j t id l r n : nth_error (pats st) id = Some (PInterleave l r n) ->
    KM st m j t [] l -> KM st m j t [] r -> (m = true -> n = nul st l && nul st r) ->
    (t = TA -> KM st m j TN [] l /\ KM st m j TN [] r \/ KM st m j TE [] l \/ KM st m j TE [] r) ->
    KM st m j t [] id
| K_more m j t id p n : nth_error (pats st) id = Some (POneOrMore p n) ->
    KM st true j t [] p -> (m = true -> n = nul st p) -> KM st m j t [] id
| K_empty m j t id : nth_error (pats st) id = Some PEmpty -> KM st m j t [] id
| K_text m j t id : nth_error (pats st) id = Some PText -> t <> TE -> KM st m j t [] id
| K_attr m j j' t id nc p : nth_error (pats st) id = Some (PAttribute nc p) -> KM st true j' TA [] p -> KM st m j t [] id
| K_elem m j t id nc p : nth_error (pats st) id = Some (PElement nc p) -> t <> TE -> KM st m j t [] id
| K_data m j id d : nth_error (pats st) id = Some (PDatatype d) -> dt_fine d -> KM st m j TA [] id
| K_value m j id v : nth_error (pats st) id = Some (PDatatypeValue v) -> value_fine v -> KM st m j TA [] id
| K_except m j id d e : nth_error (pats st) id = Some (PDatatypeExcept d e) -> dt_fine d -> KS st e ->
    KM st m j TA [] id
| K_list m j id p : nth_error (pats st) id = Some (PList p) -> KM st true j TA [] p -> KM st m (S j) TA [] id.

Definition children (p : pat) : list pid :=
  match p with
  | PChoice l r _ | PInterleave l r _ | PGroup l r _ | PAfter l r => [l; r]
  | POneOrMore p _ | PAttribute _ p | PElement _ p | PDatatypeExcept _ p | PList p => [p]
  | _ => []
  end.

(** Invariant of the store after compilation.  [T] bounds the content type of the element
    patterns, by their name class. *)
Variable T : nameclass -> ctype.
Record G (st : store) : Prop := {
  G_closed : forall id p c, nth_error (pats st) id = Some p -> In c (children p) -> c < length (pats st);
  G_memo : forall p id, lookup_pat p (memo st) = Some id ->
           nth_error (pats st) id = Some p \/ is_placeholder p = true;
  G_elem : forall id nc c, nth_error (pats st) id = Some (PElement nc c) -> exists j, KM st false j (T nc) [] c
}.

Definition ext (st st' : store) : Prop := exists l, pats st' = pats st ++ l.

End Wf.

(** No two adjacent text chunks. *)
Fixpoint sep (w : list item) : Prop :=
  match w with
  | Txt _ :: ((Txt _ :: _) as w') => False
  | _ :: w' => sep w'
  | [] => True
  end.
