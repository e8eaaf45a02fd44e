(** * RefutedCompact: properties of the compact syntax the parser does not have, with witnesses. *)
From Coq Require Import String.
From Verif Require Import Base Datatype Syntax CompactParse CompactTotal CompactText CompactMain.
Definition txt (s : string) : str := lit s ++ LF.

(** ** C48: a schema whose last line is a comment without line feed makes the parser panic *)
Theorem C48_comment_refuted : parse_compact (lit "start = empty # done") = ParsePanic PUnimplemented.
Proof. vm_compute. reflexivity. Qed.
(** a follow annotation after a name class panics *)
Theorem C48_follow_refuted : parse_compact (txt "start = element a >> b [] { text }") = ParsePanic PUnwrapNone.
Proof. vm_compute. reflexivity. Qed.

(** ** C35: a reference to a name which begins with [string] or [token] is refused *)
Theorem C35_reference_refuted : NCName (lit "tokens") /\ ~ In (lit "tokens") Keywords /\ parse_compact (txt "start = tokens") = ParseError.
Proof. split; [nc|]. split; [nokw | vm_compute; reflexivity]. Qed.
(** a quoted keyword keeps its backslash: [\element] and [elements] style names differ from the NCName [element] of the XML syntax *)
Theorem C35_quoted_refuted : parse_compact (txt "\element = empty") = Parsed (Schema [] (TGrammar [GDefine (lit "\element") MAssign SEmpty])).
Proof. vm_compute. reflexivity. Qed.
(** as an element name too: the element described is called [\list] *)
Theorem C35_quoted_name_refuted : parse_compact (txt "element \list { empty }") = Parsed (Schema [] (TPattern (SElement (CName (NmId (IKId (lit "\list")))) SEmpty))).
Proof. vm_compute. reflexivity. Qed.

(** ** C34: texts of the compact syntax which are refused *)
(** [default namespace = "u"] without white space before the equals sign *)
Theorem C34_default_refuted : parse_compact (txt "default namespace=""u"" start = empty") = ParseError.
Proof. vm_compute. reflexivity. Qed.
(** definitions which are not separated by white space *)
Theorem C34_separator_refuted : parse_compact (txt "start = (a)a = empty") = ParseError.
Proof. vm_compute. reflexivity. Qed.
(** a definition with an initial annotation *)
Theorem C34_annotated_definition_refuted : parse_compact (txt "[ a:b = ""c"" ] start = empty") = ParseError.
Proof. vm_compute. reflexivity. Qed.
(** a schema which is an element pattern with an annotated name *)
Theorem C34_annotated_name_refuted : parse_compact (txt "element [ a:b = ""c"" ] foo { text }") = ParseError.
Proof. vm_compute. reflexivity. Qed.
(** a character escape of section "escape sequences" of the standard *)
Theorem C34_escape_refuted : parse_compact (txt "start = \x{65}mpty") = ParseError.
Proof. vm_compute. reflexivity. Qed.

(** ** C49: texts which are not of the compact syntax and are accepted *)
(** different infix operators mixed without parentheses; they group to the right *)
Theorem C49_mixed_operators_refuted : parse_compact (txt "start = a, b | c") =
  Parsed (Schema [] (TGrammar [GDefine (lit "start") MAssign (SListPair (SIdent (lit "a")) (SChoicePair (SIdent (lit "b")) (SIdent (lit "c"))))])).
Proof. vm_compute. reflexivity. Qed.
(** an exception takes the operators after it: the grammar has [xsd:string - ("a" | "b")] for that only *)
Theorem C49_except_refuted : parse_compact (txt "start = xsd:string - ""a"" | ""b""") =
  Parsed (Schema [] (TGrammar [GDefine (lit "start") MAssign (SData (SdC (lit "xsd") (lit "string")) None (Some (SChoicePair (SValue None [lit "a"]) (SValue None [lit "b"]))))])).
Proof. vm_compute. reflexivity. Qed.
Theorem C49_name_except_refuted : parse_compact (txt "element * - a | b { empty }") =
  Parsed (Schema [] (TPattern (SElement (CAny (Some (CAlt (CName (NmId (IKId (lit "a")))) (CName (NmId (IKId (lit "b"))))))) SEmpty))).
Proof. vm_compute. reflexivity. Qed.
