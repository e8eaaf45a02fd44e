(** * PropsSyntaxError: the property theorems on the position of a compact syntax error (C85). *)
From Coq Require Import String.
From Verif Require Import Base Syntax Located CompactText CompactMain CompactError CompactErrorSim CompactErrorProof.
From Verif Require CompactParse CompactSound.

(** ** C85: the text before the position of a syntax error is right: it begins some text of the compact syntax, and the
    position runs from its end to the end of the file, in bytes.
    [LaxText x s] (CompactText.v) says that [s] is a text of the compact syntax, and denotes [x]; it mentions no parser. *)
Theorem C85_right_before : forall text sp, parse_where text = ParseError sp ->
  exists before rest, text = before ++ rest /\
    sp = (N.of_nat (utf8_len before), N.of_nat (utf8_len text)) /\
    exists x more, LaxText x (before ++ more).
Proof. exact parse_wrong. Qed.
Print Assumptions C85_right_before.
(** hence a mistake is never before the position: a beginning of the text which begins no text of the compact syntax is
    not wholly before it *)
Theorem C85_mistake_not_before : forall text start end_ good bad rest, parse_where text = ParseError (start, end_) ->
  text = good ++ bad ++ rest -> (forall x more, ~ LaxText x (good ++ bad ++ more)) ->
  (start < N.of_nat (utf8_len (good ++ bad)))%N.
Proof. exact mistake_not_before. Qed.
Print Assumptions C85_mistake_not_before.
(** the parser with positions accepts, rejects and panics as the one of C34, C48 and C49 *)
Theorem C85_agrees : forall text,
  CompactParse.parse_compact text = match parse_where text with
                                    | Parsed x => CompactParse.Parsed x
                                    | ParseError _ => CompactParse.ParseError
                                    | ParsePanic p => CompactParse.ParsePanic p
                                    | ParseFuel => CompactParse.ParseFuel
                                    end.
Proof. exact agrees. Qed.
Print Assumptions C85_agrees.
(** every text that is not of the compact syntax is rejected with such a position, or panics (C48) *)
Theorem C85_every_wrong_text : forall text, (forall x, ~ LaxText x text) ->
  (exists before rest x more, text = before ++ rest /\ LaxText x (before ++ more) /\
     parse_where text = ParseError (N.of_nat (utf8_len before), N.of_nat (utf8_len text))) \/
  exists p, parse_where text = ParsePanic p.
Proof. exact every_wrong_text. Qed.
Print Assumptions C85_every_wrong_text.

(** positions: after the brace, where the pattern is missing; at the end, where [}] is; at the text after the schema;
    at [~] in the middle of a file of two-byte characters *)
Example C85_no_pattern : parse_where (lit "start = element a { }") = ParseError (20, 21)%N.
Proof. vm_compute. reflexivity. Qed.
Example C85_unclosed : parse_where (lit "start = element a { empty") = ParseError (25, 25)%N.
Proof. vm_compute. reflexivity. Qed.
Example C85_after_schema : parse_where (lit "start = element a { empty } b") = ParseError (28, 29)%N.
Proof. vm_compute. reflexivity. Qed.
Example C85_bytes : parse_where (233%N :: lit " = " ++ 233%N :: lit ", ~ empty") = ParseError (9, 16)%N.
Proof. vm_compute. reflexivity. Qed.
Example C85_nested : parse_where (lit "start = element a { (b | list { c & }) }") = ParseError (36, 40)%N.
Proof. vm_compute. reflexivity. Qed.

(** ** What does not hold: that the position is where the mistake is.
    [element { empty }] lacks a name; the position is that of [element], although the text up to the brace begins a
    right text. *)
Theorem C85_exact_refuted : exists text before more_before rest x more,
  text = before ++ more_before ++ rest /\ more_before <> [] /\
  parse_where text = ParseError (N.of_nat (utf8_len before), N.of_nat (utf8_len text)) /\
  LaxText x (before ++ more_before ++ more).
Proof. exact not_exact. Qed.
Print Assumptions C85_exact_refuted.
(** a mistake in a declaration is reported at the beginning of the declaration *)
Theorem C85_declaration_refuted : exists decl_begun rest x more,
  parse_where (decl_begun ++ rest) = ParseError (0, N.of_nat (utf8_len (decl_begun ++ rest)))%N /\
  decl_begun = lit "namespace a = " /\ LaxText x (decl_begun ++ more).
Proof. exact not_exact_decl. Qed.
Print Assumptions C85_declaration_refuted.
