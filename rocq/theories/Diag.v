(** * Diag: the diagnostics of the validator (relaxng-validator/src/lib.rs:1201-1457) and of the
    schema compiler (relaxng-model/src/lib.rs:763-1166), as far as they can panic, plus the text of
    the "Expected ..." help.

    Simplifications.  A [HashSet] is a list without duplicates; its iteration order is arbitrary, so
    [describe] takes the elements in the order they are visited.  Of a diagnostic only the span and
    the help text are kept.  The spans of tokens and prefixes are [StrSpan]s of the document; the
    model does not carry them, so they are an argument.  Spans are byte offsets.  [codemap] is
    modelled as documented by that crate: a span is cut by [subspan], which asserts begin <= end <= length;
    [line_span] asserts that there is such a line, counted from 0; lines end after '\n'. *)
From Coq Require Import String.
From Verif Require Import Base Datatype Store Deriv Events Facets Syntax SchemaCompile.

(** ** What is expected (lib.rs:1200-1324) *)
(** HashSet::insert *)
Definition insert (x : pat) (l : list pat) : list pat := if in_dec pat_eq_dec x l then l else x :: l.
(** lib.rs:1207-1250 [head] *)
Fixpoint head (fuel : nat) (st : store) (result : list pat) (p : pid) : res (list pat) :=
  match fuel with
  | 0 => OutOfFuel
  | S fuel =>
    match nth_error (pats st) p with
    | None => Panic PIndex
    | Some pat =>
      match pat with
      | PChoice p1 p2 _ => rbind (head fuel st result p1) (fun r => head fuel st r p2)
      | PInterleave p1 p2 _ => rbind (head fuel st result p1) (fun r => head fuel st r p2)
      | PGroup p1 p2 _ =>
          match nth_error (pats st) p1 with
          | None => Panic PIndex
          | Some x1 => if is_nullable x1 then head fuel st result p1
                       else rbind (head fuel st result p1) (fun r => head fuel st r p2)
          end
      | POneOrMore p _ => head fuel st result p
      | PEmpty => Ok result
      | PText => Ok result
      | PNotAllowed => Ok result
      | PAttribute _ _ => Ok (insert pat result)
      | PElement _ _ => Ok (insert pat result)
      | PDatatype _ => Ok (insert pat result)
      | PDatatypeValue _ => Ok (insert pat result)
      | PDatatypeExcept _ _ => Ok (insert pat result)
      | PList p => head fuel st result p
      | PPlaceholder _ => Panic PanPlaceholder
      | PAfter p _ => head fuel st result p
      end
    end
  end.
(** lib.rs:1201-1205 [heads] *)
Definition heads (fuel : nat) (st : store) (p : pid) : res (list pat) := head fuel st [] p.

(** lib.rs:1291-1324 [describe_nameclass] *)
Fixpoint describe_nameclass (nc : nameclass) (desc : str) : str :=
  match nc with
  | NNamed _ name => desc ++ name
  | NNsName u ex =>
      let d := (desc ++ u) ++ lit ":*" in
      match ex with Some e => describe_nameclass e (d ++ lit "-") | None => d end
  | NAnyName ex =>
      let d := desc ++ lit "*" in
      match ex with Some e => describe_nameclass e (d ++ lit "-") | None => d end
  | NAlt a b => describe_nameclass b (describe_nameclass a desc ++ lit "|")
  end.
Definition element_class (p : pat) : list nameclass := match p with PElement nc _ => [nc] | _ => [] end.
(** decimal digits of a number ([format!("{rest}")]) *)
Fixpoint decimal (fuel n : nat) : str :=
  let d := [(48 + N.of_nat (n mod 10))%N] in
  match fuel with 0 => d | S fuel => if n <? 10 then d else decimal fuel (n / 10) ++ d end.
(** lib.rs:1259-1284: the loop *)
Fixpoint describe_loop (i : nat) (result : str) (rest : nat) (l : list nameclass) : str * nat :=
  match l with
  | [] => (result, rest)
  | nc :: l' =>
      let result := if i =? 0 then result ++ lit "Element " else result in
      if 4 <=? i then describe_loop (S i) result (S rest) l'
      else
        let result := if 0 <? i then result ++ [32%N] else result in
        describe_loop (S i) (result ++ describe_nameclass nc []) rest l'
  end.
(** lib.rs:1252-1290 [describe_expected], for the visiting order [order] of the set *)
Definition describe (order : list pat) : str :=
  let '(result, rest) := describe_loop 0 [] 0 (flat_map element_class order) in
  if 0 <? rest then result ++ lit " .. or one of " ++ decimal rest rest ++ lit " more" else result.
(** lib.rs:1395-1400 *)
Definition help_text (desc : str) : str :=
  match desc with [] => lit "Remove this" | _ => lit "Expected " ++ desc end.

(** ** Spans *)
Definition span := (nat * nat)%type.
(** codemap::Span::subspan, relative to a span [(lo, hi)] *)
Definition subspan (s : span) (b e : nat) : res span :=
  if (b <=? e) && (fst s + e <=? snd s) then Ok (fst s + b, fst s + e) else Panic PUnreachable.
(** codemap::CodeMap::add_file: the offsets at which lines start, from [pos] on *)
Fixpoint line_starts (pos : nat) (text : str) : list nat :=
  match text with
  | [] => []
  | c :: r => if (c =? 10)%N then S pos :: line_starts (S pos) r else line_starts (pos + utf8_width c) r
  end.
Definition file_span (text : str) : span := (0, utf8_len text).
(** codemap::File::line_span *)
Definition line_span (text : str) (line : nat) : res span :=
  let starts := 0 :: line_starts 0 text in
  match nth_error starts line with
  | None => Panic PUnreachable
  | Some lo => Ok (lo, nth (S line) starts (utf8_len text))
  end.

(** ** Validator::diagnostic (lib.rs:1326-1455) *)
(** an error together with what the model's [verror] leaves out: the row of an XML error, the span of a token or prefix *)
Inductive derror : Type :=
| DXml (row : nat)
| DVal (e : verror) (sp : span).
(** the span of the first diagnostic, and the help text if there is one; [order]: how the set of heads is visited *)
Definition diagnostic (fuel : nat) (order : list pat -> list pat) (v : validator) (text : str) (e : derror) : res (span * option str) :=
  let file := file_span text in
  match e with
  | DXml row =>                                        (* lib.rs:1336-1352 *)
      rbind (line_span text row) (fun line => rbind (subspan line row row) (fun s => Ok (s, None)))
  | DVal EXml sp => Ok (sp, None)                      (* not used: XML errors are [DXml] *)
  | DVal (ENotAllowed _) sp =>                         (* lib.rs:1353-1407 *)
      rbind (subspan file (fst sp) (snd sp)) (fun s =>
      rbind (heads fuel (v_store v) (v_cur v)) (fun h => Ok (s, Some (help_text (describe (order h))))))
  | DVal (EUndefinedPrefix _) sp =>                    (* lib.rs:1408-1424 *)
      rbind (subspan file (fst sp) (snd sp)) (fun s => Ok (s, None))
  | DVal (EUndefinedEntity _ lo hi) _ =>               (* lib.rs:1425-1438 *)
      rbind (subspan file lo hi) (fun s => Ok (s, None))
  | DVal (EInvalidEntity lo hi) _ =>                   (* lib.rs:1439-1452 *)
      rbind (subspan file lo hi) (fun s => Ok (s, None))
  end.

(** ** Compiler::diagnostic (relaxng-model/src/lib.rs:773-1166): which errors it has no text for.
    [EFile] stands for an I/O or syntax error, all of which have a text. *)
Fixpoint schema_diagnostic (e : rerror) : res unit :=
  match e with
  | EInclude e => schema_diagnostic e                        (* lib.rs:775-789 *)
  | EDatatype (DFacet FConflict) => Panic PUnimplemented     (* lib.rs:925-927 *)
  | EDatatypePrefixAlreadyDefined _ => Panic PUnreachable    (* lib.rs:1164 *)
  | _ => Ok tt
  end.
