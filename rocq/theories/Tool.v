(** * Tool: the command line tool (relaxng-tool/src/main.rs:16-56), [rng validate SCHEMA XML...].

    Simplifications.  Command line parsing (structopt) is left out.  A document that cannot be opened
    or is not UTF-8 is [None].  A readable document is its text, the tokens the tokenizer delivers and,
    if it reports an XML error, the row of that error; [d_spans] gives for each number of tokens read
    the span the error at that point is about.  What is printed is left out, except that computing it
    may panic.  A process that panics ends with status 101. *)
From Verif Require Import Base Datatype Store Deriv Events Facets Syntax Compile SchemaCompile SchemaMain Diag.

Record document : Type := Document_ {
  d_text : str;
  d_toks : list token;
  d_error : option nat;
  d_spans : nat -> span
}.

Section Tool.
Variable O : oracles.
Variable C : coracles.
Variable order : list pat -> list pat.

(** main.rs:39-54: the loop over [validate_next]; [k] tokens have been read.  [true]: the document passed;
    [false]: an error was shown and the process exits *)
Fixpoint doc_loop (fuel : nat) (v : validator) (d : document) (k : nat) (toks : list token) : res bool :=
  match toks with
  | [] => match d_error d with
          | None => Ok true
          | Some row =>
              rbind (validate_next O fuel v None) (fun '(v', e) =>
                match e with
                | None => Ok true                      (* after an error the tokenizer delivers nothing *)
                | Some _ => rbind (diagnostic fuel order v' (d_text d) (DXml row)) (fun _ => Ok false)
                end)
          end
  | t :: rest =>
      rbind (validate_next O fuel v (Some t)) (fun '(v', e) =>
        match e with
        | None => doc_loop fuel v' d (S k) rest
        | Some err => rbind (diagnostic fuel order v' (d_text d) (DVal err (d_spans d k))) (fun _ => Ok false)
        end)
  end.
(** main.rs:31-55: the loop over the documents *)
Fixpoint docs_loop (fuel : nat) (defs : list mpat) (start : mpat) (docs : list (option document)) : res nat :=
  match docs with
  | [] => Ok 0
  | None :: _ => Panic PUnwrapNone                     (* main.rs:32, 34: expect *)
  | Some d :: rest =>
      rbind (new_validator defs fuel (Some start)) (fun v =>
      rbind (doc_loop fuel v d 0 (d_toks d)) (fun ok : bool => if ok then docs_loop fuel defs start rest else Ok 2))
  end.
(** main.rs:22-56 [validate]: the exit code *)
Definition tool (fs : filesys) (name : path) (docs : list (option document)) (fuel : nat) : res nat :=
  match compile_grammar O C fs fuel name with
  | Ok (inl (r, st)) => docs_loop fuel (cell_defs st) (start_of r st) docs
  | Ok (inr e) => rbind (schema_diagnostic e) (fun _ => Ok 1)
  | Panic p => Panic p
  | OutOfFuel => OutOfFuel
  end.
End Tool.

(** The exit status of the process. *)
Definition status (r : res nat) : option nat := match r with Ok n => Some n | Panic _ => Some 101 | OutOfFuel => None end.
