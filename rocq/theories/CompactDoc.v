(** * CompactDoc: schema files given by their texts. *)
From Coq Require Import String.
From Verif Require Import Base Datatype Syntax Facets Store Deriv Lang Compile SchemaCompile Spec SourceSpec SourceScope SchemaSpec SchemaMain SchemaDoc SchemaExamples.
From Verif Require Import Main Infoset Scope Doc Verdicts Examples.
From Verif Require CompactParse CompactReadTop.
From Verif Require Import CompactText CompactPrint CompactMain.

(** ** Files of texts, and the validator on them *)
(** relaxng-model/src/lib.rs:1180-1193 [get_schema] with lib.rs:66-86 [Syntax::parse]: a file which is
    missing or is not parsed is an error.  (A panic of the parser is taken for an error here.) *)
Definition text_files (t : path -> option str) : filesys := fun f =>
  match t f with
  | Some s => match CompactParse.parse_compact s with CompactParse.Parsed x => inl x | _ => inr 1 end
  | None => inr 0
  end.
Lemma texts_are_files t fs : (forall f, match t f with Some s => exists x, fs f = inl x /\ Text x s | None => fs f = inr 0 end) -> forall f, text_files t f = fs f.
Proof.
  intros H f. specialize (H f). unfold text_files. destruct (t f) as [s|]; [|symmetry; exact H]. destruct H as (x & -> & Hx). apply CompactReadTop.schema_read in Hx. rewrite Hx. reflexivity.
Qed.
Lemma texts_ok t : (forall f s, t f = Some s -> exists x, Text x s /\ schema_ok (text_files t) f x) -> files_ok (text_files t).
Proof.
  intros H f x. unfold text_files. destruct (t f) as [s|] eqn:E; [|discriminate]. destruct (H f s E) as (y & Hy & Ho). apply CompactReadTop.schema_read in Hy. rewrite Hy. intros [= <-]. exact Ho.
Qed.
Lemma text_meaning O C t : (forall f s, t f = Some s -> exists x, Text x s /\ schema_ok (text_files t) f x) -> forall d name r st,
  compile_grammar O C (text_files t) d name = fok (r, st) -> rng_schema (cell_defs st) (start_of r st) -> in_limits (cell_defs st) (start_of r st) ->
  forall x root, doc_fits (cell_defs st) (start_of r st) x -> Document x root -> plain_for (cell_defs st) (start_of r st) root ->
  accepts O (cell_defs st) (start_of r st) (doc_tokens x) -> schema_valid (text_files t) O C name root.
Proof. intros H. exact (source_accepted_valid O C _ (texts_ok t H)). Qed.


(** the files of SchemaExamples, as texts *)
Lemma main_printable : Printable main_rnc.
Proof. let y := eval vm_compute in main_rnc in change (Printable y). unfold Printable. printable. Qed.

Lemma lib_printable : Printable lib_rnc.
Proof. let y := eval vm_compute in lib_rnc in change (Printable y). unfold Printable. printable. Qed.
Definition ex_texts (f : path) : option str :=
  if path_eqb (P "main.rnc") f then Some (print_schema main_rnc) else if path_eqb (P "lib.rnc") f then Some (print_schema lib_rnc) else None.
Lemma ex_texts_ok : forall f s, ex_texts f = Some s -> exists x, Text x s /\ schema_ok (text_files ex_texts) f x.
Proof.
  intros f s. unfold ex_texts. destruct (path_eqb (P "main.rnc") f).
  - intros [= <-]. exists main_rnc. split; [apply print_text, main_printable|]. exact (ex_files_ok (P "main.rnc") main_rnc eq_refl).
  - destruct (path_eqb (P "lib.rnc") f); [|discriminate]. intros [= <-]. exists lib_rnc. split; [apply print_text, lib_printable|]. exact (ex_files_ok (P "lib.rnc") lib_rnc eq_refl).
Qed.
Lemma ex_texts_compile O C : exists r st, compile_grammar O C (text_files ex_texts) 5 (P "main.rnc") = fok (r, st).
Proof. eexists _, _. vm_compute. reflexivity. Qed.
