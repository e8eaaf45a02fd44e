(** * PropsKept: the property theorems on what every schema that compiles keeps (C88). *)
From Coq Require Import String.
From Verif Require Import Base Datatype Facets Store Compile Syntax SchemaCompile SourceSpec SourceScope SchemaSpec SchemaMain SchemaDoc SchemaExamples SchemaGood SchemaGoodEx SchemaProgress SchemaKept SchemaKeptEx.
From Verif Require Import Main.

(** ** A schema which breaks a rule is refused: what compiles keeps every rule in SchemaGood.v, in the lenient form.
    [files_ok]: SourceSpec.v. *)
Theorem C88_kept_partial : forall O C fs, files_ok fs -> forall d name r st,
  compile_grammar O C fs d name = fok (r, st) -> lawful O C fs name.
Proof. exact compiles_lawful. Qed.
Print Assumptions C88_kept_partial.
(** where the two forms of the rules do not differ, the compiler accepts exactly the correct schemas *)
Theorem C88_exact_partial : forall O C fs, files_ok fs -> forall name, tidy fs name ->
  ((exists d r st, compile_grammar O C fs d name = fok (r, st)) <-> correct O C fs name).
Proof. exact compiles_iff_correct. Qed.
Print Assumptions C88_exact_partial.
(** without [tidy] the code accepts too much: element a { start? }, a file without any definition *)
Theorem C88_start_refuted : exists fs name, files_ok fs /\ forall O C,
  (exists r st, settles (fun d => compile_grammar O C fs d name) (fok (r, st))) /\ ~ correct O C fs name.
Proof. exact start_accepted. Qed.
Print Assumptions C88_start_refuted.

(** main.rnc compiles, is tidy, and so keeps the strict rules *)
Example C88_instance O C : files_ok ex_files /\ tidy ex_files (P "main.rnc") /\ lawful O C ex_files (P "main.rnc") /\ correct O C ex_files (P "main.rnc").
Proof.
  split; [exact ex_files_ok|]. split; [exact main_tidy|]. split; [exact (C88_kept_partial O C _ ex_files_ok _ _ _ _ (main_compiles O C))|].
  apply (C88_exact_partial O C _ ex_files_ok _ main_tidy). do 3 eexists. exact (main_compiles O C).
Qed.
(** far.rnc: externals; lawful *)
Example C88_external_instance O C : exists r st, settles (fun d => compile_grammar O C x_files d (P "x.rnc")) (fok (r, st)) /\ lawful O C x_files (P "x.rnc").
Proof.
  destruct (correct_compiles O C x_files x_files_ok (P "x.rnc") (x_correct O C)) as (r & st & N & H). exists r, st. split; [exists N; exact H|].
  exact (C88_kept_partial O C _ x_files_ok _ _ _ _ (H N (le_n N))).
Qed.
