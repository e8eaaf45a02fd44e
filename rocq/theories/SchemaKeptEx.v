(** * SchemaKeptEx: main.rnc of SchemaExamples is [tidy] (SchemaGood.v). *)
From Coq Require Import String.
From Verif Require Import Base Datatype Facets Store Compile Syntax SchemaCompile SourceSpec SourceScope SchemaSpec SchemaDoc SchemaMain SchemaExamples SchemaTerm SchemaGood SchemaGoodEx.
From Verif Require Import Main.
Ltac inv H := inversion H; subst; clear H.
Lemma main_tidy : tidy ex_files (P "main.rnc").
Proof.
  split; [|split].
  - intros m f s l g n HT Es Ho Hg Hn. apply main_chain in HT. destruct HT as [[_ ->]|[_ ->]]; vm_compute in Es; injection Es as <-; includes; names; auto.
  - intros m f s h f' ds l HT Es Ho Hr K. apply main_chain in HT. destruct HT as [[_ ->]|[_ ->]]; vm_compute in Es; injection Es as <-; includes.
  - intros ds p k n E. vm_compute in E. discriminate E.
Qed.
(** s.rnc: element a { start? } *)
Definition s_files : filesys := files [(P "s.rnc", Schema [] (TPattern (tag "a" (SOptional (ref "start")))))].
Lemma s_incorrect O C : ~ correct O C s_files (P "s.rnc").
Proof.
  intros (_ & _ & _ & _ & K). cbn in K. destruct K as [_ K]. destruct (K 0 (lit "start")) as [E _]; [|discriminate E].
  eapply Na_child; [constructor|]. eapply Na_child; [constructor|]. constructor.
Qed.
Lemma s_files_ok : files_ok s_files.
Proof. apply files_are_ok. constructor; [|constructor]. split; [exact no_decls|]. cbn. exact I. Qed.
Lemma start_accepted : exists fs name, files_ok fs /\ forall O C,
  (exists r st, settles (fun d => compile_grammar O C fs d name) (fok (r, st))) /\ ~ correct O C fs name.
Proof.
  exists s_files, (P "s.rnc"). split; [exact s_files_ok|]. intros O C. split; [|apply s_incorrect].
  eexists _, _. exists 2. intros d Hd. rewrite (compile_mono O C s_files 2 d _ Hd); [vm_compute; reflexivity | vm_compute; discriminate].
Qed.
