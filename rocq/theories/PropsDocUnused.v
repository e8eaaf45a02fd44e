(** * PropsDocUnused: declarations of prefixes a document does not use (C96).  Only statements.

    At the top of DocUnused.v: [declares p t], the token declares the prefix [p], xmlns="..." the empty one;
    [without p toks], the tokens without those that do; [uses p t], the name of the element or attribute has the prefix
    [p]; [in_tags], attributes stand in start tags.  [same_verdict] is at the end of DocPrefix.v. *)
From Coq Require Import String.
From Verif Require Import Base Datatype Store Deriv Events Lang Doc Compile Main Examples ViewExamples DocPrefix DocUnused.

(** ** C96: every schema, every prefix no name in the document has, or the empty one: the code resolves no name by xmlns="..." *)
Theorem C96_verdict : forall p O defs start toks, p = nil \/ Forall (fun t => ~ uses p t) toks -> in_tags false toks ->
  same_verdict O defs start toks (without p toks).
Proof. exact unused. Qed.
Theorem C96_error : forall p O defs start toks fuel v e, p = nil \/ Forall (fun t => ~ uses p t) toks -> in_tags false toks ->
  check O defs start toks fuel = Ok (v, e) -> exists v', check O defs start (without p toks) fuel = Ok (v', e).
Proof. exact unused_error. Qed.
(** documents *)
Theorem C96_document : forall p O defs start d, doc_wf d -> p = nil \/ Forall (fun t => ~ uses p t) (doc_tokens d) ->
  same_verdict O defs start (doc_tokens d) (without p (doc_tokens d)).
Proof. exact unused_doc. Qed.

(** <r xmlns="d" xmlns:p="u" x="1" p:y="2" xmlns:z="w"><p:a xmlns:p="v" xmlns:z="x"/><p:a/></r> without xmlns:z *)
Example C96_instance O : doc_wf spare_doc /\ Forall (fun t => ~ uses (L "z") t) (doc_tokens spare_doc) /\ without (L "z") (doc_tokens spare_doc) = doc_tokens odd_doc /\
  length (without nil (doc_tokens odd_doc)) < length (doc_tokens odd_doc) /\ accepts O nil odd_schema (doc_tokens spare_doc) /\ accepts O nil odd_schema (without nil (doc_tokens odd_doc)).
Proof.
  assert (W : doc_wf spare_doc) by (split; [constructor | split; [constructor | exact I]]). assert (W' : doc_wf odd_doc) by (split; [constructor | split; [constructor | exact I]]).
  assert (U : Forall (fun t => ~ uses (L "z") t) (doc_tokens spare_doc)) by (repeat constructor; intros K; try exact K; try discriminate K; destruct K as [K K']; try discriminate K; exact (K' eq_refl)).
  split; [exact W|]. split; [exact U|]. split; [reflexivity|]. split; [cbv; repeat constructor|]. split.
  - apply (proj1 (C96_document (L "z") O nil odd_schema spare_doc W (or_intror U))). exact (odd_accepts O).
  - apply (proj1 (C96_document nil O nil odd_schema odd_doc W' (or_introl eq_refl))). exact (odd_accepts O).
Qed.

Print Assumptions C96_verdict.
Print Assumptions C96_error.
Print Assumptions C96_document.
