(** * PropsDocWhere: where the text of a document stands in its file (C97).  Only statements.

    At the top of DocWhere.v: [no_offset t], a token with 0 for the offset of its text; [no_range e], an error with 0 for
    every offset in it; at its end [later n t], a text [n] bytes later.  [same_verdict] is at the end of DocPrefix.v. *)
From Coq Require Import String.
From Verif Require Import Base Datatype Store Deriv Events Lang Doc Compile Main Examples DocPrefix DocWhere.

(** ** C97: every schema, every two sequences of tokens that differ in offsets only *)
Theorem C97_verdict : forall O defs start toks toks', map no_offset toks' = map no_offset toks -> same_verdict O defs start toks toks'.
Proof. exact where_verdict. Qed.
(** the error is about the same token or entity *)
Theorem C97_error : forall O defs start toks toks' fuel v e, map no_offset toks' = map no_offset toks -> check O defs start toks fuel = Ok (v, Some e) ->
  exists e', check O defs start toks' fuel = Ok (v, Some e') /\ no_range e' = no_range e.
Proof. exact where_error. Qed.

Example C97_instance O : accepts O ex_defs ex_start (map (later 7) (doc_tokens ex_doc)) /\ map (later 7) (doc_tokens ex_doc) <> doc_tokens ex_doc /\
  rejects O ex_defs ex_start (map (later 7) ex_bad_seen).
Proof.
  split; [|split].
  - apply (proj1 (C97_verdict O ex_defs ex_start (doc_tokens ex_doc) _ (later_same 7 _))). exact (ex_accepts O).
  - intros K. vm_compute in K. discriminate K.
  - apply (proj1 (proj2 (C97_verdict O ex_defs ex_start ex_bad_seen _ (later_same 7 _)))). exact (ex_bad_rejected O).
Qed.

Print Assumptions C97_verdict.
Print Assumptions C97_error.
