(** * Property theorems about attributes that occur twice in an element (C89).  Only statements.

    At the top of AttrOnce.v: [once_in q root], no element of the tree has two attributes named [q];
    [written_once l x], no element in the source has two unprefixed attributes [l];
    [single defs q start], the schema has no group or interleave with two members that can take an
    attribute [q], and repeats nothing that can.  [Reading d read] (View.v): what the validator reads. *)
From Coq Require Import String.
From Verif Require Import Base Datatype Store Deriv Events Lang Doc Accept Compile Schema Spec Scope Main Steps View Examples Refuted AttrOnce.

(** ** C89: an attribute whose name the schema cannot give twice to an element does not occur twice in an
    element of an accepted document.  Missing: names the schema can give twice, see [C89_refuted]. *)
Theorem C89_read_once_partial : forall O defs start q, rng_schema defs start -> in_limits defs start -> single defs q start ->
  forall d, doc_wf d -> accepts O defs start (doc_tokens d) -> exists read, Reading d read /\ once_in q read.
Proof. exact accepted_once. Qed.
Theorem C89_written_once_partial : forall O defs start l, rng_schema defs start -> in_limits defs start ->
  single defs (QName None l) start -> l <> L "xmlns" ->
  forall d, doc_wf d -> accepts O defs start (doc_tokens d) -> written_once l (d_root d).
Proof. exact accepted_written_once. Qed.
(** the same of what the specification calls valid, with any tokens of lists and with or without the third weak match *)
Theorem C89_valid_once : forall sp O defs w3 q start root, single defs q start ->
  Mg sp O defs w3 nil (root :: nil) start -> once_in q root.
Proof. exact valid_once. Qed.
(** element e { attribute id { text }, attribute * - id { text }* } accepts [<e id="1" x="1" x="2"/>] *)
Theorem C89_refuted : exists start d l, rng_schema nil start /\ in_limits nil start /\ doc_wf d /\ l <> L "xmlns" /\
  ~ written_once l (d_root d) /\ forall O, accepts O nil start (doc_tokens d).
Proof. exact accepted_twice. Qed.
(** and in that schema [id] does not occur twice *)
Example C89_instance (O : oracles) : written_once (L "id") (d_root star_doc) /\ ~ written_once (L "x") (d_root star_doc).
Proof.
  exact (conj (C89_written_once_partial O nil star_schema (L "id") star_rng star_lim star_single ltac:(discriminate) star_doc star_wf (star_accepts O)) star_twice).
Qed.
Example C89_read_instance (O : oracles) : exists read, Reading star_doc read /\ once_in id_name read.
Proof. exact (C89_read_once_partial O nil star_schema id_name star_rng star_lim star_single star_doc star_wf (star_accepts O)). Qed.

Print Assumptions C89_read_once_partial.
Print Assumptions C89_written_once_partial.
Print Assumptions C89_valid_once.
Print Assumptions C89_refuted.
