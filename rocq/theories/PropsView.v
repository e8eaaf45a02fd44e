(** * Property theorems about documents of any kind (C06, C14, C15, C38, C47).  Only statements.

    [Reading d root] (View.v): what the validator reads in [d]: a prefix means what the last
    element started so far declared for it, closed or not; unprefixed names are in no namespace;
    attribute values are literal; character data comes in the pieces the tokenizer delivers.  [merged]
    (Infoset.v): the pieces joined.  [pieces_fit] (View.v): no pieces where the schema has data;
    [content_fits]: and, if the schema uses lists, no white space outside XML's.  [M _ _ false]: validity without weak match 3 (Spec.v). *)
From Coq Require Import Permutation String.
From Verif Require Import Base Datatype Store Deriv Events Lang Doc Accept Compile Schema Spec SpecFacts Scope Infoset InfosetProof Main Steps Perm Verdicts View Examples ViewExamples.

(** ** C47.  Missing: data, values and lists in several pieces, see [C19_refuted]. *)
Theorem C47_verdict_on_reading_partial : forall O defs start, rng_schema defs start -> in_limits defs start ->
  forall d, doc_wf d -> (forall root, Reading d root -> content_fits defs start root) -> ~ overflows O defs start (doc_tokens d) ->
  (accepts O defs start (doc_tokens d) <-> exists root, Reading d root /\ M O defs false [] [merged root] start).
Proof. exact view_accepts. Qed.
(** the same whatever the white space, lists being split at Unicode white space *)
Theorem C47_verdict_any_white_space_partial : forall O defs start, rng_schema defs start -> in_limits defs start ->
  forall d, doc_wf d -> (forall root, Reading d root -> pieces_fit defs start root) -> ~ overflows O defs start (doc_tokens d) ->
  (accepts O defs start (doc_tokens d) <-> exists root, Reading d root /\ Mg is_uni_ws O defs false [] [merged root] start).
Proof. exact view_accepts_uni. Qed.
Print Assumptions C47_verdict_any_white_space_partial.
(** no hypothesis on the content: every document gets a verdict *)
Theorem C47_settles : forall O defs start, rng_schema defs start -> in_limits defs start -> forall d, doc_wf d ->
  accepts O defs start (doc_tokens d) \/ rejects O defs start (doc_tokens d) \/ overflows O defs start (doc_tokens d).
Proof. exact view_settles. Qed.
(** a document with a prefix never declared so far, or a bad reference, is rejected *)
Theorem C47_unreadable_rejected : forall O defs start, rng_schema defs start -> in_limits defs start ->
  forall d, doc_wf d -> (forall root, ~ Reading d root) -> rejects O defs start (doc_tokens d) \/ overflows O defs start (doc_tokens d).
Proof. exact unread_rejected. Qed.
Theorem C47_one_reading : forall d r r', Reading d r -> Reading d r' -> r = r'.
Proof. exact reading_fun. Qed.
(** within [doc_reads] what is read, character data joined, is what the document says *)
Theorem C47_reading_is_content_partial : forall d root, doc_reads d -> Document d root -> ReadsAs d root.
Proof. exact scope_reading. Qed.
(** a document in which a default namespace and a prefix redeclared by a closed sibling occur *)
Example C47_instance O : exists root, Reading odd_doc root /\ M O [] false [] [merged root] odd_schema.
Proof. exact (proj1 (C47_verdict_on_reading_partial O [] odd_schema odd_rng odd_lim odd_doc odd_wf odd_content (odd_no_overflow O)) (odd_accepts O)). Qed.
Example C47_unreadable_instance O : rejects O [] odd_schema (doc_tokens unread_doc) \/ overflows O [] odd_schema (doc_tokens unread_doc).
Proof. exact (C47_unreadable_rejected O [] odd_schema odd_rng odd_lim unread_doc unread_wf unread_none). Qed.
Example C47_scope_instance : ReadsAs ex_doc ex_root /\ ReadsAs mix_doc mix_root.
Proof. exact (conj (C47_reading_is_content_partial ex_doc ex_root (scope_reads _ ex_scope) ex_document) (C47_reading_is_content_partial mix_doc mix_root mix_reads mix_document)). Qed.

(** ** C06, without [doc_reads].  [once]: no prefix is declared twice in one start tag. *)
Theorem C06_any_document_partial : forall O defs start d d', rng_schema defs start -> in_limits defs start -> doc_wf d -> once (d_root d) ->
  (forall root, Reading d root -> pieces_fit defs start root) -> reordered d d' ->
  ~ overflows O defs start (doc_tokens d) -> ~ overflows O defs start (doc_tokens d') ->
  (accepts O defs start (doc_tokens d) <-> accepts O defs start (doc_tokens d')).
Proof. exact view_order. Qed.
Example C06_any_instance O : accepts O [] odd_schema (doc_tokens odd_doc) <-> accepts O [] odd_schema (doc_tokens odd_doc').
Proof. exact (C06_any_document_partial O [] odd_schema odd_doc odd_doc' odd_rng odd_lim odd_wf odd_once (fun r H => proj1 (odd_content r H)) odd_reordered (odd_no_overflow O) (odd_no_overflow' O)). Qed.

(** ** C38, without [doc_reads]: documents that are read alike, character data joined, get one verdict *)
Theorem C38_reading_decides_partial : forall O defs start d d', rng_schema defs start -> in_limits defs start -> doc_wf d -> doc_wf d' ->
  (forall root, Reading d root -> pieces_fit defs start root) -> (forall root, Reading d' root -> pieces_fit defs start root) ->
  (forall r, ReadsAs d r <-> ReadsAs d' r) ->
  ~ overflows O defs start (doc_tokens d) -> ~ overflows O defs start (doc_tokens d') ->
  (accepts O defs start (doc_tokens d) <-> accepts O defs start (doc_tokens d')).
Proof. exact view_content. Qed.
Example C38_reading_instance O : accepts O [] odd_schema (doc_tokens odd_doc) <-> accepts O [] odd_schema (doc_tokens odd_doc2).
Proof. exact (C38_reading_decides_partial O [] odd_schema odd_doc odd_doc2 odd_rng odd_lim odd_wf odd_wf2 (fun r H => proj1 (odd_content r H)) (fun r H => proj1 (odd_content2 r H)) odd_same (odd_no_overflow O) (odd_no_overflow2 O)). Qed.

(** ** C19: how character data is cut up does not matter outside data, values and lists.  [SplitIn]:
    the elements in which it comes in pieces; [no_data]: the schema gives elements of that name no
    data content.  Missing: data content, see [C19_refuted]. *)
Theorem C19_pieces_partial : forall O defs start, rng_schema defs start -> in_limits defs start ->
  forall d root, doc_reads d -> (forall q, SplitIn initial_env (d_root d) q -> no_data defs start q) ->
  Document d root -> plain_for defs start root -> ~ overflows O defs start (doc_tokens d) ->
  (accepts O defs start (doc_tokens d) <-> M O defs false [] [root] start).
Proof. exact pieces_decide. Qed.
Example C19_instance O : SplitIn initial_env (d_root mix_doc) (plain_name "p") /\ SplitIn initial_env (d_root mix_doc) (plain_name "b") /\
  M O [] false [] [mix_root] mix_schema.
Proof.
  refine (conj (proj1 mix_split) (conj (proj2 mix_split) _)).
  exact (proj1 (C19_pieces_partial O [] mix_schema mix_rng mix_lim mix_doc mix_root mix_reads (fun q _ => mix_no_data q) mix_document (fun _ => mix_plain) (mix_no_overflow O)) (mix_accepts O)).
Qed.

(** ** C11 for every value, references and line ends taken literally.  Missing: white space outside XML's, see [C12_refuted]. *)
Theorem C11_literal_value_partial : forall O defs l nc p x v sc,
  rng_schema defs (MElement (NNamed [] l) (MAttribute nc p)) -> in_limits defs (MElement (NNamed [] l) (MAttribute nc p)) ->
  ordinary_name x -> (uses_lists defs p = true -> plain v) ->
  ~ overflows O defs (MElement (NNamed [] l) (MAttribute nc p)) (doc_tokens (el1 l [([], x, v)] sc)) ->
  (accepts O defs (MElement (NNamed [] l) (MAttribute nc p)) (doc_tokens (el1 l [([], x, v)] sc)) <->
   in_class nc (QName None x) /\ (blank v /\ M O defs true [] [] p \/ M O defs true [] [Txt v] p)).
Proof. exact literal_value. Qed.
Theorem C11_literal_value_exact : forall O defs l nc p x v sc,
  rng_schema defs (MElement (NNamed [] l) (MAttribute nc p)) -> in_limits defs (MElement (NNamed [] l) (MAttribute nc p)) ->
  ordinary_name x ->
  ~ overflows O defs (MElement (NNamed [] l) (MAttribute nc p)) (doc_tokens (el1 l [([], x, v)] sc)) ->
  (accepts O defs (MElement (NNamed [] l) (MAttribute nc p)) (doc_tokens (el1 l [([], x, v)] sc)) <->
   in_class nc (QName None x) /\ (blank v /\ Mg is_uni_ws O defs true [] [] p \/ Mg is_uni_ws O defs true [] [Txt v] p)).
Proof. exact literal_value_uni. Qed.
Print Assumptions C11_literal_value_exact.
Example C11_literal_instance O : accepts O [] (MElement (NNamed [] (L "e")) (MAttribute (NNamed [] (L "x")) (MValue (VString (L "&lt;"))))) (doc_tokens (el1 (L "e") [([], L "x", L "&lt;")] true)).
Proof.
  refine (proj2 (C11_literal_value_partial O [] (L "e") _ _ (L "x") (L "&lt;") true amp_rng amp_lim _ _ (amp_no_overflow O)) _).
  - discriminate.
  - discriminate.
  - split; [split; reflexivity|]. right. apply M_value. reflexivity.
Qed.

(** ** C17.  Missing: data accepting the empty string, which the code rejects, see [C17_refuted]. *)
Theorem C17_empty_element_partial : forall O defs l p sc, rng_schema defs (MElement (NNamed [] l) p) -> in_limits defs (MElement (NNamed [] l) p) ->
  ~ overflows O defs (MElement (NNamed [] l) p) (doc_tokens (el1 l [] sc)) ->
  (accepts O defs (MElement (NNamed [] l) p) (doc_tokens (el1 l [] sc)) <-> M O defs true [] [] p).
Proof. exact empty_accepts. Qed.
Example C17_instance O : M O [] true [] [] (MZeroOrMore (MElement (NNamed [] (L "a")) MText)).
Proof. exact (proj1 (C17_empty_element_partial O [] (L "e") _ true many_rng many_lim (many_no_overflow O)) (many_accepts O)). Qed.

Print Assumptions C47_verdict_on_reading_partial.
Print Assumptions C47_settles.
Print Assumptions C47_unreadable_rejected.
Print Assumptions C47_one_reading.
Print Assumptions C47_reading_is_content_partial.
Print Assumptions C06_any_document_partial.
Print Assumptions C38_reading_decides_partial.
Print Assumptions C11_literal_value_partial.
Print Assumptions C17_empty_element_partial.

Print Assumptions C19_pieces_partial.
