(** * Property theorems about documents whose character data comes in pieces (C01, C19, C47).  Only statements.

    [Reading d read] (View.v): what the validator reads in [d], character data in the pieces the
    tokenizer delivers.  [condensed read root] (top of Condense.v): [root] is [read] with the pieces
    of each element taken as one string: joined; or, of pieces that are blank but for one, that one;
    or with a space between any two.  [rng_valid]: RELAX NG validity (Spec.v). *)
From Coq Require Import Permutation String.
From Verif Require Import Base Datatype Store Deriv Events Lang Doc Accept Compile Schema Spec SpecFacts Scope Infoset InfosetProof Main Steps Perm Verdicts View Condense Examples Reach Words Refuted CondenseExamples.

(** ** C01, C47: no hypothesis on the document's content.  Missing: the pieces ought to be joined only, see [C19_false_accept_refuted]. *)
Theorem C01_accepted_as_read_partial : forall O defs start, rng_schema defs start -> in_limits defs start ->
  forall d read, doc_wf d -> Reading d read -> plain_for defs start read -> accepts O defs start (doc_tokens d) ->
  exists root, condensed read root /\ rng_valid O defs start root.
Proof. exact accepted_condensed. Qed.
Theorem C47_accepted_any_content_partial : forall O defs start, rng_schema defs start -> in_limits defs start ->
  forall d, doc_wf d -> accepts O defs start (doc_tokens d) ->
  exists read root, Reading d read /\ condensed read root /\ Mg is_uni_ws O defs true [] [root] start.
Proof. exact accepted_condensed_uni. Qed.
(** character data in one piece is taken as it is *)
Theorem C47_whole_pieces : forall read root, condensed read root -> pieces read = [] -> root = read.
Proof. exact condensed_whole. Qed.
Example C01_as_read_instance O : exists root, condensed cut_read root /\ rng_valid O [] two_list root.
Proof. exact (C01_accepted_as_read_partial O [] two_list two_rng two_lim cut_doc cut_read cut_wf cut_reading (fun _ => cut_plain) (cut_accepts O)). Qed.
Example C47_any_content_instance O : exists read root, Reading trail_doc read /\ condensed read root /\ Mg is_uni_ws O [] true [] [root] (string_el (L "e") (L "ab")).
Proof. exact (C47_accepted_any_content_partial O [] _ (no_refs_rng _ _) (no_refs_lim _ _) trail_doc trail_wf (trail_accepts O)). Qed.

(** ** C19: both further ways occur: [<e>a<!--x-->b</e>] is accepted as the list of "a" and "b", and
    [<e>ab<!--x-->  </e>] as the string "ab" *)
Theorem C19_false_accept_refuted :
  (exists start d root, rng_schema [] start /\ in_limits [] start /\ doc_wf d /\ Document d root /\ uses_lists [] start = false /\
    forall O, accepts O [] start (doc_tokens d) /\ ~ rng_valid O [] start root) /\
  (exists start d root, rng_schema [] start /\ in_limits [] start /\ doc_wf d /\ Document d root /\ uses_lists [] start = true /\
    forall O, accepts O [] start (doc_tokens d) /\ ~ rng_valid O [] start root).
Proof.
  exact (conj
    (ex_intro _ (string_el (L "e") (L "ab")) (ex_intro _ trail_doc (ex_intro _ trail_root (conj (no_refs_rng _ _) (conj (no_refs_lim _ _) (conj trail_wf
      (conj trail_document (conj eq_refl (fun O => conj (trail_accepts O) (trail_invalid O))))))))))
    (ex_intro _ two_list (ex_intro _ cut_doc (ex_intro _ ab_root (conj two_rng (conj two_lim (conj cut_wf
      (conj cut_document (conj eq_refl (fun O => conj (cut_accepts O) (cut_invalid O))))))))))).
Qed.

Print Assumptions C01_accepted_as_read_partial.
Print Assumptions C47_accepted_any_content_partial.
Print Assumptions C47_whole_pieces.
Print Assumptions C19_false_accept_refuted.
