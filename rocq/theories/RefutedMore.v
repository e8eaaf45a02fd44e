(** * RefutedMore: further counterexamples to listed properties of the validator. *)
From Coq Require Import Permutation String.
From Verif Require Import Base Datatype Store Deriv Events Lang Doc Accept Compile Schema Spec SpecFacts Scope Infoset InfosetProof Main Steps Perm Reach Words Verdicts View Examples Refuted.

(** ** C16: of two declarations of an entity XML takes the first (4.2), the validator the last:
    [<!DOCTYPE e [<!ENTITY w "A"><!ENTITY w "B">]><e>&w;</e>] against element e { "A" } and element e { "B" } *)
Definition ent_prolog : list token :=
  [TDtdStart (L "e"); TEntityDeclaration (L "w") (Some (L "A")); TEntityDeclaration (L "w") (Some (L "B")); TDtdEnd].
Definition ent_doc : xdoc := text_in ent_prolog (L "e") 0 (L "&w;").
Definition ent_root : item := Elm (plain_name "e") [] [Txt (L "A")].
Lemma ent_document : Document ent_doc ent_root.
Proof.
  unfold Document, ent_root; cbn [d_prolog d_root ent_doc text_in]. change [Txt (L "A")] with (joined ([Txt (L "A")] ++ [])).
  apply N_elem; [apply En_none; reflexivity | constructor | constructor; [constructor | constructor]].
  rewrite <- (app_nil_r (L "A")). refine (De_entity _ 119%N [] (L "A") [] [] _ _ _ (De_nil _)); [discriminate | cbn; intuition discriminate | reflexivity].
Qed.
Theorem C16_twice_refuted : exists start start', rng_schema [] start /\ in_limits [] start /\ rng_schema [] start' /\ in_limits [] start' /\
  doc_wf ent_doc /\ Document ent_doc ent_root /\ plain_item ent_root /\
  forall O, (rng_valid O [] start ent_root /\ rejects O [] start (doc_tokens ent_doc)) /\
            (accepts O [] start' (doc_tokens ent_doc) /\ ~ rng_valid O [] start' ent_root).
Proof.
  exists (string_el (L "e") (L "A")), (string_el (L "e") (L "B")).
  split; [apply no_refs_rng|]. split; [apply no_refs_lim|]. split; [apply no_refs_rng|]. split; [apply no_refs_lim|].
  split; [unfold doc_wf; cbn; repeat split; repeat constructor|]. split; [exact ent_document|]. split.
  { cbn. repeat split; repeat (constructor; try (vm_compute; congruence)). }
  intros O. split; split.
  - apply one_elem; [split; reflexivity | split; [cbn; intuition discriminate | exact I]|]. apply W_1, M_value. reflexivity.
  - eexists; eexists. settle_with 40.
  - eexists. settle_with 40.
  - intros H. apply M_elem_inv in H as (_ & _ & H). inversion H as [a m p H1 | a s p _ H1 | a p _ H1]; subst.
    + inversion H1; subst. discriminate.
    + inversion H1.
Qed.
(** what the validator reads there *)
Example C16_twice_reading : Reading ent_doc (Elm (plain_name "e") [] [Txt (L "B")]).
Proof. apply reading_cview. reflexivity. Qed.
Print Assumptions C16_twice_refuted.
