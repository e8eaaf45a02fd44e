(** * RefExamples: the texts used as instances and counterexamples in PropsError.v. *)
From Coq Require Import String.
From Verif Require Import Base Datatype Store Deriv Events Lang Doc Accept Compile Schema Spec SpecFacts Scope Infoset InfosetProof Main Words Verdicts Examples RefSpec RefProof.

Definition err_pre : list token := who_prolog ++ [TElementStart [] (L "e"); TElementEnd EndOpen].
Definition err_good : str := L "Hi &who; " ++ [233%N].
Definition err_bad : str := L "&foo;!".
Lemma err_accepts O : accepts O [] (string_el (L "e") (L "x")) err_pre.
Proof. eexists. settle_with 40. Qed.
Lemma err_decodes : Decodes (entities err_pre) err_good (L "Hi World " ++ [233%N]).
Proof.
  change err_good with (L "Hi " ++ 38%N :: (119%N :: L "ho") ++ 59%N :: (32%N :: [233%N])). unfold L; cbn [app lit].
  repeat (apply De_char; [discriminate|]).
  match goal with |- Decodes _ _ ?s => change s with (L "World" ++ (32%N :: [233%N])) end.
  apply (De_entity _ 119%N (L "ho") (L "World")); [discriminate | vm_compute; intuition discriminate | reflexivity|].
  repeat (apply De_char; [discriminate|]). constructor.
Qed.
Lemma err_nodup : NoDup (map fst (entities err_pre)).
Proof. repeat (constructor; [vm_compute; intuition discriminate|]). constructor. Qed.
Lemma err_len bad : utf8_len bad > 1 -> forall k v, In (k, v) (entities err_pre) -> utf8_len v <> utf8_len (err_good ++ bad).
Proof.
  intros Hb k v H. rewrite utf8_len_app. change (utf8_len err_good) with 11.
  assert (E : utf8_len v <= 11). { vm_compute in H. repeat destruct H as [H|H]; try (injection H as <- <-; vm_compute; lia). destruct H. }
  lia.
Qed.
Definition plus_text : str := L "&#+65;".
Definition lone_text : str := L "A&".
Definition zero_text : str := L "&#0;".
Lemma no_decode ents raw : raw = plus_text \/ raw = lone_text \/ raw = zero_text -> forall s, ~ Decodes ents raw s.
Proof.
  intros Hr s H. inversion H as [|c r0 s0 Hc HD|h name v r s' Hh Hn Hb HD|d ds r s' Hd Hx HD|d ds r s' Hd Hx HD]; subst raw; destruct Hr as [Er|[Er|Er]]; try discriminate Er.
  - injection Er as -> _. apply Hc; reflexivity.
  - injection Er as -> Er. subst r0. inversion HD as [|c r0 s1 Hc2 HD2|h name v r s' Hh Hn Hb HD' E|d ds r s' Hd Hx HD' E|d ds r s' Hd Hx HD' E]; subst; [congruence].
  - injection Er as -> _. apply Hc; reflexivity.
  - injection Er as -> _. congruence.
  - injection Er as -> _. congruence.
  - injection Er as -> _. inversion Hd as [|? ? H0 _]; subst. unfold dec_digit in H0. lia.
  - injection Er as -> Er. destruct ds as [|d2 ds].
    + unfold xml_char in Hx. vm_compute in Hx. intuition congruence.
    + injection Er as -> Er. inversion Hd as [|? ? _ K1]; subst. inversion K1 as [|? ? K2 _]; subst. unfold dec_digit in K2. lia.
Qed.
