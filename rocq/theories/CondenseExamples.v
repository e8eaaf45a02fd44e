(** * CondenseExamples: documents whose data comes in pieces, for the instances in PropsPieces.v. *)
From Coq Require Import Permutation String.
From Verif Require Import Base Datatype Store Deriv Events Lang LangFacts Doc Accept Compile Schema Spec SpecFacts Scope Infoset InfosetProof Main Steps Perm Verdicts Split View Condense Examples Reach Words Refuted.
Local Open Scope string_scope.
Local Open Scope list_scope.
(** [<e>a<!--x-->b</e>] against element e { list { "a", "b" } } *)
Definition two_list : mpat := MElement (NNamed [] (L "e")) (MList (MGroup [MValue (VToken (L "a")); MValue (VToken (L "b"))])).
Definition cut_doc : xdoc := split_doc (XComment (L "x")).
Definition cut_read : item := Elm (plain_name "e") [] [Txt (L "a"); Txt (L "b")].
Lemma two_rng : rng_schema [] two_list.
Proof.
  constructor; [apply no_defs | | apply St_elem]. cbn. repeat split; try discriminate. apply CT_list, Lb_gr; [apply Lb_value | apply Lb_gr1, Lb_value].
Qed.
Lemma two_lim : in_limits [] two_list.
Proof. constructor; [apply no_defs | | exact no_defs_alias]. cbn. repeat split. apply no_defs_good. Qed.
Lemma cut_wf : doc_wf cut_doc. Proof. unfold doc_wf; cbn; repeat split; constructor. Qed.
Lemma cut_reading : Reading cut_doc cut_read. Proof. apply reading_cview. reflexivity. Qed.
Lemma cut_plain : plain_item cut_read.
Proof. cbn. repeat (split || constructor || (vm_compute; congruence)). Qed.
Lemma cut_accepts O : accepts O [] two_list (doc_tokens cut_doc). Proof. eexists. settle_with 40. Qed.
Lemma cut_document : Document cut_doc ab_root.
Proof.
  unfold Document, ab_root; cbn [d_prolog d_root cut_doc split_doc].
  change [Txt (L "ab")] with (joined ([Txt (L "a")] ++ [] ++ [Txt (L "b")] ++ [])).
  apply N_elem; [apply En_none; reflexivity | constructor|]. constructor; [constructor; apply Decodes_plain; cbn; intuition discriminate|].
  constructor; [constructor|]. constructor; [constructor; apply Decodes_plain; cbn; intuition discriminate | constructor].
Qed.
Lemma cut_invalid O : ~ rng_valid O [] two_list ab_root.
Proof.
  unfold rng_valid, two_list, ab_root. intros H.
  inversion H as [| | | | | | | | | | | | |? ? ? ? ? ws1 ws2 Hc Hk HW H1 H2 E1 E2| | | | |]; subst.
  assert (E : k = [Txt (L "ab")]).
  { destruct H1 as [->|(s & -> & _)]; [|discriminate E2]. cbn in E2. injection E2; intros; subst; reflexivity. }
  subst k. inversion HW as [? ? ? HM|? s ? Hb HM|]; subst; [|inversion HM].
  inversion HM as [| | | | | | | | | | | | | | | | | |p s Hp]; subst.
  change (split_on is_xml_ws [] (L "ab")) with [L "ab"] in Hp. cbn [map] in Hp.
  inversion Hp as [| |x y l a1 a2 a0 m1 m2 HP Hx Hy| | | | | | | | | | | | | | | |]; subst.
  inversion Hx as [| | | | | | | | | | | | | | | | |? s Hv|]; subst.
  match goal with E : [Txt s] ++ m2 = _ |- _ => cbn in E; injection E; intros; subst end. discriminate Hv.
Qed.
(** [<e>ab<!--x-->  </e>] against element e { string "ab" }: accepted *)
Definition trail_doc : xdoc := XDoc [] (XElem [] (L "e") [] false [XText 0 (L "ab"); XComment (L "x"); XText 0 (L "  ")]) [].
Definition trail_root : item := Elm (plain_name "e") [] [Txt (L "ab  ")].
Lemma trail_wf : doc_wf trail_doc. Proof. unfold doc_wf; cbn; repeat split; constructor. Qed.
Lemma trail_document : Document trail_doc trail_root.
Proof.
  unfold Document, trail_root; cbn [d_prolog d_root trail_doc].
  change [Txt (L "ab  ")] with (joined ([Txt (L "ab")] ++ [] ++ [Txt (L "  ")] ++ [])).
  apply N_elem; [apply En_none; reflexivity | constructor|]. constructor; [constructor; apply Decodes_plain; cbn; intuition discriminate|].
  constructor; [constructor|]. constructor; [constructor; apply Decodes_plain; cbn; intuition discriminate | constructor].
Qed.
Lemma trail_accepts O : accepts O [] (string_el (L "e") (L "ab")) (doc_tokens trail_doc). Proof. eexists. settle_with 40. Qed.
Lemma trail_invalid O : ~ rng_valid O [] (string_el (L "e") (L "ab")) trail_root.
Proof.
  unfold rng_valid, string_el, trail_root. intros H.
  inversion H as [| | | | | | | | | | | | |? ? ? ? ? ws1 ws2 Hc Hk HW H1 H2 E1 E2| | | | |]; subst.
  assert (E : k = [Txt (L "ab  ")]).
  { destruct H1 as [->|(s & -> & _)]; [|discriminate E2]. cbn in E2. injection E2; intros; subst; reflexivity. }
  subst k. inversion HW as [? ? ? HM|? s ? Hb HM|]; subst; [|inversion HM].
  inversion HM as [| | | | | | | | | | | | | | | | |? s Hv|]; subst. discriminate Hv.
Qed.
