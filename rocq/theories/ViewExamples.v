(** * ViewExamples: a document outside [doc_scope], for the instances in PropsView.v. *)
From Coq Require Import Permutation String.
From Verif Require Import Base Datatype Store Deriv Events Lang Doc Accept Compile Schema Spec SpecFacts Scope Infoset InfosetProof Main Steps Perm Verdicts View Examples.
Local Open Scope string_scope.
Local Open Scope list_scope.
(** element r { attribute x { text }, attribute u:y { text }, (element v:a { empty })* } *)
Definition odd_schema : mpat :=
  MElement (NNamed [] (L "r")) (MGroup [MAttribute (NNamed [] (L "x")) MText; MAttribute (NNamed (L "u") (L "y")) MText; MZeroOrMore (MElement (NNamed (L "v") (L "a")) MEmpty)]).
(** <r xmlns="d" xmlns:p="u" x="1" p:y="2"><p:a xmlns:p="v"/><p:a/></r> *)
Definition odd_kids : list xnode := [XElem (L "p") (L "a") [(L "xmlns", L "p", L "v")] true []; XElem (L "p") (L "a") [] true []].
Definition odd_doc : xdoc := XDoc [] (XElem [] (L "r") [([], L "xmlns", L "d"); (L "xmlns", L "p", L "u"); ([], L "x", L "1"); (L "p", L "y", L "2")] false odd_kids) [].
Definition odd_doc' : xdoc := XDoc [] (XElem [] (L "r") [(L "p", L "y", L "2"); ([], L "xmlns", L "d"); (L "xmlns", L "p", L "u"); ([], L "x", L "1")] false odd_kids) [].
(** other prefixes, a comment *)
Definition odd_doc2 : xdoc := XDoc [] (XElem [] (L "r") [(L "xmlns", L "q", L "u"); ([], L "x", L "1"); (L "q", L "y", L "2")] false
  [XElem (L "p") (L "a") [(L "xmlns", L "p", L "v")] true []; XComment (L "c"); XElem (L "q") (L "a") [(L "xmlns", L "q", L "v")] false []]) [].
Definition odd_root : item := Elm (plain_name "r") [Attr (plain_name "x") (L "1"); Attr (QName (Some (L "u")) (L "y")) (L "2")]
  [Elm (QName (Some (L "v")) (L "a")) [] []; Elm (QName (Some (L "v")) (L "a")) [] []].
(** <r><p:a/></r> *)
Definition unread_doc : xdoc := XDoc [] (XElem [] (L "r") [] false [XElem (L "p") (L "a") [] true []]) [].

Lemma odd_rng : rng_schema [] odd_schema.
Proof.
  constructor; [intros [|r] X E; discriminate E | | apply St_elem]. cbn. repeat split; try discriminate; try (apply CT_NA, CT_EN, CT_empty).
  all: repeat first [apply Sa_no, No_elem | apply CT_NA | apply CT_gr; [discriminate | |] | apply CT_gr1 | apply CT_zero; [discriminate|] | apply CT_elem
    | eapply CT_attr; apply CT_NA; apply CT_text | eapply CT_attr; apply CT_text].
  all: apply CT_EN, CT_attr, CT_NA, CT_text.
Qed.
Lemma odd_lim : in_limits [] odd_schema.
Proof. constructor; [intros [|r] X E; discriminate E | | exact no_defs_alias]. cbn. repeat split; try apply no_defs_good. left; apply no_defs_good. Qed.
Lemma odd_wf : doc_wf odd_doc. Proof. unfold doc_wf; cbn; repeat split; constructor. Qed.
Lemma odd_wf2 : doc_wf odd_doc2. Proof. unfold doc_wf; cbn; repeat split; constructor. Qed.
Lemma unread_wf : doc_wf unread_doc. Proof. unfold doc_wf; cbn; repeat split; constructor. Qed.
Lemma odd_reading : Reading odd_doc odd_root. Proof. apply reading_cview. reflexivity. Qed.
Lemma odd_reading2 : Reading odd_doc2 odd_root. Proof. apply reading_cview. reflexivity. Qed.
Lemma odd_content root : Reading odd_doc root -> content_fits [] odd_schema root.
Proof.
  intros H. rewrite (reading_fun _ _ _ H odd_reading). split.
  - intros q [].
  - cbn. repeat (split || constructor || (vm_compute; congruence)).
Qed.
Lemma odd_content2 root : Reading odd_doc2 root -> content_fits [] odd_schema root.
Proof. intros H. apply odd_content. rewrite (reading_fun _ _ _ H odd_reading2). exact odd_reading. Qed.
Lemma odd_same r : ReadsAs odd_doc r <-> ReadsAs odd_doc2 r.
Proof.
  split; intros (root & H & E); exists odd_root; [rewrite (reading_fun _ _ _ H odd_reading) in E; split; [exact odd_reading2 | exact E] | rewrite (reading_fun _ _ _ H odd_reading2) in E; split; [exact odd_reading | exact E]].
Qed.
Lemma odd_same0 root : Reading odd_doc root <-> Reading odd_doc2 root.
Proof.
  split; intros H; [rewrite (reading_fun _ _ _ H odd_reading); exact odd_reading2 | rewrite (reading_fun _ _ _ H odd_reading2); exact odd_reading].
Qed.
Lemma unread_none root : ~ Reading unread_doc root.
Proof. intros H. apply reading_cview in H. discriminate H. Qed.
Lemma odd_accepts O : accepts O [] odd_schema (doc_tokens odd_doc). Proof. eexists. settle_with 40. Qed.
Lemma odd_accepts' O : accepts O [] odd_schema (doc_tokens odd_doc'). Proof. eexists. settle_with 40. Qed.
Lemma odd_accepts2 O : accepts O [] odd_schema (doc_tokens odd_doc2). Proof. eexists. settle_with 40. Qed.
Lemma odd_no_overflow O : ~ overflows O [] odd_schema (doc_tokens odd_doc). Proof. intros H. exact (acc_over _ _ _ _ (odd_accepts O) H). Qed.
Lemma odd_no_overflow' O : ~ overflows O [] odd_schema (doc_tokens odd_doc'). Proof. intros H. exact (acc_over _ _ _ _ (odd_accepts' O) H). Qed.
Lemma odd_no_overflow2 O : ~ overflows O [] odd_schema (doc_tokens odd_doc2). Proof. intros H. exact (acc_over _ _ _ _ (odd_accepts2 O) H). Qed.
Lemma odd_once : once (d_root odd_doc).
Proof. cbn. repeat split; repeat constructor; cbn; intuition discriminate. Qed.
Lemma odd_reordered : reordered odd_doc odd_doc'.
Proof.
  split; [reflexivity|]. split; [reflexivity|]. constructor.
  - eapply (Permutation_app_comm [_; _; _] [_]).
  - repeat constructor.
Qed.
Definition amp_schema : mpat := MElement (NNamed [] (L "e")) (MAttribute (NNamed [] (L "x")) (MValue (VString (L "&lt;")))).
Lemma amp_rng : rng_schema [] amp_schema.
Proof. constructor; [intros [|r] X E; discriminate E | | apply St_elem]. cbn. repeat split; try discriminate. apply CT_NA, CT_EN, CT_attr, CT_value. Qed.
Lemma amp_lim : in_limits [] amp_schema.
Proof. constructor; [intros [|r] X E; discriminate E | | exact no_defs_alias]. cbn. repeat split; apply no_defs_good. Qed.
Lemma amp_accepts O : accepts O [] amp_schema (doc_tokens (el1 (L "e") [([], L "x", L "&lt;")] true)). Proof. eexists. settle_with 40. Qed.
Lemma amp_no_overflow O : ~ overflows O [] amp_schema (doc_tokens (el1 (L "e") [([], L "x", L "&lt;")] true)). Proof. intros H. exact (acc_over _ _ _ _ (amp_accepts O) H). Qed.
Definition many_schema : mpat := MElement (NNamed [] (L "e")) (MZeroOrMore (MElement (NNamed [] (L "a")) MText)).
Lemma many_rng : rng_schema [] many_schema.
Proof. constructor; [intros [|r] X E; discriminate E | | apply St_elem]. cbn. repeat split; try discriminate; [apply CT_NA, CT_text | apply Sa_no, No_elem | apply CT_NA, CT_zero; [discriminate | apply CT_elem]]. Qed.
Lemma many_lim : in_limits [] many_schema.
Proof. constructor; [intros [|r] X E; discriminate E | | exact no_defs_alias]. cbn. repeat split. left; apply no_defs_good. Qed.
Lemma many_accepts O : accepts O [] many_schema (doc_tokens (el1 (L "e") [] true)). Proof. eexists. settle_with 40. Qed.
Lemma many_no_overflow O : ~ overflows O [] many_schema (doc_tokens (el1 (L "e") [] true)). Proof. intros H. exact (acc_over _ _ _ _ (many_accepts O) H). Qed.

(** element p { mixed { (element b { text })* } } and [<p>a<![CDATA[b]]>c<!--x--><b>e<?p?>f</b><![CDATA[]]></p>] *)
Definition mix_schema : mpat := MElement (NNamed [] (L "p")) (MMixed (MZeroOrMore (MElement (NNamed [] (L "b")) MText))).
Definition mix_doc : xdoc := XDoc [] (XElem [] (L "p") [] false
  [XText 0 (L "a"); XCdata (L "b"); XText 0 (L "c"); XComment (L "x"); XElem [] (L "b") [] false [XText 0 (L "e"); XPI (L "p"); XText 0 (L "f")]; XCdata []]) [].
(** [<p>abc<b>ef</b></p>] *)
Definition mix_doc2 : xdoc := XDoc [] (XElem [] (L "p") [] false [XText 0 (L "abc"); XElem [] (L "b") [] false [XText 0 (L "ef")]]) [].
Definition mix_root : item := Elm (plain_name "p") [] [Txt (L "abc"); Elm (plain_name "b") [] [Txt (L "ef")]].
Lemma mix_rng : rng_schema [] mix_schema.
Proof.
  constructor; [intros [|r] X E; discriminate E | | apply St_elem]. cbn. repeat split; try discriminate; [apply CT_NA, CT_text | apply Sa_no, No_elem|].
  apply CT_NA, CT_mixed, CT_zero; [discriminate | apply CT_elem].
Qed.
Lemma mix_lim : in_limits [] mix_schema.
Proof. constructor; [intros [|r] X E; discriminate E | | exact no_defs_alias]. cbn. repeat split; try (left; apply no_defs_good); apply no_defs_good. Qed.
Lemma mix_no_data q : no_data [] mix_schema q.
Proof. split; [|intros [|r] X E; discriminate E]. cbn. repeat split; intros _; [apply CT_mixed, CT_zero; [discriminate | apply CT_elem] | apply CT_text]. Qed.
Lemma mix_reads : doc_reads mix_doc.
Proof.
  constructor; cbn.
  - repeat split; constructor.
  - intros p u u' [].
  - intros u [].
  - exact NoDup_predefined.
  - intros n v [].
  - repeat split; try discriminate; try constructor; (left; intros H; vm_compute in H; intuition discriminate).
Qed.
Lemma mix_fits : doc_fits [] mix_schema mix_doc.
Proof. constructor; [exact mix_reads | intros q _; exact (mix_no_data q)]. Qed.
Lemma mix_reads2 : doc_reads mix_doc2.
Proof.
  constructor; cbn.
  - repeat split; constructor.
  - intros p u u' [].
  - intros u [].
  - exact NoDup_predefined.
  - intros n v [].
  - repeat split; try discriminate; try constructor; (left; intros H; vm_compute in H; intuition discriminate).
Qed.
Lemma mix_fits2 : doc_fits [] mix_schema mix_doc2.
Proof. constructor; [exact mix_reads2 | intros q _; exact (mix_no_data q)]. Qed.
Lemma plain_text ents env n s : ~ In 38%N s -> Node ents env (XText n s) [Txt s].
Proof. intros H. constructor. apply Decodes_plain; exact H. Qed.
Ltac no_amp := let H := fresh in intros H; vm_compute in H; intuition discriminate.
Lemma mix_document : Document mix_doc mix_root.
Proof.
  unfold Document, mix_doc, mix_root. cbn [d_prolog d_root].
  change [Txt (L "abc"); Elm (plain_name "b") [] [Txt (L "ef")]] with
    (joined ([Txt (L "a")] ++ [Txt (L "b")] ++ [Txt (L "c")] ++ [] ++ [Elm (plain_name "b") [] (joined ([Txt (L "e")] ++ [] ++ [Txt (L "f")] ++ []))] ++ [Txt []] ++ [])).
  apply N_elem; [apply En_none; reflexivity | constructor|].
  apply Ns_cons; [apply plain_text; no_amp|]. apply Ns_cons; [constructor|]. apply Ns_cons; [apply plain_text; no_amp|]. apply Ns_cons; [constructor|]. apply Ns_cons; [|apply Ns_cons; [constructor | constructor]].
  apply N_elem; [apply En_none; reflexivity | constructor|]. apply Ns_cons; [apply plain_text; no_amp|]. apply Ns_cons; [constructor|]. apply Ns_cons; [apply plain_text; no_amp | constructor].
Qed.
Lemma mix_document2 : Document mix_doc2 mix_root.
Proof.
  unfold Document, mix_doc2, mix_root. cbn [d_prolog d_root].
  change [Txt (L "abc"); Elm (plain_name "b") [] [Txt (L "ef")]] with (joined ([Txt (L "abc")] ++ [Elm (plain_name "b") [] (joined ([Txt (L "ef")] ++ []))] ++ [])).
  apply N_elem; [apply En_none; reflexivity | constructor|].
  apply Ns_cons; [apply plain_text; no_amp|]. apply Ns_cons; [|constructor].
  apply N_elem; [apply En_none; reflexivity | constructor|]. apply Ns_cons; [apply plain_text; no_amp | constructor].
Qed.
Lemma mix_plain : plain_item mix_root.
Proof. cbn. repeat (split || constructor || (vm_compute; congruence)). Qed.
Lemma mix_accepts O : accepts O [] mix_schema (doc_tokens mix_doc). Proof. eexists. settle_with 40. Qed.
Lemma mix_accepts2 O : accepts O [] mix_schema (doc_tokens mix_doc2). Proof. eexists. settle_with 40. Qed.
Lemma mix_no_overflow O : ~ overflows O [] mix_schema (doc_tokens mix_doc). Proof. intros H. exact (acc_over _ _ _ _ (mix_accepts O) H). Qed.
Lemma mix_no_overflow2 O : ~ overflows O [] mix_schema (doc_tokens mix_doc2). Proof. intros H. exact (acc_over _ _ _ _ (mix_accepts2 O) H). Qed.
Lemma mix_split : SplitIn initial_env (d_root mix_doc) (plain_name "p") /\ SplitIn initial_env (d_root mix_doc) (plain_name "b").
Proof.
  split.
  - apply split_here; [apply En_none; reflexivity|]. left. cbn. intros [_ [H _]]. discriminate (H eq_refl).
  - eapply split_below; [do 4 right; left; reflexivity|]. apply split_here; [apply En_none; reflexivity|]. left. cbn. intros [_ [H _]]. discriminate (H eq_refl).
Qed.
