(** * Refuted: where the code does not have a listed property.  Each theorem is a counterexample to
    the full property; the corresponding [_partial] theorem says where it holds. *)
From Coq Require Import Permutation String.
From Verif Require Import Base Datatype Store Deriv Events Lang Doc Accept Compile Schema Spec SpecFacts Scope Infoset InfosetProof Main Steps Perm Reach Words Verdicts Examples.

Definition nm (s : string) : nameclass := NNamed [] (L s).
Lemma no_defs (P : nat -> mpat -> Prop) : forall r X, deref [] r = Some X -> P r X.
Proof. intros [|r] X E; discriminate E. Qed.

(** ** C14: [<r xmlns:p="u"><p:a xmlns:p="v"/><p:a/></r>] against element r { element v:a {empty}, element u:a {empty} } *)
Definition sib_schema : mpat :=
  MElement (nm "r") (MGroup [MElement (NNamed (L "v") (L "a")) MEmpty; MElement (NNamed (L "u") (L "a")) MEmpty]).
Definition sib_doc : xdoc :=
  XDoc [] (XElem [] (L "r") [(L "xmlns", L "p", L "u")] false
    [XElem (L "p") (L "a") [(L "xmlns", L "p", L "v")] true []; XElem (L "p") (L "a") [] true []]) [].
Definition sib_root : item :=
  Elm (plain_name "r") [] [Elm (QName (Some (L "v")) (L "a")) [] []; Elm (QName (Some (L "u")) (L "a")) [] []].
Lemma sib_rng : rng_schema [] sib_schema.
Proof.
  constructor; [apply no_defs | | apply St_elem]. cbn. repeat split; try discriminate; try (apply CT_NA, CT_EN, CT_empty).
  apply CT_NA, CT_gr; [discriminate | apply CT_elem | apply CT_gr1, CT_elem].
Qed.
Lemma sib_lim : in_limits [] sib_schema.
Proof. constructor; [apply no_defs | cbn; repeat split | exact no_defs_alias]. Qed.
Lemma sib_document : Document sib_doc sib_root.
Proof.
  unfold Document, sib_root; cbn [d_prolog d_root sib_doc].
  match goal with |- Node _ _ _ [Elm _ _ [?a; ?b]] => change [a; b] with (joined ([a] ++ [b] ++ [])) end.
  apply N_elem; [apply En_none; reflexivity | constructor|].
  constructor; [|constructor; [|constructor]]; change (@nil item) with (joined []); (apply N_elem; [apply En_prefix; reflexivity | constructor | constructor]).
Qed.
Lemma one_empty O defs nc nmx : in_class nc nmx -> M O defs true [] [Elm nmx [] []] (MElement nc MEmpty).
Proof. intros H. apply (M_element O defs true nc MEmpty nmx [] [] [] []); [exact H | split; [intros [] | exact I] | apply W_1, M_empty | left; reflexivity | left; reflexivity]. Qed.
Lemma one_elem O defs nc p nmx a k : in_class nc nmx -> children_ok k -> W O defs true a k p -> M O defs true [] [Elm nmx a k] (MElement nc p).
Proof. intros H Hk HW. apply (M_element O defs true nc p nmx a k [] []); [exact H | exact Hk | exact HW | left; reflexivity | left; reflexivity]. Qed.
Lemma sib_valid O : rng_valid O [] sib_schema sib_root.
Proof.
  apply one_elem; [cbn; auto | split; [cbn; intuition discriminate | exact I] |]. apply W_1.
  refine (M_group O [] true _ _ [] [] [] [] [Elm _ [] []] [Elm _ [] []] _ _ _); [reflexivity | apply one_empty; split; reflexivity | apply M_group_one, one_empty; split; reflexivity].
Qed.
Theorem C14_refuted : exists start d root, rng_schema [] start /\ in_limits [] start /\ doc_wf d /\ Document d root /\
  forall O, rng_valid O [] start root /\ rejects O [] start (doc_tokens d).
Proof.
  exists sib_schema, sib_doc, sib_root. split; [exact sib_rng|]. split; [exact sib_lim|]. split; [unfold doc_wf; cbn; repeat split; constructor|].
  split; [exact sib_document|]. intros O. split; [apply sib_valid|]. eexists; eexists. settle_with 40.
Qed.
(** a prefix declared only by a closed sibling is not an error: [<r><p:a xmlns:p="v"/><p:a/></r>] *)
Definition leak_schema : mpat := MElement (nm "r") (MZeroOrMore (MElement (NNamed (L "v") (L "a")) MEmpty)).
Definition leak_doc : xdoc :=
  XDoc [] (XElem [] (L "r") [] false [XElem (L "p") (L "a") [(L "xmlns", L "p", L "v")] true []; XElem (L "p") (L "a") [] true []]) [].
Theorem C14_undeclared_refuted : exists start d, rng_schema [] start /\ in_limits [] start /\ doc_wf d /\ (forall root, ~ Document d root) /\
  forall O, accepts O [] start (doc_tokens d).
Proof.
  exists leak_schema, leak_doc. split; [|split; [|split; [|split]]].
  - constructor; [apply no_defs | | apply St_elem]. cbn. repeat split; try (apply CT_NA, CT_EN, CT_empty); [apply Sa_no, No_elem | apply CT_NA, CT_zero; [discriminate | apply CT_elem]].
  - constructor; [apply no_defs | | exact no_defs_alias]. cbn. repeat split. left; apply no_defs_good.
  - unfold doc_wf; cbn; repeat split; constructor.
  - intros root H. unfold Document, leak_doc in H; cbn [d_root d_prolog] in H. inversion H as [| | | |? ? ? ? ? ? u atts ks H1 H2 H3 E1 E2 E3]; subst.
    inversion H3 as [|? ? ? ? ? Hk1 Hk2]; subst. inversion Hk2 as [|? ? ? ? ? Hk3 Hk4]; subst.
    inversion Hk3 as [| | | |? ? ? ? ? ? u2 atts2 ks2 Hu _ _]; subst. inversion Hu as [? ? ? Hb| | |]; subst. discriminate Hb.
  - intros O. eexists. settle_with 40.
Qed.

(** ** C15, C01: [<a xmlns="u"/>] against element a { empty } in no namespace, and in namespace u *)
Definition dflt_doc : xdoc := XDoc [] (XElem [] (L "a") [([], L "xmlns", L "u")] true []) [].
Definition dflt_root : item := Elm (QName (Some (L "u")) (L "a")) [] [].
Lemma one_rng nc : rng_schema [] (MElement nc MEmpty).
Proof. constructor; [apply no_defs | | apply St_elem]. cbn. split; [exact I | apply CT_NA, CT_EN, CT_empty]. Qed.
Lemma one_lim nc : in_limits [] (MElement nc MEmpty).
Proof. constructor; [apply no_defs | exact I | exact no_defs_alias]. Qed.
Lemma dflt_document : Document dflt_doc dflt_root.
Proof.
  unfold Document, dflt_root; cbn [d_prolog d_root dflt_doc]. change (@nil item) with (joined []).
  apply N_elem; [apply En_default; reflexivity | constructor | constructor].
Qed.
Theorem C15_refuted : doc_wf dflt_doc /\ Document dflt_doc dflt_root /\
  exists start start', rng_schema [] start /\ in_limits [] start /\ rng_schema [] start' /\ in_limits [] start' /\
  forall O, (accepts O [] start (doc_tokens dflt_doc) /\ ~ rng_valid O [] start dflt_root) /\
            (rejects O [] start' (doc_tokens dflt_doc) /\ rng_valid O [] start' dflt_root).
Proof.
  split; [unfold doc_wf; cbn; repeat split; constructor|]. split; [exact dflt_document|].
  exists (MElement (nm "a") MEmpty), (MElement (NNamed (L "u") (L "a")) MEmpty).
  split; [apply one_rng|]. split; [apply one_lim|]. split; [apply one_rng|]. split; [apply one_lim|].
  intros O. split; split.
  - eexists. settle_with 40.
  - intros H. apply M_elem_inv in H as (_ & [H _] & _). discriminate H.
  - eexists; eexists. settle_with 40.
  - apply one_empty. split; reflexivity.
Qed.
(** soundness fails for documents with a default namespace *)
Theorem C01_refuted : exists start d root, rng_schema [] start /\ in_limits [] start /\ doc_wf d /\ Document d root /\ plain_item root /\
  forall O, accepts O [] start (doc_tokens d) /\ ~ rng_valid O [] start root.
Proof.
  destruct C15_refuted as (Hw & HD & s & s' & R & Lm & _ & _ & H). exists s, dflt_doc, dflt_root.
  split; [exact R|]. split; [exact Lm|]. split; [exact Hw|]. split; [exact HD|]. split; [cbn; repeat split; constructor|]. intros O; apply (H O).
Qed.

(** ** C16: an entity whose value has the byte length of the text token is not replaced *)
Definition coin_prolog : list token := [TDtdStart (L "e"); TEntityDeclaration (L "who") (Some (L "World")); TDtdEnd].
Definition coin_doc : xdoc := text_in coin_prolog (L "e") 0 (L "&who;").
Definition coin_root : item := Elm (plain_name "e") [] [Txt (L "World")].
Theorem C16_refuted : exists start, rng_schema [] start /\ in_limits [] start /\ doc_wf coin_doc /\ Document coin_doc coin_root /\ plain_item coin_root /\
  forall O, rng_valid O [] start coin_root /\ rejects O [] start (doc_tokens coin_doc).
Proof.
  exists (string_el (L "e") (L "World")). split; [apply no_refs_rng|]. split; [apply no_refs_lim|]. split; [unfold doc_wf; cbn; repeat split; repeat constructor|].
  split; [|split].
  - unfold Document, coin_root; cbn [d_prolog d_root coin_doc text_in]. change [Txt (L "World")] with (joined ([Txt (L "World")] ++ [])).
    apply N_elem; [apply En_none; reflexivity | constructor | constructor; [constructor | constructor]].
    rewrite <- (app_nil_r (L "World")). refine (De_entity _ 119%N (L "ho") (L "World") [] [] _ _ _ (De_nil _)); [discriminate | cbn; intuition discriminate | reflexivity].
  - cbn. repeat split; repeat (constructor; try (vm_compute; congruence)).
  - intros O. split.
    + apply one_elem; [split; reflexivity | split; [cbn; intuition discriminate | exact I]|]. apply W_1, M_value. reflexivity.
    + eexists; eexists. settle_with 40.
Qed.
(** attribute values are not decoded at all *)
Definition att_ref_doc : xdoc := XDoc [] (XElem [] (L "e") [([], L "x", L "&lt;")] true []) [].
Theorem C16_attribute_refuted : exists start root, rng_schema [] start /\ in_limits [] start /\ doc_wf att_ref_doc /\ Document att_ref_doc root /\
  forall O, rng_valid O [] start root /\ rejects O [] start (doc_tokens att_ref_doc).
Proof.
  exists (MElement (nm "e") (MAttribute (nm "x") (MValue (VString (L "<"))))), (Elm (plain_name "e") [Attr (plain_name "x") (L "<")] []).
  split; [|split; [|split; [|split]]].
  - constructor; [apply no_defs | | apply St_elem]. cbn. split; [exact I | apply CT_NA, CT_EN, CT_attr, CT_value].
  - constructor; [apply no_defs | | exact no_defs_alias]. cbn. repeat split. apply no_defs_good.
  - unfold doc_wf; cbn; repeat split; constructor.
  - unfold Document; cbn [d_prolog d_root att_ref_doc]. change (@nil item) with (joined []).
    apply N_elem; [apply En_none; reflexivity | | constructor]. constructor; [|constructor]. constructor; [constructor|]. unfold AttValue.
    change (space_out (L "&lt;")) with (38%N :: (108%N :: L "t") ++ 59%N :: []). change (L "<") with (L "<" ++ []).
    apply De_entity; [discriminate | cbn; intuition discriminate | reflexivity | constructor].
  - intros O. split.
    + apply one_elem; [split; reflexivity | split; [intros [] | exact I]|]. apply W_1, M_attribute; [split; reflexivity|]. apply W_1, M_value. reflexivity.
    + eexists; eexists. settle_with 40.
Qed.

(** ** C17, C02, C03: [<e/>] and [<e></e>] against element e { string } *)
Definition data_el : mpat := MElement (nm "e") (MData DString None).
Definition empty_doc (sc : bool) : xdoc := XDoc [] (XElem [] (L "e") [] sc []) [].
Lemma data_rng : rng_schema [] data_el.
Proof. constructor; [apply no_defs | | apply St_elem]. cbn. split; [exact I | apply CT_data]. Qed.
Lemma data_lim : in_limits [] data_el.
Proof. constructor; [apply no_defs | cbn; auto | exact no_defs_alias]. Qed.
Lemma empty_doc_scope sc : doc_scope (empty_doc sc).
Proof.
  constructor; [unfold doc_wf; cbn; repeat split; constructor | cbn; intros p u u' [] | cbn; intros u [] | exact NoDup_predefined | intros n v [] |].
  cbn. repeat split; try discriminate. constructor.
Qed.
Lemma empty_doc_document sc : Document (empty_doc sc) (Elm (plain_name "e") [] []).
Proof. unfold Document; cbn [d_prolog d_root empty_doc]. change (@nil item) with (joined []). apply N_elem; [apply En_none; reflexivity | constructor | constructor]. Qed.
Theorem C17_refuted : rng_schema [] data_el /\ in_limits [] data_el /\ forall O sc, doc_scope (empty_doc sc) /\ Document (empty_doc sc) (Elm (plain_name "e") [] []) /\
  dt_valid O DString [] = Ok true /\ rng_valid O [] data_el (Elm (plain_name "e") [] []) /\ rejects O [] data_el (doc_tokens (empty_doc sc)).
Proof.
  split; [exact data_rng|]. split; [exact data_lim|]. intros O sc. split; [apply empty_doc_scope|]. split; [apply empty_doc_document|]. split; [reflexivity|]. split.
  - apply one_elem; [split; reflexivity | split; [intros [] | exact I]|]. apply W_3; [reflexivity|]. apply M_data. reflexivity.
  - destruct sc; eexists; eexists; settle_with 40.
Qed.

(** ** C18: streams that are not documents pass *)
Theorem C18_refuted : forall O,
  accepts O ex_defs ex_start [] /\                                                           (* nothing at all *)
  accepts O ex_defs ex_start [TElementStart [] (L "book"); TElementEnd EndOpen] /\            (* an unclosed root *)
  accepts O ex_defs ex_start [TElementStart [] (L "book"); TElementEnd EndOpen; TElementEnd (EndClose [] (L "magazine"))].  (* a wrong end tag *)
Proof. intros O. split; [eexists; settle_with 40 | split; eexists; settle_with 40]. Qed.

(** ** C19: [<e>a<![CDATA[b]]></e>] and [<e>a<!--x-->b</e>] against element e { string "ab" } *)
Definition split_doc (k : xnode) : xdoc := XDoc [] (XElem [] (L "e") [] false (XText 0 (L "a") :: k :: [XText 0 (L "b")])) [].
Definition cdata_doc : xdoc := XDoc [] (XElem [] (L "e") [] false [XText 0 (L "a"); XCdata (L "b")]) [].
Definition ab_root : item := Elm (plain_name "e") [] [Txt (L "ab")].
Theorem C19_refuted : exists start, rng_schema [] start /\ in_limits [] start /\ forall O,
  rng_valid O [] start ab_root /\
  (Document cdata_doc ab_root /\ rejects O [] start (doc_tokens cdata_doc)) /\
  (Document (split_doc (XComment (L "x"))) ab_root /\ rejects O [] start (doc_tokens (split_doc (XComment (L "x"))))) /\
  (Document (el (L "e") [] [XText 0 (L "ab")]) ab_root /\ accepts O [] start (doc_tokens (el (L "e") [] [XText 0 (L "ab")]))).
Proof.
  exists (string_el (L "e") (L "ab")). split; [apply no_refs_rng|]. split; [apply no_refs_lim|]. intros O. split; [|split; [|split]].
  - apply one_elem; [split; reflexivity | split; [cbn; intuition discriminate | exact I]|]. apply W_1, M_value. reflexivity.
  - split; [|eexists; eexists; settle_with 40]. unfold Document, ab_root; cbn [d_prolog d_root cdata_doc].
    change [Txt (L "ab")] with (joined ([Txt (L "a")] ++ [Txt (L "b")] ++ [])).
    apply N_elem; [apply En_none; reflexivity | constructor | constructor; [constructor; apply Decodes_plain; cbn; intuition discriminate | constructor; [constructor | constructor]]].
  - split; [|eexists; eexists; settle_with 40]. unfold Document, ab_root; cbn [d_prolog d_root split_doc].
    change [Txt (L "ab")] with (joined ([Txt (L "a")] ++ [] ++ [Txt (L "b")] ++ [])).
    apply N_elem; [apply En_none; reflexivity | constructor|]. constructor; [constructor; apply Decodes_plain; cbn; intuition discriminate|].
    constructor; [constructor|]. constructor; [constructor; apply Decodes_plain; cbn; intuition discriminate | constructor].
  - split; [|eexists; settle_with 40]. apply text_doc; [discriminate | cbn; intuition discriminate].
Qed.

(** ** C12: split_whitespace splits at Unicode white space, which is not XML white space (U+00A0) *)
Theorem C12_refuted : exists root, rng_schema [] nbsp_schema /\ in_limits [] nbsp_schema /\ doc_scope nbsp_doc /\ Document nbsp_doc root /\
  forall O, accepts O [] nbsp_schema (doc_tokens nbsp_doc) /\ ~ rng_valid O [] nbsp_schema root.
Proof.
  exists (Elm (plain_name "e") [] [Txt (49%N :: 160%N :: [50%N])]). split; [|split; [|split; [|split]]].
  - constructor; [apply no_defs | | apply St_elem]. cbn. repeat split; try discriminate. apply CT_list, Lb_gr; [apply Lb_data | apply Lb_gr1, Lb_data].
  - constructor; [apply no_defs | | exact no_defs_alias]. cbn. repeat split. apply no_defs_good.
  - constructor; [unfold doc_wf; cbn; repeat split; constructor | cbn; intros p u u' [] | cbn; intros u [] | exact NoDup_predefined | intros n v [] |].
    cbn. repeat split; try discriminate; [constructor|]. left; cbn; intuition discriminate.
  - unfold Document, nbsp_doc, el; cbn [d_prolog d_root]. change [Txt [49%N; 160%N; 50%N]] with (joined ([Txt [49%N; 160%N; 50%N]] ++ [])).
    apply N_elem; [apply En_none; reflexivity | constructor | constructor; [constructor; apply Decodes_plain; cbn; intuition discriminate | constructor]].
  - intros O. split; [eexists; settle_with 40|]. intros H. apply M_elem_inv in H as (_ & _ & H). apply W_one in H.
    destruct H as [[H _]|H]; [repeat match goal with H : blank (_ :: _) |- _ => inversion H; clear H; subst end; discriminate|].
    apply list_text in H as [_ H]. vm_compute in H.
    inversion H as [| |? ? ? a1 a2 ? m1 m2 HP H1 H2 E1 E2| | | | | | | | | | | | | | | |]; subst.
    inversion H1; subst. inversion H2 as [|? ? ? H3| | | | | | | | | | | | | | | | |]; subst. inversion H3; subst. discriminate.
Qed.

(** ** C04: a legal schema on which building a validator panics:
    start = a;  a = element x { b? };  b = a *)
Definition alias_defs : list mpat := [MElement (nm "x") (MOptional (MRef 1)); MRef 0].
Lemma alias_rng : rng_schema alias_defs (MRef 0).
Proof.
  assert (H1 : CT alias_defs TN (MRef 1)) by (eapply CT_ref; [reflexivity | eapply CT_ref; [reflexivity | apply CT_elem]]).
  constructor.
  - intros [|[|r]] X E; cbn in E; [| |destruct r; discriminate E]; injection E as <-; cbn; repeat split; try discriminate.
    apply CT_NA, CT_opt, H1.
  - cbn; discriminate.
  - eapply St_ref; [reflexivity | apply St_elem].
Qed.
Theorem C04_refuted : rng_schema alias_defs (MRef 0) /\
  settles (fun fuel => new_validator alias_defs fuel (Some (MRef 0))) (Panic PResolveToPlaceholder).
Proof. split; [exact alias_rng | settle_with 20]. Qed.

(** ** C02: a recursive nullable definition under oneOrMore:
    start = element r { y };  y = element a { (y, text)+ } | empty     rejects <r><a/></r> *)
Definition stale_defs : list mpat := [MChoice [MElement (nm "a") (MOneOrMore (MGroup [MRef 0; MText])); MEmpty]].
Definition stale_start : mpat := MElement (nm "r") (MRef 0).
Definition stale_doc : xdoc := XDoc [] (XElem [] (L "r") [] false [XElem [] (L "a") [] true []]) [].
Definition stale_root : item := Elm (plain_name "r") [] [Elm (plain_name "a") [] []].
Theorem C02_recursion_refuted : rng_schema stale_defs stale_start /\ doc_scope stale_doc /\ Document stale_doc stale_root /\
  forall O, rng_valid O stale_defs stale_start stale_root /\ harmless O stale_defs [stale_root] stale_start /\ rejects O stale_defs stale_start (doc_tokens stale_doc).
Proof.
  assert (H0 : CT stale_defs TN (MRef 0)) by (eapply CT_ref; [reflexivity | apply CT_ch; [apply CT_elem | apply CT_ch1, CT_EN, CT_empty]]).
  split; [|split; [|split]].
  - constructor.
    + intros [|r] X E; cbn in E; [|destruct r; discriminate E]. injection E as <-. cbn. repeat split; try discriminate.
      * apply Sa_no, No_gr; [|apply No_gr; [apply No_text | apply No_gr0]]. eapply No_ref; [reflexivity | apply No_ch; [apply No_elem | apply No_ch; [apply No_empty | apply No_ch0]]].
      * apply CT_NA, CT_one; [discriminate|]. apply CT_gr; [discriminate | exact H0 | apply CT_gr1, CT_text].
    + cbn. split; [discriminate | apply CT_NA; exact H0].
    + apply St_elem.
  - constructor; [unfold doc_wf; cbn; repeat split; constructor | cbn; intros p u u' [] | cbn; intros u [] | exact NoDup_predefined | intros n v [] |].
    cbn. repeat split; try discriminate; constructor.
  - unfold Document, stale_root; cbn [d_prolog d_root stale_doc].
    match goal with |- Node _ _ _ [Elm _ _ ?k] => change k with (joined (k ++ [])) end.
    apply N_elem; [apply En_none; reflexivity | constructor|]. constructor; [|constructor]. change (@nil item) with (joined []).
    apply N_elem; [apply En_none; reflexivity | constructor | constructor].
  - intros O.
    assert (He : M O stale_defs true [] [] (MRef 0)) by (eapply M_ref; [reflexivity | eapply M_choice; [right; left; reflexivity | apply M_empty]]).
    assert (Hb : M O stale_defs true [] [] (MOneOrMore (MGroup [MRef 0; MText]))).
    { apply M_one. refine (M_group O stale_defs true _ _ [] [] [] [] [] [] _ He _); [reflexivity | apply M_group_one, M_text; constructor]. }
    split; [|split].
    + apply one_elem; [split; reflexivity | split; [cbn; intuition discriminate | exact I]|]. apply W_1. eapply M_ref; [reflexivity|].
      eapply M_choice; [left; reflexivity|]. apply one_elem; [split; reflexivity | split; [intros [] | exact I]|]. apply W_1. exact Hb.
    + intros a nc p Ha Hs _. assert (a = []) as -> by (cbn in Ha; destruct Ha as [[[E _]|[[[_ E]|[]]|[]]]|[]]; [discriminate E | exact E]).
      assert (Hs' : p = MRef 0 \/ p = MOneOrMore (MGroup [MRef 0; MText])).
      { remember (MElement nc p) as Y eqn:EY. assert (Hcl : forall X Y, sub stale_defs X Y -> Y = MElement nc p ->
          (X = stale_start \/ X = MRef 0 \/ X = MChoice [MElement (nm "a") (MOneOrMore (MGroup [MRef 0; MText])); MEmpty] \/
           X = MElement (nm "a") (MOneOrMore (MGroup [MRef 0; MText])) \/ X = MEmpty \/ X = MOneOrMore (MGroup [MRef 0; MText]) \/ X = MGroup [MRef 0; MText] \/ X = MText) ->
          p = MRef 0 \/ p = MOneOrMore (MGroup [MRef 0; MText])).
        { clear. intros X Y H EY. induction H as [X|x l Y Hin Hx IH|x l Y Hin Hx IH|x l Y Hin Hx IH|q Y Hx IH|q Y Hx IH|q Y Hx IH|q Y Hx IH|n q Y Hx IH|n q Y Hx IH|q Y Hx IH|r X Y Hb Hx IH]; intros HX.
          - subst X. destruct HX as [E|[E|[E|[E|[E|[E|[E|E]]]]]]]; try discriminate E; injection E as _ ->; auto.
          - apply IH; [exact EY|]. destruct HX as [E|[E|[E|[E|[E|[E|[E|E]]]]]]]; try discriminate E. injection E as ->. destruct Hin as [<-|[<-|[]]]; tauto.
          - apply IH; [exact EY|]. destruct HX as [E|[E|[E|[E|[E|[E|[E|E]]]]]]]; try discriminate E. injection E as ->. destruct Hin as [<-|[<-|[]]]; tauto.
          - exfalso. destruct HX as [E|[E|[E|[E|[E|[E|[E|E]]]]]]]; discriminate E.
          - exfalso. destruct HX as [E|[E|[E|[E|[E|[E|[E|E]]]]]]]; discriminate E.
          - exfalso. destruct HX as [E|[E|[E|[E|[E|[E|[E|E]]]]]]]; discriminate E.
          - exfalso. destruct HX as [E|[E|[E|[E|[E|[E|[E|E]]]]]]]; discriminate E.
          - apply IH; [exact EY|]. destruct HX as [E|[E|[E|[E|[E|[E|[E|E]]]]]]]; try discriminate E. injection E as ->. tauto.
          - exfalso. destruct HX as [E|[E|[E|[E|[E|[E|[E|E]]]]]]]; discriminate E.
          - apply IH; [exact EY|]. destruct HX as [E|[E|[E|[E|[E|[E|[E|E]]]]]]]; try discriminate E; injection E as _ ->; tauto.
          - exfalso. destruct HX as [E|[E|[E|[E|[E|[E|[E|E]]]]]]]; discriminate E.
          - apply IH; [exact EY|]. destruct HX as [E|[E|[E|[E|[E|[E|[E|E]]]]]]]; try discriminate E; injection E as ->. cbn in Hb. injection Hb as <-. tauto. }
        apply (Hcl _ _ Hs EY). left; reflexivity. }
      destruct Hs' as [->| ->]; [exact He | exact Hb].
    + eexists; eexists. settle_with 40.
Qed.

Print Assumptions C14_refuted.
Print Assumptions C14_undeclared_refuted.
Print Assumptions C15_refuted.
Print Assumptions C01_refuted.
Print Assumptions C16_refuted.
Print Assumptions C16_attribute_refuted.
Print Assumptions C17_refuted.
Print Assumptions C18_refuted.
Print Assumptions C19_refuted.
Print Assumptions C12_refuted.
Print Assumptions C04_refuted.
Print Assumptions C02_recursion_refuted.
