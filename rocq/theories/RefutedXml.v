(** * RefutedXml: where the parser of the XML syntax departs from RELAX NG, with witnesses. *)
From Coq Require Import String.
From Verif Require Import Base Datatype DatatypeSpec Facets Syntax Store Lang Compile SchemaCompile SchemaTerm SchemaExamples.
From Verif Require Import XmlSyntax RngXml XmlScope XmlBase XmlProof XmlCheck XmlAnnot XmlDoc XmlRefuse XmlExamples.

Definition one (p : spat) : schema := Schema [] (TPattern p).
Definition X (n : string) (atts : list xatt) (kids : list xnod) : xnod := El s0 n atts kids.
Lemma only_b atts l : onlyb atts l = true -> Only atts l. Proof. apply onlyb_ok. Qed.
Lemma lib_any atts : LibOk any_uri atts. Proof. intros v _. right. reflexivity. Qed.
Lemma root_pattern n atts kids p : RP any_uri [] (X n atts kids) p -> str_eqb (lit n) (lit "grammar") = false -> Stands any_uri (X n atts kids) (one p).
Proof. intros H E. apply Sd_pattern; [|exact H]. intros a s k HR. apply Rng_parts in HR as (_ & HR & _). rewrite HR in E. discriminate E. Qed.
Lemma lacks_b atts n : has_all atts n (fun _ => false) = true -> Lacks atts n.
Proof. intros H v Hv. pose proof (has_all_ok _ _ _ H v Hv). discriminate. Qed.
Lemma named_b s l : ncname s = Some l -> clearb s = true -> Named s l.
Proof. intros H C. apply ncname_ok; [apply clearb_ok; exact C | exact H]. Qed.
Ltac onl := apply only_b; reflexivity.
Ltac pat := apply root_pattern; [|reflexivity].

(** ** C50: documents read otherwise than they should be *)
Definition ReadsOther (x : xnod) : Prop := exists s s', Stands any_uri x s /\ parse any_uri x = Some s' /\ s <> s'.
Definition RefusesGood (x : xnod) : Prop := exists s, Stands any_uri x s /\ parse any_uri x = None.
Definition AcceptsBad (x : xnod) : Prop := exists s, parse any_uri x = Some s /\ forall s', ~ Stands any_uri x s'.

(** <attribute name="a"/> below ns="u": the name is put in the namespace u (it is in none, RELAX NG 4.8) *)
Definition att_doc : xnod := X "element" [A "name" "e"; A "ns" "u"] [X "attribute" [A "name" "a"] []].
Theorem C50_attribute_namespace_refuted : ReadsOther att_doc.
Proof.
  exists (one (SElement (xid "u" "e") (SAttribute (xid "" "a") SText))), (one (SElement (xid "u" "e") (SAttribute (xid "u" "a") SText))). split; [|split; [vm_compute; reflexivity | vm_compute; discriminate]].
  pat. eapply (RP_element any_uri) with (v := lit "e") (ns := lit "u"); [reflexivity | onl | apply lib_any | left; reflexivity | apply If_here; right; left; reflexivity
    | apply Q_plain; apply named_b; vm_compute; reflexivity | apply El_rng; apply El_nil | | apply Ch_one].
  constructor; [|constructor]. eapply (RP_attribute any_uri) with (v := lit "a") (ns := []); [reflexivity | onl | apply lib_any | left; reflexivity | right; split; [apply lacks_b; reflexivity | reflexivity]
    | apply Q_plain; apply named_b; vm_compute; reflexivity | split; [discriminate | intros [_ E]; discriminate E] | apply El_nil | constructor | left; split; reflexivity].
Qed.
(** <name>p:a</name>: the prefix is not looked up; no prefix is declared in the result, and compiling it is an error *)
Definition sp : list (option str * str) := [(None, rng_uri); (Some (lit "p"), lit "u")].
Definition prefix_doc : xnod := El sp "element" [] [El sp "name" [] [T "p:a"]; El sp "empty" [] []].
Theorem C50_name_prefix_refuted : ReadsOther prefix_doc.
Proof.
  exists (one (SElement (xid "u" "a") SEmpty)), (one (SElement (CName (NmC (lit "p") (lit "a"))) SEmpty)). split; [|split; [vm_compute; reflexivity | vm_compute; discriminate]].
  apply Sd_pattern; [intros a s k HR; apply Rng_parts in HR as (_ & HR & _); discriminate HR|].
  eapply (RP_element_class any_uri); [reflexivity | onl | apply lib_any | apply El_rng, El_rng, El_nil | | constructor; [|constructor] | apply Ch_one].
  - eapply (RN_name any_uri) with (s := lit "p:a") (ns := []); [reflexivity | onl | apply lib_any | apply (St_text (lit "p:a") [] []); constructor | repeat apply If_above; try apply lacks_b; try reflexivity; apply If_none|].
    apply (Q_prefix sp [] (lit "p:a") (lit "p") (lit "a") (lit "u")).
    + exists [], []. split; [reflexivity | split; constructor].
    + eapply ncnameb_ok; vm_compute; reflexivity.
    + eapply ncnameb_ok; vm_compute; reflexivity.
    + right. split; [discriminate | right; left; reflexivity].
  - eapply (RP_simple any_uri); [apply Sm_empty | reflexivity | onl | apply lib_any | apply El_nil].
Qed.
Theorem C50_name_prefix_compile_refuted : exists t f, t f = Some prefix_doc /\ forall O C d, 5 <= d -> exists e, compile_grammar O C (xml_files any_uri t) d f = ferr e.
Proof.
  exists (fun f => if path_eqb (P "a.rng") f then Some prefix_doc else None), (P "a.rng"). split; [reflexivity|]. intros O C d Hd. eexists.
  rewrite (compile_mono _ _ _ 5 d _ Hd); [vm_compute; reflexivity | vm_compute; discriminate].
Qed.
(** a comment in a <value> is taken for the value, or ends it *)
Theorem C50_value_comment_refuted : ReadsOther (X "value" [] [XCom (lit "x"); T "abc"]).
Proof.
  exists (one (SValue None [lit "abc"])), (one (SValue None [lit "x"])). split; [|split; [vm_compute; reflexivity | vm_compute; discriminate]]. pat.
  eapply (RP_value_token any_uri); [reflexivity | onl | apply lib_any|]. apply St_comment. apply (St_text (lit "abc") [] []). constructor.
Qed.
Theorem C50_value_interrupted_refuted : ReadsOther (X "value" [] [T "ab"; XCom (lit "x"); T "cd"]).
Proof.
  exists (one (SValue None [lit "abcd"])), (one (SValue None [lit "ab"])). split; [|split; [vm_compute; reflexivity | vm_compute; discriminate]]. pat.
  eapply (RP_value_token any_uri); [reflexivity | onl | apply lib_any|]. apply (St_text (lit "ab") _ (lit "cd")). apply St_comment. apply (St_text (lit "cd") [] []). constructor.
Qed.
(** <data type="token"> of the XML Schema datatypes is taken for the built-in token *)
Theorem C50_token_library_refuted : ReadsOther (X "data" [A "type" "token"; A "datatypeLibrary" xsd_uri] []).
Proof.
  exists (one (SData (SdNs [lit xsd_uri] (lit "token")) (Some []) None)), (one (SData SdToken (Some []) None)). split; [|split; [vm_compute; reflexivity | vm_compute; discriminate]]. pat.
  eapply (RP_data any_uri) with (v := lit "token") (lib := lit xsd_uri); [reflexivity | onl | apply lib_any | left; reflexivity | apply named_b; vm_compute; reflexivity | apply If_here; right; left; reflexivity
    | apply Dt_other; intros [E _]; discriminate E | apply El_nil | constructor].
Qed.
(** ** C50: documents refused *)
Theorem C50_data_ns_refuted : RefusesGood (X "data" [A "type" "string"; A "ns" "u"] []).
Proof.
  exists (one (SData (SdNs [[]] (lit "string")) (Some []) None)). split; [|vm_compute; reflexivity]. pat.
  eapply (RP_data any_uri) with (v := lit "string") (lib := []); [reflexivity | onl | apply lib_any | left; reflexivity | apply named_b; vm_compute; reflexivity | apply If_above; [apply lacks_b; reflexivity | apply If_none]
    | apply Dt_other; intros [_ E]; discriminate E | apply El_nil | constructor].
Qed.
Theorem C50_empty_ns_refuted : RefusesGood (X "empty" [A "ns" "u"] []).
Proof. exists (one SEmpty). split; [|vm_compute; reflexivity]. pat. eapply (RP_simple any_uri); [apply Sm_empty | reflexivity | onl | apply lib_any | apply El_nil]. Qed.
Theorem C50_empty_param_refuted : RefusesGood (X "data" [A "type" "string"] [X "param" [A "name" "pattern"] []]).
Proof.
  exists (one (SData (SdNs [[]] (lit "string")) (Some [(None, IKId (lit "pattern"), [[]])]) None)). split; [|vm_compute; reflexivity]. pat.
  eapply (RP_data any_uri) with (v := lit "string") (lib := []); [reflexivity | onl | apply lib_any | left; reflexivity | apply named_b; vm_compute; reflexivity | apply If_above; [apply lacks_b; reflexivity | apply If_none]
    | apply Dt_other; intros [_ E]; discriminate E | apply El_rng, El_nil | constructor; [|constructor]].
  eapply (Pm any_uri) with (v := lit "pattern"); [reflexivity | onl | apply lib_any | left; reflexivity | apply named_b; vm_compute; reflexivity | constructor].
Qed.
Theorem C50_string_after_pi_refuted : RefusesGood (X "value" [] [XPin; T "a"]).
Proof. exists (one (SValue None [lit "a"])). split; [|vm_compute; reflexivity]. pat. eapply (RP_value_token any_uri); [reflexivity | onl | apply lib_any|]. apply St_pi. apply (St_text (lit "a") [] []). constructor. Qed.
(** ** C50: documents which are no schemas, accepted *)
Lemma rng_eq ns nm atts sc kids nm' a' s' k' : Rng (XElt ns (lit nm) atts sc kids) nm' a' s' k' -> nm = nm' /\ atts = a' /\ sc = s' /\ kids = k'.
Proof. intros H. apply Rng_parts in H as (_ & H & H'). apply lit_inj in H. auto. Qed.
Ltac kinds := unfold X, El in *; repeat match goal with
  | C : Compound _ _ _ |- _ => destruct C
  | C : Simple _ _ |- _ => destruct C
  | C : Reference _ _ |- _ => destruct C
  | R : Rng (XElt _ (lit _) _ _ _) _ _ _ _ |- _ => apply rng_eq in R as (R & ? & ? & ?); try discriminate R; clear R; subst
  end.
Ltac no_stands := let H := fresh in intros s H; inversion H; subst; match goal with R : RP _ _ _ _ |- _ => inversion R; subst end; kinds.
Theorem C50_unknown_attribute_refuted : AcceptsBad (X "ref" [A "name" "x"; A "nmae" "y"] []).
Proof.
  exists (one (SIdent (lit "x"))). split; [vm_compute; reflexivity|]. no_stands. match goal with O : Only _ _ |- _ => destruct (O (A "nmae" "y") ltac:(right; left; reflexivity)) as [_ HO] end.
  destruct (HO eq_refl) as (n & Hn & E). apply (lit_inj "nmae") in E. subst n. cbn in Hn. intuition discriminate.
Qed.
Theorem C50_text_refuted : AcceptsBad (X "group" [] [T "hello"; X "empty" [] []]).
Proof.
  exists (one (SGroup SEmpty)). split; [vm_compute; reflexivity|]. no_stands. match goal with E : Elements (T "hello" :: _) _ |- _ => inversion E as [| | ? ? ? HB| | |]; subst end. inversion HB as [|? ? HB1 _]; subst. vm_compute in HB1. intuition discriminate.
Qed.
Theorem C50_external_children_refuted : AcceptsBad (X "externalRef" [A "href" "a.rng"] [X "empty" [] []]).
Proof.
  exists (one (SExternal [lit "a.rng"] None)). split; [vm_compute; reflexivity|]. no_stands. match goal with E : Elements (_ :: _) [] |- _ => inversion E; subst end. congruence.
Qed.
Definition ns_in : xnod := X "nsName" [] [].
Definition ns_ex : xnod := X "except" [] [ns_in].
Definition ns_out : xnod := X "nsName" [] [ns_ex].
Definition ns_doc : xnod := X "element" [] [ns_out; X "empty" [] []].
Lemma ns_class up w c : ~ RN any_uri up w ns_out c.
Proof.
  intros H. unfold ns_out in H. inversion H; subst; kinds. match goal with N : RE _ _ _ _ _ |- _ => inversion N; subst end.
  - match goal with E : Elements _ [] |- _ => apply Elements_filter in E; discriminate E end.
  - match goal with E : Elements _ [?k] |- _ => apply Elements_filter in E; change (filter is_rng_el [ns_ex]) with [ns_ex] in E; injection E as -> end. unfold ns_ex in *. kinds.
    match goal with E : Elements _ ?k, F : Forall2 _ ?k _ |- _ => apply Elements_filter in E; change (filter is_rng_el [ns_in]) with [ns_in] in E; subst k; inversion F as [|? ? ? ? HN _]; subst end.
    unfold ns_in in HN. inversion HN; subst; kinds. congruence.
Qed.
Theorem C50_nsname_refuted : AcceptsBad ns_doc.
Proof.
  exists (one (SElement (CNs (NsUri [[]]) (Some (CNs (NsUri [[]]) None))) SEmpty)). split; [vm_compute; reflexivity|]. unfold ns_doc. no_stands.
  - match goal with O : Has [] _ _ |- _ => destruct O end.
  - match goal with E : Elements _ (?k :: ?ks) |- _ => apply Elements_filter in E; change (filter is_rng_el [ns_out; XElt (Some rng_uri) (lit "empty") [] s0 []]) with [ns_out; XElt (Some rng_uri) (lit "empty") [] s0 []] in E; injection E as -> -> end.
    match goal with N : RN _ _ _ _ _ |- _ => exact (ns_class _ _ _ N) end.
Qed.
Theorem C50_xmlns_refuted : AcceptsBad (X "attribute" [A "name" " xmlns "] []).
Proof.
  exists (one (SAttribute (xid "" "xmlns") SText)). split; [vm_compute; reflexivity|]. no_stands.
  - match goal with O : Has _ "name" ?v |- _ => destruct O as [O|[]]; injection O as <- end. match goal with Q : QName _ _ _ _ |- _ => inversion Q; subst end.
    + match goal with N : Named _ ?l |- _ => apply ncname_ok in N; [|apply clearb_ok; reflexivity]; vm_compute in N; injection N as <- end.
      match goal with N : no_xmlns _ |- _ => destruct N as [_ N]; apply N; split; [|reflexivity] end.
      match goal with D : Has _ "ns" _ \/ _ |- _ => destruct D as [[D|[]]|[_ ->]]; [discriminate D | reflexivity] end.
    + match goal with Q : Padded _ (?p ++ lit ":" ++ ?l) |- _ => destruct Q as (a & b & E & _) end.
      match type of E with _ = ?r => assert (HI : In 58%N r) by (rewrite !in_app_iff; right; left; right; left; left; reflexivity) end.
      rewrite <- E in HI. vm_compute in HI. intuition discriminate.
  - match goal with E : Elements [] (_ :: _) |- _ => inversion E end.
Qed.
(** a no-break space around a name is dropped *)
Theorem C50_nbsp_refuted : AcceptsBad (X "ref" [XAtt None (lit "name") (160%N :: lit "x")] []).
Proof.
  exists (one (SIdent (lit "x"))). split; [vm_compute; reflexivity|]. no_stands. match goal with O : Has _ "name" ?v |- _ => destruct O as [O|[]]; injection O as <- end.
  match goal with N : Named _ ?i |- _ => destruct N as [(a & b & E & Ha & Hb) HN] end. destruct a as [|c a].
  - cbn [app] in E. match type of HN with NCName ?i => destruct i as [|c i]; [exact (NCName_nonempty _ HN eq_refl)|] end. injection E as <- E. apply NCName_chars in HN. inversion HN as [|? ? N1 _]; subst. apply DatatypeProof2.char_spec in N1. vm_compute in N1. discriminate N1.
  - injection E as <- E. inversion Ha as [|? ? Hsp _]; subst. vm_compute in Hsp. intuition discriminate.
Qed.
(** ** C50: <define name="start"> clashes with <start> (names of definitions and start are apart in RELAX NG, 4.18) *)
Definition start_doc : xnod := X "grammar" [] [X "start" [] [X "ref" [A "name" "start"] []]; X "define" [A "name" "start"] [X "element" [A "name" "a"] [X "empty" [] []]]].
Theorem C50_start_refuted : exists t f, t f = Some start_doc /\ forall O C d, 5 <= d -> exists e, compile_grammar O C (xml_files any_uri t) d f = ferr e.
Proof.
  exists (fun f => if path_eqb (P "a.rng") f then Some start_doc else None), (P "a.rng"). split; [reflexivity|]. intros O C d Hd. eexists.
  rewrite (compile_mono _ _ _ 5 d _ Hd); [vm_compute; reflexivity | vm_compute; discriminate].
Qed.

(** ** C51: a comment in a <param> changes the schema *)
Theorem C51_refuted : exists a b s s', a <> b /\ b = [XCom (lit "9")] ++ a /\ parse any_uri (X "data" [A "type" "string"] [X "param" [A "name" "length"] a]) = Some s /\
  parse any_uri (X "data" [A "type" "string"] [X "param" [A "name" "length"] b]) = Some s' /\ s <> s'.
Proof. exists [T "5"], [XCom (lit "9"); T "5"]. eexists _, _. split; [discriminate|]. split; [reflexivity|]. split; [vm_compute; reflexivity|]. split; [vm_compute; reflexivity|]. vm_compute. discriminate. Qed.

(** ** C52: with xml:base="dir/.", "f" is looked for beside dir, not in it *)
Theorem C52_refuted : exists up href r, Forall distinct up /\ Resolved up href r /\ rebase_path up href <> r /\ r = lit "dir/f" /\ rebase_path up href = lit "f".
Proof.
  exists [[XAtt (Some xml_ns) (lit "base") (lit "dir/.")]], (lit "f"), (lit "dir/f"). split; [repeat constructor; intros []|]. split; [|split; [vm_compute; discriminate | split; reflexivity]].
  exists (lit "dir/."). split; [|apply (Mg_dir (lit "dir") (lit ".") (lit "f")); [discriminate | discriminate | intros [E|[]]; discriminate E]].
  eapply Ba_here; [left; reflexivity | apply Ba_none | apply Mg_file; [discriminate | discriminate | intros []]].
Qed.

(** ** C54: the span of an XML error.  A position is in the text when there is such a line, with at least [col - 1] bytes *)
Definition InText (text : str) (row col : nat) : Prop := exists line, nth_error (lines text) (row - 1) = Some line /\ 1 <= row /\ 1 <= col <= S (List.length line).
(** an error at the end of a line: the subtraction of the column from the length panics *)
Theorem C54_panic_refuted : exists text row col, InText text row col /\ error_span text row col = None.
Proof. exists (lit "<a"), 1, 3. split; [|reflexivity]. exists (lit "<a"). split; [reflexivity|]. cbn. lia. Qed.
(** the span ends before it starts, or is outside of the text *)
Theorem C54_order_refuted : exists text row col s e, InText text row col /\ error_span text row col = Some (s, e) /\ e < s.
Proof. exists (lit "<a b"), 1, 4, 8, 0. split; [|split; [reflexivity | lia]]. exists (lit "<a b"). split; [reflexivity|]. cbn. lia. Qed.
Theorem C54_outside_refuted : exists text row col s e, InText text row col /\ error_span text row col = Some (s, e) /\ List.length text < s.
Proof. exists (lit "<a b"), 1, 4, 8, 0. split; [|split; [reflexivity | cbn; lia]]. exists (lit "<a b"). split; [reflexivity|]. cbn. lia. Qed.
