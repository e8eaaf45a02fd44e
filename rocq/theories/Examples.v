(** * Examples: a schema and documents that meet the hypotheses of the property theorems.

    start = element book { card* }
    card  = element card { attribute id { token }?,
                           (element name { text } & element u:nums { list { xsd:int+ } }?),
                           card* }                                                              *)
From Coq Require Import String.
From Verif Require Import Base Datatype Store Deriv Events Lang Doc Accept Compile Schema Spec Scope Infoset Main Steps Perm Reach Verdicts Words Runs.

Definition L (s : string) : str := lit s.
Definition unb : minmax Z := MinMax BUnbounded BUnbounded.
Definition ints : mpat := MList (MOneOrMore (MData (DXsd (XInt unb None)) None)).
Definition card : mpat :=
  MElement (NNamed [] (L "card"))
    (MGroup [ MOptional (MAttribute (NNamed [] (L "id")) (MData DToken None));
              MInterleave [ MElement (NNamed [] (L "name")) MText;
                            MOptional (MElement (NNamed (L "u") (L "nums")) ints) ];
              MZeroOrMore (MRef 0) ]).
Definition ex_defs : list mpat := [card].
Definition ex_start : mpat := MElement (NNamed [] (L "book")) (MZeroOrMore (MRef 0)).

Lemma ex_simple : simple_form ex_defs.
Proof. intros [|[|r]] X E; cbn in E; try discriminate. injection E as <-. unfold card. eauto. Qed.
Lemma ex_deref r X : deref ex_defs r = Some X -> X = card.
Proof. destruct r as [|[|r]]; cbn; intros E; congruence. Qed.
Lemma card_single : single_atts ex_defs (MRef 0).
Proof. apply Sa_no. eapply No_ref; [reflexivity | apply No_elem]. Qed.
Lemma ct_card t : t <> TE -> CT ex_defs t (MRef 0).
Proof. intros Ht. eapply CT_ref; [reflexivity|]. destruct t; [congruence | apply CT_elem | apply CT_NA, CT_elem]. Qed.
Lemma card_restr : restr ex_defs card.
Proof.
  cbn. repeat split; try discriminate; try apply card_single.
  - apply CT_NA, CT_text.
  - apply Sa_no. apply No_data.
  - apply CT_list, Lb_one, Lb_data.
  - apply CT_NA, CT_gr; [discriminate | | apply CT_gr; [discriminate | | apply CT_gr1]].
    + apply CT_EN, CT_opt, CT_attr, CT_data.
    + apply CT_in; [discriminate | apply CT_elem | apply CT_in1, CT_opt, CT_elem].
    + apply CT_zero; [discriminate | apply ct_card; discriminate].
Qed.
Lemma ex_rng : rng_schema ex_defs ex_start.
Proof.
  constructor.
  - intros r X E. apply ex_deref in E as ->. apply card_restr.
  - cbn. repeat split; try discriminate; try apply card_single. apply CT_NA, CT_zero; [discriminate | apply ct_card; discriminate].
  - apply St_elem.
Qed.
Lemma ex_limits : in_limits ex_defs ex_start.
Proof.
  constructor.
  - intros r X E. apply ex_deref in E as ->. cbn. repeat split; try (left; apply simple_good, ex_simple); apply simple_good, ex_simple.
  - cbn. split; [exact I | left; apply simple_good, ex_simple].
  - apply simple_alias, ex_simple.
Qed.

(** [<!-- x --><book><card id="k7"><p:nums xmlns:p="u"> 1 -22 </p:nums><name>A &amp; B</name><card><name>C</name></card></card></book>] *)
Definition name_el (t : str) : xnode := XElem [] (L "name") [] false [XText 0 t].
Definition nums_el (t : str) : xnode := XElem (L "p") (L "nums") [(L "xmlns", L "p", L "u")] false [XText 0 t].
Definition ex_doc : xdoc :=
  XDoc [TComment (L " x ")]
    (XElem [] (L "book") [] false
      [ XElem [] (L "card") [([], L "id", L "k7")] false
          [ nums_el (L " 1 -22 "); name_el (L "A &amp; B"); XElem [] (L "card") [] false [name_el (L "C")] ] ])
    [].
Definition plain_name (s : string) : qname := QName None (L s).
Definition ex_root : item :=
  Elm (plain_name "book") []
    [ Elm (plain_name "card") [Attr (plain_name "id") (L "k7")]
        [ Elm (QName (Some (L "u")) (L "nums")) [] [Txt (L " 1 -22 ")];
          Elm (plain_name "name") [] [Txt (L "A & B")];
          Elm (plain_name "card") [] [Elm (plain_name "name") [] [Txt (L "C")]] ] ].
Lemma ex_scope : doc_scope ex_doc.
Proof.
  constructor.
  - unfold doc_wf; cbn; repeat split; repeat constructor.
  - cbn. intros p u u' [E|[]] [E'|[]]. congruence.
  - cbn. intros u [E|[]]. discriminate E.
  - exact NoDup_predefined.
  - intros n v [].
  - cbn. repeat split; try discriminate; try (repeat constructor; discriminate); try (left; cbn; intuition discriminate). 
Qed.
Ltac dec_chars := repeat (apply De_char; [discriminate|]); try apply De_nil.
Lemma ex_document : Document ex_doc ex_root.
Proof.
  unfold Document. cbn [d_prolog d_root ex_doc].
  assert (HT : forall env t, ~ In 38%N t -> Node (entities [TComment (L " x ")]) env (XText 0 t) [Txt t]) by (intros; constructor; apply Decodes_plain; assumption).
  assert (HN : forall env t t', first_binding [] env = None -> Decodes (entities [TComment (L " x ")]) t t' -> t' <> [] ->
     Node (entities [TComment (L " x ")]) env (name_el t) [Elm (plain_name "name") [] [Txt t']]).
  { intros env t t' He Ht Hn. assert (E : [Txt t'] = joined ([Txt t'] ++ [])) by (destruct t'; [congruence | reflexivity]). rewrite E.
    apply N_elem; [apply En_none; exact He | constructor | constructor; [constructor; exact Ht | constructor]]. }
  unfold ex_root.
  match goal with |- Node _ _ _ [Elm _ _ ?k] => change k with (joined (k ++ [])) end.
  apply N_elem; [apply En_none; reflexivity | constructor|]. constructor; [|constructor].
  match goal with |- Node _ _ _ [Elm _ _ [?a; ?b; ?c]] => change [a; b; c] with (joined ([a] ++ [b] ++ [c] ++ [])) end.
  apply N_elem; [apply En_none; reflexivity | | ].
  - constructor; [|constructor]. constructor; [constructor|]. unfold AttValue. cbn. dec_chars.
  - constructor; [|constructor; [|constructor; [|constructor]]].
    + change [Txt (L " 1 -22 ")] with (joined ([Txt (L " 1 -22 ")] ++ [])). unfold nums_el.
      apply N_elem; [apply En_prefix; reflexivity | constructor | constructor; [apply HT; cbn; intuition discriminate | constructor]].
    + apply HN; [reflexivity | | discriminate].
      change (L "A &amp; B") with (L "A " ++ 38%N :: (97%N :: L "mp") ++ 59%N :: L " B"). cbn [L lit app]. 
      apply De_char; [discriminate|]. apply De_char; [discriminate|].
      change (L "A & B") with ([65%N; 32%N] ++ [38%N] ++ L " B"). cbn [app].
      refine (De_entity _ 97%N (L "mp") [38%N] (L " B") (L " B") _ _ _ _); [discriminate | cbn; intuition discriminate | reflexivity | dec_chars].
    + match goal with |- Node _ _ _ [Elm _ _ ?k] => change k with (joined (k ++ [])) end.
      apply N_elem; [apply En_none; reflexivity | constructor|]. constructor; [|constructor]. apply HN; [reflexivity | cbn; dec_chars | discriminate].
Qed.
Lemma ex_plain : plain_item ex_root.
Proof. cbn. repeat split; repeat (constructor; try (vm_compute; congruence)). Qed.

(** run the model with a symbolic amount of extra fuel *)
Ltac settle_with n :=
  exists n; let m := fresh in let H := fresh in intros m H; replace m with (n + (m - n)) by lia; generalize (m - n); clear; intros k; vm_compute; reflexivity.
Lemma ex_accepts O : accepts O ex_defs ex_start (doc_tokens ex_doc).
Proof. eexists. settle_with 40. Qed.
Lemma ex_no_overflow O : ~ overflows O ex_defs ex_start (doc_tokens ex_doc).
Proof. intros H. exact (acc_over _ _ _ _ (ex_accepts O) H). Qed.

(** ** C02, C03: a document without empty elements does not rely on weak match 3 *)
Lemma ex_harmless O : harmless O ex_defs [ex_root] ex_start.
Proof. intros a nc p H. exfalso. cbn in H. intuition discriminate. Qed.
(** a rejected prefix of a document in scope: [<book><card><name>..] with a second [name] *)
Definition ex_bad : xdoc :=
  XDoc [] (XElem [] (L "book") [] false [ XElem [] (L "card") [] false [ name_el (L "A"); name_el (L "B") ] ]) [].
Definition ex_bad_root : item :=
  Elm (plain_name "book") [] [ Elm (plain_name "card") [] [ Elm (plain_name "name") [] [Txt (L "A")]; Elm (plain_name "name") [] [Txt (L "B")] ] ].
Definition ex_bad_seen : list token := firstn 10 (doc_tokens ex_bad).
Lemma ex_bad_rejected O : rejects O ex_defs ex_start ex_bad_seen.
Proof. eexists; eexists. settle_with 40. Qed.
Lemma ex_bad_scope : doc_scope ex_bad.
Proof.
  constructor; [unfold doc_wf; cbn; repeat split; repeat constructor | cbn; intros p u u' [] | cbn; intros u [] | exact NoDup_predefined | intros n v [] |].
  cbn. repeat split; try discriminate; try (repeat constructor; discriminate); try (left; cbn; intuition discriminate).
Qed.
Lemma ex_bad_document : Document ex_bad ex_bad_root.
Proof.
  unfold Document. cbn [d_prolog d_root ex_bad].
  assert (HN : forall t, ~ In 38%N t -> t <> [] -> Node (entities []) initial_env (name_el t) [Elm (plain_name "name") [] [Txt t]]).
  { intros t Ht Hn. assert (E : [Txt t] = joined ([Txt t] ++ [])) by (destruct t; [congruence | reflexivity]). rewrite E.
    apply N_elem; [apply En_none; reflexivity | constructor | constructor; [constructor; apply Decodes_plain; exact Ht | constructor]]. }
  unfold ex_bad_root.
  match goal with |- Node _ _ _ [Elm _ _ ?k] => change k with (joined (k ++ [])) end.
  apply N_elem; [apply En_none; reflexivity | constructor|]. constructor; [|constructor].
  match goal with |- Node _ _ _ [Elm _ _ [?a; ?b]] => change [a; b] with (joined ([a] ++ [b] ++ [])) end.
  apply N_elem; [apply En_none; reflexivity | constructor|].
  constructor; [|constructor; [|constructor]]; (apply HN; [cbn; intuition discriminate | discriminate]).
Qed.
Lemma ex_bad_plain : plain_item ex_bad_root.
Proof. cbn. repeat split; repeat (constructor; try (vm_compute; congruence)). Qed.
Lemma ex_bad_harmless O : harmless O ex_defs [ex_bad_root] ex_start.
Proof. intros a nc p H. exfalso. cbn in H. intuition discriminate. Qed.

(** ** C04: a token stream that is not a document *)
Example ex_stream : stream_ok false [TElementStart [] (L "x"); TAttribute [] (L "y") (L "z"); TElementEnd EndOpen; TElementEnd (EndClose [] (L "q")); TText 0 (L "&;")].
Proof. cbn. auto. Qed.

(** ** C06 *)
Definition two_atts : mpat := MElement (NNamed [] (L "e")) (MGroup [MAttribute (NNamed [] (L "a")) MText; MOptional (MAttribute (NNamed [] (L "b")) MText)]).
Definition ab (x y : string) : xdoc := el (L "e") [([], L x, L "1"); ([], L y, L "2")] [].
Lemma two_rng : rng_schema [] two_atts.
Proof.
  constructor; [intros [|r] X E; discriminate E | | apply St_elem]. cbn. repeat split; try discriminate.
  apply CT_NA, CT_EN, CT_gr; [discriminate | | apply CT_gr1, CT_opt]; apply CT_attr, CT_NA, CT_text.
Qed.
Lemma two_lim : in_limits [] two_atts.
Proof. constructor; [intros [|r] X E; discriminate E | | intros [|r] m X E; discriminate E]. cbn. repeat split; intros r Y _ _ E; destruct r; discriminate E. Qed.
Lemma ab_reordered : reordered (ab "a" "b") (XDoc [] (XElem [] (L "e") [([], L "b", L "2"); ([], L "a", L "1")] false []) []).
Proof. split; [reflexivity|]. split; [reflexivity|]. cbn. constructor; [constructor | constructor]. Qed.
Lemma ab_scope : doc_scope (ab "a" "b").
Proof.
  constructor; [unfold doc_wf; cbn; repeat split; repeat constructor | cbn; intros p u u' [] | cbn; intros u [] | exact NoDup_predefined | intros n v [] |].
  cbn. repeat split; try discriminate; repeat (constructor; try (split; [discriminate|])); repeat split; discriminate.
Qed.
Lemma ab_document : Document (ab "a" "b") (Elm (plain_name "e") [Attr (plain_name "a") (L "1"); Attr (plain_name "b") (L "2")] []).
Proof.
  unfold Document. change (@nil item) with (joined []). apply N_elem; [apply En_none; reflexivity | | constructor].
  repeat constructor; discriminate.
Qed.
Lemma ab_plain : plain_item (Elm (plain_name "e") [Attr (plain_name "a") (L "1"); Attr (plain_name "b") (L "2")] []).
Proof. cbn. repeat split; repeat (constructor; try (vm_compute; congruence)). Qed.
Lemma ab_accepts O : accepts O [] two_atts (doc_tokens (ab "a" "b")).
Proof. eexists. settle_with 40. Qed.

(** ** C07-C10: reachable states *)
Lemma check_reachable O defs start toks fuel v e : check O defs start toks fuel = Ok (v, e) -> reachable O defs start v.
Proof.
  unfold check. destruct (new_validator defs fuel (Some start)) as [v0| |] eqn:E0; cbn [rbind]; try discriminate.
  intros E. eapply run_reachable; [eapply R_new; exact E0 | exact E].
Qed.
(** in the middle of a start tag, with the schema compiled and some derivatives built *)
Lemma ex_reachable O : exists v, reachable O ex_defs ex_start v /\ List.length (v_stack v) = 4 /\ 10 < List.length (pats (v_store v)).
Proof.
  destruct (check O ex_defs ex_start (firstn 9 (doc_tokens ex_bad)) 40) as [[v e]| |] eqn:E; [|vm_compute in E; discriminate E ..].
  exists v. split; [eapply check_reachable; exact E|]. vm_compute in E. injection E as <- _. cbn. split; [reflexivity | lia].
Qed.

(** ** C11, C12, C13 *)
Definition enum_att : mpat := MElement (NNamed [] (L "e")) (MAttribute (NAnyName (Some (NNamed [] (L "no")))) (MChoice [MValue (VToken (L "on")); MEmpty])).
Lemma enum_rng : rng_schema [] enum_att.
Proof.
  constructor; [intros [|r] X E; discriminate E | | apply St_elem]. cbn. repeat split; try discriminate.
  apply CT_NA, CT_EN, CT_attr, CT_ch; [apply CT_value | apply CT_ch1, CT_NA, CT_EN, CT_empty].
Qed.
Lemma no_defs_good X : good [] X.
Proof. intros r Y _ _ E. destruct r; discriminate E. Qed.
Lemma no_defs_alias : no_alias [].
Proof. intros [|r] m X E; discriminate E. Qed.
Lemma enum_lim : in_limits [] enum_att.
Proof. constructor; [intros [|r] X E; discriminate E | | exact no_defs_alias]. cbn. repeat split. apply no_defs_good. Qed.
Lemma enum_accepts O : accepts O [] enum_att (doc_tokens (el (L "e") [([], L "yes", L " on ")] [])) /\
  accepts O [] enum_att (doc_tokens (el (L "e") [([], L "yes", L "  ")] [])) /\
  rejects O [] enum_att (doc_tokens (el (L "e") [([], L "no", L "on")] [])) /\
  rejects O [] enum_att (doc_tokens (el (L "e") [([], L "yes", L "off")] [])).
Proof. split; [eexists; settle_with 40 | split; [eexists; settle_with 40 | split; eexists; eexists; settle_with 40]]. Qed.
Definition ints_el : mpat := MElement (NNamed [] (L "e")) ints.
Lemma ints_rng : rng_schema [] ints_el.
Proof.
  constructor; [intros [|r] X E; discriminate E | | apply St_elem]. cbn. repeat split; [apply Sa_no, No_data | apply CT_list, Lb_one, Lb_data].
Qed.
Lemma ints_lim : in_limits [] ints_el.
Proof. constructor; [intros [|r] X E; discriminate E | | exact no_defs_alias]. cbn. repeat split; [left|]; apply no_defs_good. Qed.
Lemma ints_words : Words (L " 12  -3") [L "12"; L "-3"].
Proof.
  refine (Wd_cons (L " ") (L "12") 32%N (L " -3") [L "-3"] _ _ _ _ _); [repeat constructor | discriminate | repeat constructor | reflexivity|].
  refine (Wd_last (L " ") (L "-3") _ _ _); [repeat constructor | discriminate | repeat constructor].
Qed.
Lemma ints_accepts O : accepts O [] ints_el (doc_tokens (el (L "e") [] [XText 0 (L " 12  -3")])) /\
  rejects O [] ints_el (doc_tokens (el (L "e") [] [XText 0 (L " 12  -x")])).
Proof. split; [eexists; settle_with 40 | eexists; eexists; settle_with 40]. Qed.
Definition but_el : mpat := MElement (NNamed [] (L "e")) (MData DString (Some (MChoice [MValue (VString (L "x")); MValue (VToken (L "y"))]))).
Lemma but_rng : rng_schema [] but_el.
Proof. constructor; [intros [|r] X E; discriminate E | | apply St_elem]. cbn. repeat split; [discriminate | apply CT_data]. Qed.
Lemma but_lim : in_limits [] but_el.
Proof. constructor; [intros [|r] X E; discriminate E | | exact no_defs_alias]. cbn. repeat split. apply Ex_ch; [apply Ex_value | apply Ex_ch1, Ex_value]. Qed.
Lemma but_accepts O : accepts O [] but_el (doc_tokens (el (L "e") [] [XText 0 (L " x")])) /\
  rejects O [] but_el (doc_tokens (el (L "e") [] [XText 0 (L " y")])).
Proof. split; [eexists; settle_with 40 | eexists; eexists; settle_with 40]. Qed.

(** ** C16: [<!DOCTYPE e [<!ENTITY who "World">]> <e>Hi &who;&#33;&#x21;</e>] *)
Definition who_prolog : list token := [TDtdStart (L "e"); TEntityDeclaration (L "who") (Some (L "World")); TDtdEnd].
Definition who_raw : str := L "Hi &who;&#33;&#x21;".
Lemma who_scope : doc_scope (text_in who_prolog (L "e") 0 who_raw).
Proof.
  constructor; [ |cbn; intros p u u' [] | cbn; intros u [] | | | ].
  - unfold doc_wf; cbn; repeat split; repeat constructor.
  - cbn. repeat constructor; cbn; intuition discriminate.
  - cbn. intros n v [E|[]]. injection E as <- <-. split; [discriminate|]. split; cbn; intuition discriminate.
  - cbn. repeat split; try discriminate; try apply Forall_nil. right. repeat constructor. discriminate.
Qed.
Lemma who_decodes : Decodes (entities who_prolog) who_raw (L "Hi World!!").
Proof.
  unfold who_raw. cbn [L lit]. apply De_char; [discriminate|]. apply De_char; [discriminate|]. apply De_char; [discriminate|].
  refine (De_entity _ 119%N (L "ho") (L "World") (L "&#33;&#x21;") (L "!!") _ _ _ _); [discriminate | cbn; intuition discriminate | reflexivity|].
  refine (De_dec _ 51%N (L "3") (L "&#x21;") (L "!") _ _ _); [repeat constructor; cbv; congruence | cbv; intuition congruence|].
  refine (De_hex _ 50%N (L "1") [] [] _ _ (De_nil _)); [repeat constructor; cbv; intuition congruence | cbv; intuition congruence].
Qed.
Lemma who_accepts O : accepts O [] (string_el (L "e") (L "Hi World!!")) (doc_tokens (text_in who_prolog (L "e") 0 who_raw)).
Proof. eexists. settle_with 40. Qed.

(** ** C38: another spelling of [ex_doc] *)
Definition ex_doc2 : xdoc :=
  XDoc []
    (XElem [] (L "book") [(L "xmlns", L "q", L "u"); (L "xmlns", L "zz", L "v")] false
      [ XElem [] (L "card") [([], L "id", L "k7")] false
          [ XElem (L "q") (L "nums") [] false [XCdata (L " 1 -22 ")]; XComment (L "c");
            XElem [] (L "name") [] false [XText 0 (L "A &#38; B")]; XElem [] (L "card") [] false [name_el (L "C")] ] ])
    [TComment (L "end")].

(** ** C08, C09 *)
Lemma ex_empty O : exists v v1 fuel, reachable O ex_defs ex_start v /\ List.length (v_stack v) = 4 /\
  run O fuel v [TElementEnd EndEmpty] = Ok (v1, None) /\ run O fuel v [TElementEnd EndOpen; TElementEnd (EndClose [] (L "name"))] = Ok (v1, None).
Proof.
  destruct (check O ex_defs ex_start [TElementStart [] (L "book"); TElementEnd EndOpen; TElementStart [] (L "card"); TElementEnd EndOpen;
     TElementStart (L "q") (L "nums"); TAttribute (L "xmlns") (L "q") (L "u"); TElementEnd EndOpen; TText 0 (L "1"); TElementEnd (EndClose (L "q") (L "nums")); TElementStart [] (L "name")] 40) as [[v e]| |] eqn:E; [|vm_compute in E; discriminate E ..].
  exists v. pose proof (check_reachable _ _ _ _ _ _ _ E) as HR. vm_compute in E. injection E as <- _.
  eexists. exists 40. split; [exact HR|]. split; [reflexivity|]. split; vm_compute; reflexivity.
Qed.
Lemma ex_rejected O : exists v v' e, reachable O ex_defs ex_start v /\ List.length (v_stack v) = 4 /\
  validate O 40 v (TElementEnd EndOpen) = Ok (v', Some e) /\ v_cur v' = v_cur v.
Proof.
  destruct (check O ex_defs ex_start (firstn 9 (doc_tokens ex_bad)) 40) as [[v e]| |] eqn:E; [|vm_compute in E; discriminate E ..].
  exists v. pose proof (check_reachable _ _ _ _ _ _ _ E) as HR. vm_compute in E. injection E as <- _.
  eexists. eexists. split; [exact HR|]. split; [reflexivity|]. split; vm_compute; reflexivity.
Qed.

(** ** C02, C12: a list whose text contains a no-break space: [<e>1&#160;2</e>], the character itself *)
Definition nbsp_doc : xdoc := el (L "e") [] [XText 0 (49%N :: 160%N :: [50%N])].
Definition nbsp_root : item := Elm (plain_name "e") [] [Txt (49%N :: 160%N :: [50%N])].
Definition nbsp_schema : mpat := MElement (NNamed [] (L "e")) (MList (MGroup [MData DToken None; MData DToken None])).
Lemma nbsp_rng : rng_schema [] nbsp_schema.
Proof. constructor; [intros [|r] X E; discriminate E | | apply St_elem]. cbn. repeat split; try discriminate. apply CT_list, Lb_gr; [apply Lb_data | apply Lb_gr1, Lb_data]. Qed.
Lemma nbsp_lim : in_limits [] nbsp_schema.
Proof. constructor; [intros [|r] X E; discriminate E | | intros [|r] m X E; discriminate E]. cbn. repeat split. apply no_defs_good. Qed.
Lemma nbsp_scope : doc_scope nbsp_doc.
Proof. apply text_doc; [discriminate | cbn; intuition discriminate]. Qed.
Lemma nbsp_document : Document nbsp_doc nbsp_root.
Proof. apply text_doc; [discriminate | cbn; intuition discriminate]. Qed.
Lemma nbsp_accepts O : accepts O [] nbsp_schema (doc_tokens nbsp_doc).
Proof. eexists; settle_with 40. Qed.
Lemma nbsp_no_overflow O : ~ overflows O [] nbsp_schema (doc_tokens nbsp_doc).
Proof. intros H. exact (acc_over _ _ _ _ (nbsp_accepts O) H). Qed.
Lemma nbsp_runs : Runs is_uni_ws [49%N; 160%N; 50%N] [[49%N]; [50%N]].
Proof.
  apply (Rn_cons _ [] [49%N] 160%N [50%N] [[50%N]]); [constructor | discriminate | repeat constructor | reflexivity|].
  apply (Rn_last _ [] [50%N]); [constructor | discriminate | repeat constructor].
Qed.
