(** * RefutedDatatype: datatype properties the code does not have, with witnesses. *)
From Coq Require Import QArith Qcanon String.
From Verif Require Import Base Regex Datatype Facets Spec Words DatatypeSpec DatatypeMain.
Local Open Scope N_scope.

(** C20: a form feed is not XML white space, yet it is turned into a space. *)
Theorem C20_refuted : ~ forall s ws, Words s ws -> normalize_whitespace s = spaced ws.
Proof.
  intros H. specialize (H [97; 12; 98] [[97; 12; 98]] (Wd_last [] [97; 12; 98] (Forall_nil _) ltac:(discriminate) ltac:(repeat constructor))). discriminate H.
Qed.
(** C22: "1_000" is accepted as an integer *)
Theorem C22_underscore_refuted : forall O C, exists d, compiles O C "integer" [] d /\ fits O d (lit "1_000") /\ forall z, ~ Int_lit (lit "1_000") z.
Proof.
  intros O C. exists (DXsd (XInteger no_bounds None)). repeat split. intros z H. 
  assert (E : parse_signed (- Z.abs z) (Z.abs z) (lit "1_000") = Some z) by (apply DatatypeProof.parse_signed_lit; split; [exact H | lia]).
  vm_compute in E. discriminate E.
Qed.
(** C22: "0" is accepted as a positiveInteger *)
Theorem C22_positive_refuted : forall O C, exists d, compiles O C "positiveInteger" [] d /\ fits O d (lit "0").
Proof. intros O C. exists (DXsd (XPositiveInteger no_bounds None)). split; reflexivity. Qed.
(** C22: white space around a number is not removed, although the types of XML Schema collapse it *)
Theorem C22_white_space_refuted : forall O C, exists d, compiles O C "int" [] d /\ fits O d (lit "5") /\ ~ fits O d (lit " 5 ").
Proof. intros O C. exists (DXsd (XInt no_bounds None)). repeat split. intros H; discriminate H. Qed.
(** C23: a tab between two characters of a normalizedString counts together with the space after it as one character *)
Theorem C23_normalized_refuted : forall O C, exists d, compiles O C "normalizedString" [(lit "length", lit "4")] d /\ ~ fits O d (lit "a  b") /\ List.length (lit "a  b") = 4%nat.
Proof. intros O C. exists (DXsd (XNormalizedString (LLength 4) None)). repeat split. intros H; discriminate H. Qed.
(** C23: for the types NMTOKEN, NMTOKENS and token the schema compiles, validation panics *)
Theorem C23_token_refuted : forall O C name, In name ["NMTOKENS"; "NMTOKEN"; "token"]%string ->
  exists d, compiles O C name [] d /\ forall s, dt_valid O d s = Panic PUnimplemented.
Proof. intros O C name [<-|[<-|[<-|[]]]]; eexists; (split; [reflexivity | reflexivity]). Qed.
(** C24: the bounds of a double are forgotten *)
Theorem C24_double_refuted : forall O C five, co_f64 C (lit "5") = Some five -> o_f64 O (lit "1") = true ->
  exists d, compiles O C "double" [(lit "minInclusive", lit "5")] d /\ fits O d (lit "1").
Proof.
  intros O C five E1 E2. exists (DXsd (XDouble None)). split.
  - assert (Ep : p_f64 C (lit "5") = Ok (inl five)) by (unfold p_f64; rewrite E1; reflexivity).
    unfold compiles, datatype_name. replace (str_eqb xsd_uri []) with false by reflexivity. rewrite str_eqb_refl. cbn [xsd_name].
    unfold xsd_compile. replace (find_entry (lit "double") (facet_table O C)) with (Some (double_type C)) by reflexivity.
    unfold double_type. cbn [bound_facets]. unfold bound_param. replace (is_name (lit "minInclusive") "minInclusive") with true by reflexivity. rewrite Ep. reflexivity.
  - unfold fits. cbn [dt_valid xsd_valid]. rewrite E2. reflexivity.
Qed.
(** C24: contradictory bounds are refused or accepted depending on their order *)
Theorem C24_order_refuted : forall O C, exists a b d, (datatype_name O C (DnCName xsd_uri (lit "int")) [a; b] = Ok (inr (DFacet FConflict))) /\
  compiles O C "int" [b; a] d /\ forall s, ~ fits O d s.
Proof.
  intros O C. exists (lit "maxExclusive", lit "5"), (lit "minInclusive", lit "5"), (DXsd (XInt (MinMax (BIncl 5%Z) (BExcl 5%Z)) None)).
  split; [reflexivity|]. split; [reflexivity|]. intros s H. unfold fits in H. cbn [dt_valid xsd_valid int_ok] in H.
  destruct (parse_signed _ _ s) as [z|]; [|discriminate H]. assert (H' : (minmax_valid Z.leb Z.ltb (MinMax (BIncl 5%Z) (BExcl 5%Z)) z && true)%bool = true) by (injection H as H; exact H).
  apply andb_prop in H' as [H' _]. unfold minmax_valid in H'; cbn [mm_min mm_max min_valid max_valid] in H'. apply andb_prop in H' as [H1 H2]. apply Z.leb_le in H1. apply Z.ltb_lt in H2. lia.
Qed.
(** C25: panics while compiling *)
Theorem C25_refuted : forall O C,
  datatype_name O C (DnCName xsd_uri (lit "string")) [(lit "maxLength", lit "3"); (lit "minLength", lit "2")] = Panic PUnimplemented /\
  datatype_name O C (DnCName xsd_uri (lit "int")) [(lit "minInclusive", lit "1"); (lit "minInclusive", lit "2")] = Panic PUnreachable /\
  datatype_value (DnCName xsd_uri (lit "int")) (lit "1") = Panic PUnimplemented /\
  datatype_value (DnCName xsd_uri (lit "QName")) (lit "a:b") = Panic PUnimplemented.
Proof. intros O C. repeat split. Qed.
(** C26: a time zone must come after a 'Z' *)
Theorem C26_datetime_differs : forall O C, (forall c, o_unicode_digit O c = true <-> digit c) -> exists d, compiles O C "dateTime" [] d /\
  ~ fits O d (lit "2020-01-31T12:00:00+01:00") /\ fits O d (lit "2020-01-31T12:00:00Z+01:00").
Proof.
  intros O C HO. exists (DXsd (XDatetime None)). split; [reflexivity|].
  assert (HD : forall c, o_unicode_digit O c = adigit c).
  { intros c. destruct (o_unicode_digit O c) eqn:E.
    - apply HO in E. unfold digit in E. unfold adigit, range. symmetry. apply andb_true_intro; split; apply N.leb_le; lia.
    - destruct (adigit c) eqn:E'; [|reflexivity]. unfold adigit, range in E'. apply andb_prop in E' as [H1 H2]. apply N.leb_le in H1, H2.
      assert (o_unicode_digit O c = true) by (apply HO; unfold digit; lia). congruence. }
  unfold fits. cbn [dt_valid xsd_valid patt_ok]. 
  assert (HR : forall s, rmatch (datetime_re (o_unicode_digit O)) s = rmatch (datetime_re adigit) s).
  { intros s. apply eq_true_iff_eq. rewrite !DatatypeProof2.datetime_spec. unfold DateTime, digits_of.
    split; intros (sign & y & mo & da & h & mi & se & z & -> & Hs & Hy & Hmo & Hda & Hh & Hmi & Hse & Hz);
    exists sign, y, mo, da, h, mi, se, z; (split; [reflexivity|]); (split; [exact Hs|]);
    assert (G : forall l, Forall (fun c => o_unicode_digit O c = true) l <-> Forall (fun c => adigit c = true) l) by (intros l; apply DatatypeProof2.Forall_iff; intros c; rewrite HD; reflexivity);
    rewrite ?G in *; repeat (split; [assumption|]);
    (destruct Hz as [Hz|[Hz|(sg & oh & om & A & B & D & E)]]; [auto | auto | right; right; exists sg, oh, om; rewrite ?G in *; auto]). }
  rewrite !HR. split; [intros H; vm_compute in H; discriminate H | vm_compute; reflexivity].
Qed.
(** C40: everything that starts with a 'P' is a duration, and a negative duration is not *)
Theorem C40_refuted : forall O C, exists d, compiles O C "duration" [] d /\ (forall s, fits O d (80 :: s)) /\ fits O d (lit "Pineapple").
Proof.
  intros O C. exists (DXsd (XDuration None)). pose proof (main_duration O C _ (eq_refl : compiles O C "duration" [] (DXsd (XDuration None)))) as H.
  split; [reflexivity|]. split; [exact H | exact (H (lit "ineapple"))].
Qed.
(** C39: only the last of several pattern parameters counts *)
Theorem C39_refuted : forall O C, co_regex_ok C (lit "a") = true -> co_regex_ok C (lit "b") = true ->
  o_regex O (lit "a") (lit "b") = false -> o_regex O (lit "b") (lit "b") = true ->
  exists d, compiles O C "string" [(lit "pattern", lit "a"); (lit "pattern", lit "b")] d /\ fits O d (lit "b").
Proof.
  intros O C H1 H2 H3 H4. exists (DXsd (XString LUnbounded (Some (lit "b")))). split.
  - unfold compiles, datatype_name. replace (str_eqb xsd_uri []) with false by reflexivity. rewrite str_eqb_refl. cbn [xsd_name].
    unfold xsd_compile. cbn [facet_table find_entry]. replace (is_name (lit "string") "normalizedString") with false by reflexivity. replace (is_name (lit "string") "string") with true by reflexivity.
    unfold str_type. cbn [string_facets]. unfold length_param. cbn [is_name]. 
    replace (is_name (lit "pattern") "length") with false by reflexivity. replace (is_name (lit "pattern") "minLength") with false by reflexivity.
    replace (is_name (lit "pattern") "maxLength") with false by reflexivity. replace (is_name (lit "pattern") "pattern") with true by reflexivity.
    unfold c_pattern. rewrite H1, H2. reflexivity.
  - unfold fits. cbn [dt_valid xsd_valid length_valid patt_ok]. rewrite H4. reflexivity.
Qed.
Print Assumptions C20_refuted.
Print Assumptions C22_underscore_refuted.
Print Assumptions C22_positive_refuted.
Print Assumptions C22_white_space_refuted.
Print Assumptions C23_normalized_refuted.
Print Assumptions C23_token_refuted.
Print Assumptions C24_double_refuted.
Print Assumptions C24_order_refuted.
Print Assumptions C25_refuted.
Print Assumptions C26_datetime_differs.
Print Assumptions C40_refuted.
Print Assumptions C39_refuted.
