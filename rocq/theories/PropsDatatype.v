(** * PropsDatatype: the property theorems on datatypes (C20-C27, C39). *)
From Coq Require Import QArith Qcanon String.
From Verif Require Import Base Regex Datatype Facets Spec Words DatatypeSpec DatatypeMain.
Local Open Scope N_scope.

(** ** C20: white space is collapsed: the words of the string, separated by single spaces.
    Missing: strings with a form feed, which is not XML white space but is removed ([C20_refuted]). *)
Theorem C20_collapse_partial : forall s ws, ~ In 12 s -> Words s ws -> normalize_whitespace s = spaced ws.
Proof. exact main_collapse. Qed.
Example C20_instance : normalize_whitespace (lit "  a   bc  ") = lit "a bc".
Proof.
  apply (C20_collapse_partial _ [lit "a"; lit "bc"]); [cbn; intuition discriminate|].
  apply (Wd_cons (lit "  ") (lit "a") 32 (lit "  bc  ")); try (repeat constructor; fail); [discriminate|].
  apply (Wd_cons (lit "  ") (lit "bc") 32 (lit " ")); try (repeat constructor; fail). discriminate.
Qed.
Theorem C20_idempotent : forall s, normalize_whitespace (normalize_whitespace s) = normalize_whitespace s.
Proof. exact DatatypeProof2.normalize_idem. Qed.

(** ** C21: values.  A token value matches the strings with the same words; a string value matches only itself.
    Missing for token: form feeds. *)
Theorem C21_token_partial : forall n v s wv ws, token_name n -> ~ In 12 v -> ~ In 12 s -> Words v wv -> Words s ws ->
  exists x, datatype_value n v = Ok (inl x) /\ (dt_value_valid x s = Ok true <-> wv = ws).
Proof. exact main_token. Qed.
Example C21_token_instance : exists x, datatype_value (DnCName xsd_uri (lit "token")) (lit " a") = Ok (inl x) /\ dt_value_valid x (lit "a ") = Ok true.
Proof.
  destruct (C21_token_partial (DnCName xsd_uri (lit "token")) (lit " a") (lit "a ") [lit "a"] [lit "a"]) as (x & E & H).
  - right; right; reflexivity.
  - cbn; intuition discriminate.
  - cbn; intuition discriminate.
  - apply (Wd_last (lit " ") (lit "a")); try (repeat constructor; fail). discriminate.
  - apply (Wd_cons [] (lit "a") 32 []); try (repeat constructor; fail). discriminate.
  - exists x. split; [exact E | apply H; reflexivity].
Qed.
Theorem C21_string : forall n v s, string_name n -> exists x, datatype_value n v = Ok (inl x) /\ (dt_value_valid x s = Ok true <-> s = v).
Proof. exact main_string. Qed.
Example C21_string_instance : exists x, datatype_value (DnCName [] (lit "string")) (lit " a") = Ok (inl x) /\ (dt_value_valid x (lit "a") = Ok true <-> lit "a" = lit " a").
Proof. apply C21_string. right; left; reflexivity. Qed.

(** ** C22, C24: the integer types of fixed width: an optional sign and digits, a number in the type's
    range and within every bound of the parameters; and the last pattern matches. *)
Theorem C22_fixed_width : forall O C name reads lo hi ps d, int_kind name reads lo hi -> compiles O C name ps d ->
  exists q, Last_pattern ps q /\ forall s, fits O d s <-> int_verdict O reads lo hi ps q s.
Proof. exact main_int. Qed.
Example C22_instance O C : exists d q, compiles O C "unsignedShort" [(lit "minInclusive", lit "10"); (lit "maxExclusive", lit "+20")] d /\
  Last_pattern [(lit "minInclusive", lit "10"); (lit "maxExclusive", lit "+20")] q /\
  forall s, fits O d s <-> int_verdict O Unsigned_lit 0 65535 [(lit "minInclusive", lit "10"); (lit "maxExclusive", lit "+20")] q s.
Proof.
  assert (H : compiles O C "unsignedShort" [(lit "minInclusive", lit "10"); (lit "maxExclusive", lit "+20")] (DXsd (XUnsignedShort (MinMax (BIncl 10%Z) (BExcl 20%Z)) None))) by reflexivity.
  destruct (C22_fixed_width O C _ _ _ _ _ _ Ik_ushort H) as (q & Hq). exists (DXsd (XUnsignedShort (MinMax (BIncl 10%Z) (BExcl 20%Z)) None)), q. split; [exact H | exact Hq].
Qed.
(** integer, on strings and bounds without underscores (missing: those, which are accepted too, [C22_underscore_refuted]) *)
Theorem C22_integer_partial : forall O C ps d, compiles O C "integer" ps d -> (forall n v, In (n, v) ps -> ~ In 95 v) ->
  exists q, Last_pattern ps q /\ forall s, ~ In 95 s -> (fits O d s <-> bigint_verdict O Int_lit ps q s).
Proof. exact main_integer_plain. Qed.
Example C22_integer_instance O C : exists d q, compiles O C "integer" [(lit "minExclusive", lit "-5")] d /\ Last_pattern [(lit "minExclusive", lit "-5")] q /\
  forall s, ~ In 95 s -> (fits O d s <-> bigint_verdict O Int_lit [(lit "minExclusive", lit "-5")] q s).
Proof.
  assert (H : compiles O C "integer" [(lit "minExclusive", lit "-5")] (DXsd (XInteger (MinMax (BExcl (-5)%Z) BUnbounded) None))) by reflexivity.
  destruct (C22_integer_partial O C _ _ H) as (q & Hq).
  - intros n v [E|[]]. injection E as <- <-. cbn; intuition discriminate.
  - eexists _, q. split; [exact H | exact Hq].
Qed.
(** what the two unbounded types accept exactly: underscores between and after digits, and zero as a positiveInteger *)
Theorem C22_integer_exact : forall O C ps d, compiles O C "integer" ps d -> exists q, Last_pattern ps q /\ forall s, fits O d s <-> bigint_verdict O Int_u ps q s.
Proof. exact main_integer. Qed.
Theorem C22_positive_exact : forall O C ps d, compiles O C "positiveInteger" ps d -> exists q, Last_pattern ps q /\ forall s, fits O d s <-> bigint_verdict O Unsigned_u ps q s.
Proof. exact main_positive. Qed.

(** ** C23: length, minLength and maxLength count characters *)
Theorem C23_string : forall O C ps d, compiles O C "string" ps d -> exists q, Last_pattern ps q /\ forall s, fits O d s <-> lengths_satisfied ps s /\ pattern_holds O q s.
Proof. exact main_xstring. Qed.
Example C23_instance O C : exists d q, compiles O C "string" [(lit "minLength", lit "2"); (lit "maxLength", lit "3")] d /\
  Last_pattern [(lit "minLength", lit "2"); (lit "maxLength", lit "3")] q /\ forall s, fits O d s <-> lengths_satisfied [(lit "minLength", lit "2"); (lit "maxLength", lit "3")] s /\ pattern_holds O q s.
Proof.
  assert (H : compiles O C "string" [(lit "minLength", lit "2"); (lit "maxLength", lit "3")] (DXsd (XString (LMinMax 2 3) None))) by reflexivity.
  destruct (C23_string O C _ _ H) as (q & Hq). eexists _, q. split; [exact H | exact Hq].
Qed.
(** normalizedString: the facets see the collapsed string (XML Schema only replaces tabs and line ends by
    spaces, [C23_normalized_refuted]) *)
Theorem C23_normalized_partial : forall O C ps d, compiles O C "normalizedString" ps d -> exists q, Last_pattern ps q /\
  forall s ws, ~ In 12 s -> Words s ws -> (fits O d s <-> lengths_satisfied ps (spaced ws) /\ pattern_holds O q (spaced ws)).
Proof. exact main_normalized. Qed.

(** ** C24: bounds of decimal; the number is what the bigdecimal crate reads *)
Theorem C24_decimal : forall O C ps d, compiles O C "decimal" ps d -> exists q, Last_pattern ps q /\ forall s, fits O d s <->
    (exists x, o_decimal O s = Some x /\ bounds_satisfied (fun v k => o_decimal O v = Some k) Qcle Qclt ps x) /\ pattern_holds O q s.
Proof. exact main_decimal. Qed.

(** ** C25: compiling a datatype with parameters returns a type or an error.
    Missing: a length facet after maxLength or length, a bound given twice ([C25_refuted]). *)
Theorem C25_total_partial : forall O C name ps, len_order ps -> bounds_once ps -> exists r, datatype_name O C (DnCName xsd_uri name) ps = Ok r.
Proof. exact main_total. Qed.
Example C25_instance O C : exists r, datatype_name O C (DnCName xsd_uri (lit "string")) [(lit "minLength", lit "2"); (lit "maxLength", lit "x")] = Ok r.
Proof.
  apply C25_total_partial.
  - intros a n v b E Hn m w Hin. destruct a as [|p [|p' a]]; cbn in E; injection E; intros; subst.
    + destruct Hn as [Hn|Hn]; vm_compute in Hn; discriminate Hn.
    + destruct Hin.
    + destruct a; discriminate.
  - intros a n v b E Hn. destruct a as [|p [|p' a]]; cbn in E; injection E; intros; subst.
    + vm_compute in Hn. intuition discriminate.
    + intros [].
    + destruct a; discriminate.
Qed.

(** ** C26: boolean, language, dateTime *)
Theorem C26_boolean : forall O C ps d, compiles O C "boolean" ps d -> exists q, Last_pattern ps q /\
  forall s, fits O d s <-> (s = lit "true" \/ s = lit "false" \/ s = lit "1" \/ s = lit "0") /\ pattern_holds O q s.
Proof. exact main_boolean. Qed.
Theorem C26_language : forall O C ps d, compiles O C "language" ps d -> exists q, Last_pattern ps q /\ forall s, fits O d s <-> Language s /\ pattern_holds O q s.
Proof. exact main_language. Qed.
Example C26_language_instance O C : exists d, compiles O C "language" [] d /\ fits O d (lit "en-GB").
Proof.
  eexists. split; [reflexivity|]. destruct (C26_language O C [] _ eq_refl) as (q & Hq & H). apply H. split.
  - apply (La_more (lit "en") (lit "GB")).
    + apply La_one. split; [cbn; lia|]. repeat constructor; vm_compute; intuition discriminate.
    + split; [cbn; lia|]. repeat constructor; vm_compute; intuition discriminate.
  - inversion Hq as [? Hn E|a ? b]; subst; [exact I|]. destruct a; discriminate.
Qed.
(** dateTime; XML Schema's own lexical space differs ([C26_datetime_differs]) *)
Theorem C26_datetime : forall O C ps d, compiles O C "dateTime" ps d -> exists q, Last_pattern ps q /\
  forall s, fits O d s <-> DateTime (fun c => o_unicode_digit O c = true) s /\ pattern_holds O q s.
Proof. exact main_datetime. Qed.

(** ** C27: NCName *)
Theorem C27_ncname : forall O C ps d, compiles O C "NCName" ps d -> forall s, fits O d s <-> lengths_satisfied ps s /\ NCName s.
Proof. exact main_ncname. Qed.
Example C27_instance O C : exists d, compiles O C "NCName" [] d /\ fits O d (lit "a-1") /\ ~ fits O d (lit "1a").
Proof.
  eexists. split; [reflexivity|]. pose proof (C27_ncname O C [] _ eq_refl) as H. split.
  - apply H. split; [intros n v []|]. exists 97, (lit "-1"). split; [reflexivity|]. split; [unfold NameStart; lia|].
    change (lit "-1") with [45; 49]. apply Forall_cons; [unfold NameChar; lia|]. apply Forall_cons; [unfold NameChar, NameStart; lia | constructor].
  - intros F. apply H in F as [_ (c & r & E & Hs & _)]. injection E as <- _. unfold NameStart in Hs. lia.
Qed.

(** ** C39: the last pattern parameter constrains the value (of every type).  Missing: the earlier ones ([C39_refuted]). *)
Theorem C39_pattern_partial : forall O C name ps d v s, compiles O C name ps d -> Last_pattern ps (Some v) -> fits O d s -> o_regex O v (pattern_subject name s) = true.
Proof. exact main_pattern. Qed.
Example C39_instance O C : co_regex_ok C (lit "a+") = true -> exists d, compiles O C "int" [(lit "minInclusive", lit "3"); (lit "pattern", lit "a+")] d /\ (forall s, fits O d s -> o_regex O (lit "a+") s = true).
Proof.
  intros H. assert (Hc : compiles O C "int" [(lit "minInclusive", lit "3"); (lit "pattern", lit "a+")] (DXsd (XInt (MinMax (BIncl 3%Z) BUnbounded) (Some (lit "a+"))))).
  { unfold compiles, datatype_name. replace (str_eqb xsd_uri []) with false by reflexivity. rewrite str_eqb_refl. cbn [xsd_name]. unfold xsd_compile.
    replace (find_entry (lit "int") (facet_table O C)) with (Some (int_type C (parse_signed (-2147483648) 2147483647) XInt)) by reflexivity.
    unfold int_type. cbn [bound_facets]. replace (bound_param Z.ltb Z.leb (p_int (parse_signed (-2147483648) 2147483647)) no_bounds (lit "minInclusive") (lit "3")) with (Some (@fok facet_error _ (MinMax (BIncl 3%Z) BUnbounded))) by reflexivity.
    replace (bound_param Z.ltb Z.leb (p_int (parse_signed (-2147483648) 2147483647)) (MinMax (BIncl 3%Z) BUnbounded) (lit "pattern") (lit "a+")) with (@None (fres facet_error (minmax Z))) by reflexivity.
    cbn [fbind rbind fok]. replace (is_name (lit "pattern") "pattern") with true by reflexivity. unfold c_pattern. rewrite H. reflexivity. }
  eexists. split; [exact Hc|]. intros s. apply (C39_pattern_partial O C "int" _ _ (lit "a+") s Hc). apply (Lp_some [_] _ []). intros w [].
Qed.

(** ** C40: what duration accepts: a string that begins with a duration, or ends with the alternative form *)
Theorem C40_duration_partial : forall O C ps d, compiles O C "duration" ps d -> exists q, Last_pattern ps q /\ forall s,
  fits O d s <-> ((exists a b, s = a ++ b /\ rlang duration_body a) \/ (exists a b, s = a ++ b /\ rlang (duration_alt (o_unicode_digit O)) b)) /\ pattern_holds O q s.
Proof. exact main_duration_exact. Qed.

Print Assumptions C20_collapse_partial.
Print Assumptions C20_idempotent.
Print Assumptions C21_token_partial.
Print Assumptions C21_string.
Print Assumptions C22_fixed_width.
Print Assumptions C22_integer_partial.
Print Assumptions C22_integer_exact.
Print Assumptions C22_positive_exact.
Print Assumptions C23_string.
Print Assumptions C23_normalized_partial.
Print Assumptions C24_decimal.
Print Assumptions C25_total_partial.
Print Assumptions C26_boolean.
Print Assumptions C26_language.
Print Assumptions C26_datetime.
Print Assumptions C27_ncname.
Print Assumptions C39_pattern_partial.
Print Assumptions C40_duration_partial.
