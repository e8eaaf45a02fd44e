(** * PropsDatatype2: exact theorems about white space, values, identifiers and panics (C20, C21, C23, C24, C76-C79). *)
From Coq Require Import QArith Qcanon String.
From Verif Require Import Base Regex Datatype Facets Spec Runs DatatypeSpec DatatypeMain DatatypeMore.
Local Open Scope N_scope.

(** ** C20, exactly: the words are the maximal runs without ASCII white space (tab, line feed, form feed, carriage return, space) *)
Theorem C20_exact : forall s ws, Runs is_ascii_ws s ws -> normalize_whitespace s = spaced ws.
Proof. exact (fun s ws H => proj1 (norm_runs s ws H)). Qed.
Theorem C20_words_exist : forall s, exists ws, Runs is_ascii_ws s ws /\ normalize_whitespace s = spaced ws.
Proof. exact collapse_exact. Qed.
Example C20_exact_instance : normalize_whitespace [32; 97; 12; 98] = [97; 32; 98].
Proof.
  apply (C20_exact _ [[97]; [98]]). apply (Rn_cons is_ascii_ws [32] [97] 12 [98] [[98]]); try (repeat constructor; fail); [discriminate|].
  apply (Rn_last is_ascii_ws [] [98]); try (repeat constructor; fail). discriminate.
Qed.
(** ** C21, exactly: a token value matches the strings with the same words *)
Theorem C21_token_exact : forall n v s wv ws, token_name n -> Runs is_ascii_ws v wv -> Runs is_ascii_ws s ws ->
  exists x, datatype_value n v = Ok (inl x) /\ (dt_value_valid x s = Ok true <-> wv = ws).
Proof. exact token_exact. Qed.
Example C21_token_exact_instance : exists x, datatype_value DnToken [97; 12] = Ok (inl x) /\ dt_value_valid x [97] = Ok true.
Proof.
  destruct (C21_token_exact DnToken [97; 12] [97] [[97]] [[97]]) as (x & E & H).
  - left; reflexivity.
  - apply (Rn_cons is_ascii_ws [] [97] 12 [] []); try (repeat constructor; fail). discriminate.
  - apply (Rn_last is_ascii_ws [] [97]); try (repeat constructor; fail). discriminate.
  - exists x. split; [exact E | apply H; reflexivity].
Qed.
(** ** C23, exactly: the facets of a normalizedString see the words separated by single spaces *)
Theorem C23_normalized_exact : forall O C ps d, compiles O C "normalizedString" ps d -> exists q, Last_pattern ps q /\
  forall s ws, Runs is_ascii_ws s ws -> (fits O d s <-> lengths_satisfied ps (spaced ws) /\ pattern_holds O q (spaced ws)).
Proof. exact normalized_exact. Qed.
Example C23_normalized_exact_instance O C : exists d, compiles O C "normalizedString" [(lit "length", lit "3")] d.
Proof. eexists. reflexivity. Qed.

(** ** C24: the digits parameters of decimal change nothing *)
Theorem C24_digits_refuted : forall O C, exists d, compiles O C "decimal" [(lit "totalDigits", lit "2"); (lit "fractionDigits", lit "0")] d /\
  forall s x, o_decimal O s = Some x -> fits O d s.
Proof.
  intros O C. eexists. split; [reflexivity|]. intros s x E. unfold fits. cbn [dt_valid xsd_valid dec_ok]. rewrite E. reflexivity.
Qed.

(** ** C76: a value pattern of the XML Schema library panics while the schema compiles exactly for types other
    than string, token and QName, and for QNames with a prefix *)
Theorem C76_value_panics : forall name v, (exists p, datatype_value (DnCName xsd_uri name) v = Panic p) <-> ~ In name value_names \/ name = lit "QName" /\ Prefixed v.
Proof. exact value_panics. Qed.
Theorem C76_refuted : exists p q, datatype_value (DnCName xsd_uri (lit "int")) (lit "5") = Panic p /\ datatype_value (DnCName xsd_uri (lit "QName")) (lit "a:b") = Panic q.
Proof. exists PUnimplemented, PUnimplemented. split; reflexivity. Qed.

(** ** C77: validating a string against a compiled type of the XML Schema library panics exactly for NMTOKENS,
    NMTOKEN and token; for the other types there is always a verdict *)
Theorem C77_data_panics : forall O C name ps d, datatype_name O C (DnCName xsd_uri name) ps = Ok (inl d) ->
  (In name stuck_names <-> exists s p, dt_valid O d s = Panic p) /\ (~ In name stuck_names -> forall s, exists b, dt_valid O d s = Ok b).
Proof. exact data_panics. Qed.
Example C77_instance O C : exists d, datatype_name O C (DnCName xsd_uri (lit "short")) [] = Ok (inl d) /\ (forall s, exists b, dt_valid O d s = Ok b) /\
  exists e, datatype_name O C (DnCName xsd_uri (lit "NMTOKEN")) [] = Ok (inl e) /\ exists s p, dt_valid O e s = Panic p.
Proof.
  exists (DXsd (XShort no_bounds None)). split; [reflexivity|]. split.
  - apply (proj2 (C77_data_panics O C (lit "short") [] (DXsd (XShort no_bounds None)) eq_refl)). intros H. cbn in H. intuition discriminate.
  - exists (DXsd (XNmToken LUnbounded)). split; [reflexivity|]. apply (proj1 (C77_data_panics O C (lit "NMTOKEN") [] (DXsd (XNmToken LUnbounded)) eq_refl)). cbn. tauto.
Qed.
(** the built-in types string and token admit every string *)
Theorem C77_builtin : forall O n ps d, (n = DnString \/ n = DnToken \/ exists l, n = DnCName [] l) -> forall C, datatype_name O C n ps = Ok (inl d) -> forall s, dt_valid O d s = Ok true.
Proof. exact builtin_total. Qed.
Example C77_builtin_instance O C : forall s, exists d, datatype_name O C (DnCName [] (lit "token")) [] = Ok (inl d) /\ dt_valid O d s = Ok true.
Proof. intros s. exists DToken. split; [reflexivity|]. apply (C77_builtin O (DnCName [] (lit "token")) [] DToken (or_intror (or_intror (ex_intro _ _ eq_refl))) C eq_refl). Qed.

(** ** C78: ID and IDREF admit every string the pattern admits; date and anyURI are what the engines read *)
Theorem C78_id_exact : forall O C name ps d, id_like name -> compiles O C name ps d -> exists q, Last_pattern ps q /\ forall s, fits O d s <-> pattern_holds O q s.
Proof. exact id_exact. Qed.
Theorem C78_refuted : forall O C, exists d, compiles O C "ID" [] d /\ fits O d (lit "not a name") /\ ~ NCName (lit "not a name").
Proof.
  intros O C. exists (DXsd (XId None)). split; [reflexivity|]. split; [reflexivity|]. intros H. apply DatatypeProof2.ncname_spec in H. discriminate H.
Qed.
Theorem C78_date : forall O C ps d, compiles O C "date" ps d -> exists q, Last_pattern ps q /\ forall s, fits O d s <-> o_date O s = true /\ pattern_holds O q s.
Proof. exact date_exact. Qed.
Theorem C78_uri : forall O C ps d, compiles O C "anyURI" ps d -> exists q, Last_pattern ps q /\ forall s, fits O d s <-> o_uri O s = true /\ pattern_holds O q s.
Proof. exact uri_exact. Qed.
Example C78_instance O C : exists d e, compiles O C "date" [] d /\ compiles O C "anyURI" [] e.
Proof. exists (DXsd (XDate None)), (DXsd (XAnyURI None)). split; reflexivity. Qed.

(** ** C79: a QName value without prefix compiles, matches itself only, and a prefixed name in the document panics;
    a value that is no QName is refused *)
Theorem C79_qname : forall v, NCName v -> exists x, datatype_value (DnCName xsd_uri (lit "QName")) v = Ok (inl x) /\
  forall s, (dt_value_valid x s = Ok true <-> s = v) /\ ((exists p, dt_value_valid x s = Panic p) <-> Prefixed s).
Proof. exact qname_value. Qed.
Theorem C79_refused : forall v, ~ Prefixed v -> ~ NCName v -> datatype_value (DnCName xsd_uri (lit "QName")) v = Ok (inr DInvalidValue).
Proof. exact qname_refused. Qed.
Example C79_instance : exists x, datatype_value (DnCName xsd_uri (lit "QName")) (lit "a") = Ok (inl x) /\ dt_value_valid x (lit "a") = Ok true /\ exists p, dt_value_valid x (lit "b:a") = Panic p.
Proof.
  assert (Na : NCName (lit "a")) by (apply DatatypeProof2.ncname_spec; reflexivity).
  assert (Nb : NCName (lit "b")) by (apply DatatypeProof2.ncname_spec; reflexivity).
  destruct (C79_qname (lit "a") Na) as (x & E & H).
  exists x. split; [exact E|]. split; [apply H; reflexivity|]. apply H. exists (lit "b"), (lit "a"). split; [reflexivity|]. split; assumption.
Qed.
Example C79_refused_instance : datatype_value (DnCName xsd_uri (lit "QName")) (lit "1") = Ok (inr DInvalidValue).
Proof.
  apply C79_refused.
  - intros (p & l & E & Hp & Hl). destruct p as [|c p]; [discriminate E|]. destruct p; discriminate E.
  - intros H. apply DatatypeProof2.ncname_spec in H. discriminate H.
Qed.

Print Assumptions C20_exact.
Print Assumptions C20_words_exist.
Print Assumptions C21_token_exact.
Print Assumptions C23_normalized_exact.
Print Assumptions C24_digits_refuted.
Print Assumptions C76_value_panics.
Print Assumptions C76_refuted.
Print Assumptions C77_data_panics.
Print Assumptions C77_builtin.
Print Assumptions C78_id_exact.
Print Assumptions C78_refuted.
Print Assumptions C78_date.
Print Assumptions C78_uri.
Print Assumptions C79_qname.
Print Assumptions C79_refused.
