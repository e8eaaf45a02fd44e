(** * DatatypeMore: exact statements about white space, values, identifiers and panics of the datatypes. *)
From Coq Require Import QArith Qcanon String.
From Verif Require Import Base Regex Datatype Facets Spec Words Runs DatatypeSpec DatatypeProof DatatypeProof2 DatatypeMain.
Local Open Scope N_scope.

(** ** White space *)
Lemma norm_runs s ws : Runs is_ascii_ws s ws -> normalize_whitespace s = spaced ws /\ (ws = [] <-> skip_ws s = []).
Proof.
  induction 1 as [s H|b w Hb Hw Hn|b w c r ws Hb Hw Hn Hc Hr [E1 E2]].
  - unfold normalize_whitespace. rewrite <- (app_nil_r s), skip_blank by exact H. cbn. tauto.
  - assert (Es : skip_ws (b ++ w) = w).
    { rewrite skip_blank by exact Hb. rewrite <- (app_nil_r w) at 1. rewrite skip_word by assumption. apply app_nil_r. }
    unfold normalize_whitespace. rewrite Es. split; [rewrite <- (app_nil_r w) at 1; rewrite loop_word by exact Hn; apply app_nil_r|]. split; [discriminate | intros ->; contradiction].
  - unfold normalize_whitespace. rewrite skip_blank by exact Hb. rewrite skip_word by assumption. rewrite loop_word by exact Hn.
    split; [|split; [discriminate|]; intros E; destruct w; [contradiction | discriminate E]].
    cbn [norm_loop]. rewrite Hc, loop_true. unfold normalize_whitespace in E1.
    destruct ws as [|w' ws]; [rewrite (proj1 E2 eq_refl); cbn; apply app_nil_r|].
    destruct (skip_ws r) as [|y t]; [discriminate (proj2 E2 eq_refl)|].
    rewrite E1. cbn. reflexivity.
Qed.
Lemma collapse_exact s : exists ws, Runs is_ascii_ws s ws /\ normalize_whitespace s = spaced ws.
Proof. destruct (Runs_ex is_ascii_ws s) as [ws H]. exists ws. split; [exact H | exact (proj1 (norm_runs s ws H))]. Qed.
Lemma ascii_solid c : is_ascii_ws c = false -> is_xml_ws c = false.
Proof. unfold is_xml_ws, is_ascii_ws. rewrite !orb_false_iff. tauto. Qed.
Lemma Runs_solid s ws : Runs is_ascii_ws s ws -> Forall solid ws.
Proof.
  assert (G : forall w, w <> [] -> Forall (fun c => is_ascii_ws c = false) w -> solid w).
  { intros w Hw H. split; [exact Hw|]. eapply Forall_impl; [|exact H]. intros c; apply ascii_solid. }
  induction 1 as [|b w Hb Hw Hn|b w c r ws Hb Hw Hn Hc Hr IH]; [constructor | constructor; [apply G; assumption | constructor] | constructor; [apply G; assumption | exact IH]].
Qed.
Lemma norm_same v s wv ws : Runs is_ascii_ws v wv -> Runs is_ascii_ws s ws ->
  (str_eqb (normalize_whitespace v) (normalize_whitespace s) = true <-> wv = ws).
Proof.
  intros Wv Ws. rewrite str_eqb_eq, (proj1 (norm_runs v wv Wv)), (proj1 (norm_runs s ws Ws)).
  split; [apply spaced_inj; eapply Runs_solid; eassumption | intros ->; reflexivity].
Qed.
Lemma token_exact n v s wv ws : token_name n -> Runs is_ascii_ws v wv -> Runs is_ascii_ws s ws ->
  exists x, datatype_value n v = Ok (inl x) /\ (dt_value_valid x s = Ok true <-> wv = ws).
Proof.
  intros Hn Wv Ws. pose proof (norm_same v s wv ws Wv Ws) as H.
  destruct Hn as [->|[->| ->]].
  - eexists; split; [reflexivity|]. rewrite <- H. cbn. split; congruence.
  - eexists; split; [reflexivity|]. rewrite <- H. cbn. split; congruence.
  - eexists; split; [reflexivity|]. rewrite <- H. cbn [dt_value_valid xsd_value_valid]. split; congruence.
Qed.
Lemma normalized_exact O C ps d : compiles O C "normalizedString" ps d -> exists q, Last_pattern ps q /\
  forall s ws, Runs is_ascii_ws s ws -> (fits O d s <-> lengths_satisfied ps (spaced ws) /\ pattern_holds O q (spaced ws)).
Proof.
  intros H. apply compiles_xsd in H as (t & -> & H). destruct (normalized_ok O C ps t H) as (q & HL & Hq). exists q. split; [exact HL|].
  intros s ws W. rewrite fits_xsd, Hq, (proj1 (norm_runs s ws W)). reflexivity.
Qed.

(** ** Identifiers, dates, URIs, doubles: what is passed on to the engines *)
Lemma simple_ok O C name mk ps d : find_entry (lit name) (facet_table O C) = Some (pat_type C mk) -> compiles O C name ps d ->
  exists q, d = DXsd (mk q) /\ Last_pattern ps q.
Proof.
  intros E H. apply compiles_xsd in H as (t & -> & H). unfold xsd_compile in H. rewrite E in H. apply fmap_ok in H.
  destruct (pat_ok_gen C mk ps t H) as (q & -> & HL). exists q; auto.
Qed.
Lemma patt_iff O q s : patt_ok O q s = true <-> pattern_holds O q s.
Proof. destruct q; cbn; [reflexivity | tauto]. Qed.
Definition id_like (name : string) : Prop := name = "ID"%string \/ name = "IDREF"%string.
Lemma id_exact O C name ps d : id_like name -> compiles O C name ps d -> exists q, Last_pattern ps q /\ forall s, fits O d s <-> pattern_holds O q s.
Proof.
  intros [->| ->] H.
  - destruct (simple_ok O C "ID" XId ps d eq_refl H) as (q & -> & HL). exists q. split; [exact HL|]. intros s. rewrite fits_xsd, <- patt_iff. cbn. split; congruence.
  - destruct (simple_ok O C "IDREF" XIdRef ps d eq_refl H) as (q & -> & HL). exists q. split; [exact HL|]. intros s. rewrite fits_xsd, <- patt_iff. cbn. split; congruence.
Qed.
Lemma and_iff (a b : bool) (A B : Prop) : (a = true <-> A) -> (b = true <-> B) -> (@Ok bool (a && b) = Ok true <-> A /\ B).
Proof. intros HA HB. rewrite <- HA, <- HB, <- andb_true_iff. split; congruence. Qed.
Lemma date_exact O C ps d : compiles O C "date" ps d -> exists q, Last_pattern ps q /\ forall s, fits O d s <-> o_date O s = true /\ pattern_holds O q s.
Proof.
  intros H. destruct (simple_ok O C "date" XDate ps d eq_refl H) as (q & -> & HL). exists q. split; [exact HL|]. intros s. rewrite fits_xsd. cbn [xsd_valid].
  apply and_iff; [reflexivity | apply patt_iff].
Qed.
Lemma uri_exact O C ps d : compiles O C "anyURI" ps d -> exists q, Last_pattern ps q /\ forall s, fits O d s <-> o_uri O s = true /\ pattern_holds O q s.
Proof.
  intros H. destruct (simple_ok O C "anyURI" XAnyURI ps d eq_refl H) as (q & -> & HL). exists q. split; [exact HL|]. intros s. rewrite fits_xsd. cbn [xsd_valid].
  apply and_iff; [reflexivity | apply patt_iff].
Qed.

(** ** Panics of validation *)
Definition stuck_names : list str := [lit "NMTOKENS"; lit "NMTOKEN"; lit "token"].
Definition stuck_type (t : xsd_type) : Prop := match t with XNmTokens _ | XNmToken _ | XToken _ => True | _ => False end.
Lemma valid_panics O t s : (exists p, xsd_valid O t s = Panic p) <-> stuck_type t.
Proof.
  destruct t; cbn [xsd_valid stuck_type]; (split; [intros [pp H]; first [discriminate H | exact I] | intros H; first [destruct H; fail | eexists; reflexivity]]).
Qed.
Lemma valid_ok O t s : ~ stuck_type t -> exists b, xsd_valid O t s = Ok b.
Proof. destruct t; cbn; intros H; try (exfalso; apply H; exact I); eexists; reflexivity. Qed.

(** the constructor of the type named [name] *)
Lemma table_stuck O C name f : find_entry name (facet_table O C) = Some f ->
  (In name stuck_names -> forall ps t, f ps = Ok (inl t) -> stuck_type t) /\
  (~ In name stuck_names -> forall ps t, f ps = Ok (inl t) -> ~ stuck_type t).
Proof.
  assert (Pat : forall mk ps t, pat_type C mk ps = Ok (inl t) -> exists q, t = mk q) by (intros mk ps t H; destruct (pat_ok_gen C mk ps t H) as (q & -> & _); eauto).
  assert (Len : forall mk ps t, len_type mk ps = Ok (inl t) -> exists q, t = mk q).
  { intros mk ps t H. unfold len_type in H. apply fbind_ok in H as (x & _ & H). injection H as <-. eauto. }
  assert (Str : forall mk ps t, str_type C mk ps = Ok (inl t) -> exists l q, t = mk l q).
  { intros mk ps t H. unfold str_type in H. apply fbind_ok in H as ([x y] & _ & H). injection H as <-. eauto. }
  assert (Int : forall pz mk ps t, int_type C pz mk ps = Ok (inl t) -> exists l q, t = mk l q).
  { intros pz mk ps t H. unfold int_type in H. apply fbind_ok in H as ([x y] & _ & H). injection H as <-. eauto. }
  assert (Dec : forall m p fd td ps t, decimal_facets O C m p fd td ps = Ok (inl t) -> exists a b c d, t = XDecimal a b c d).
  { intros m p fd td ps t H. destruct (decimal_facets_ok O C ps m p fd td t H) as (a & b & c & d & -> & _). eauto. }
  assert (Dbl : forall ps t, double_type C ps = Ok (inl t) -> exists q, t = XDouble q).
  { intros ps t H. unfold double_type in H. apply fbind_ok in H as ([x y] & _ & H). injection H as <-. eauto. }
  unfold facet_table. cbn [find_entry]. unfold is_name, stuck_names.
  repeat lazymatch goal with
  | |- context [if str_eqb name ?k then _ else _] => destruct (str_eqb name k) eqn:?;
      [match goal with H : str_eqb name _ = true |- _ => apply str_eqb_eq in H; subst name end; intros E; injection E as <-; split; intros Hs ps t Ht|]
  end; try (intros E; discriminate E);
  try (exfalso; clear - Hs; cbn in Hs; intuition discriminate);
  try (exfalso; apply Hs; cbn; tauto);
  try (apply Pat in Ht as [q ->]); try (apply Len in Ht as [q ->]); try (apply Str in Ht as (l & q & ->)); try (apply Int in Ht as (l & q & ->));
  try (apply Dec in Ht as (a & b & c & e & ->)); try (apply Dbl in Ht as (q & ->)); try exact I; intros [].
Qed.
Lemma data_panics O C name ps d : datatype_name O C (DnCName xsd_uri name) ps = Ok (inl d) ->
  (In name stuck_names <-> exists s p, dt_valid O d s = Panic p) /\ (~ In name stuck_names -> forall s, exists b, dt_valid O d s = Ok b).
Proof.
  unfold datatype_name. replace (str_eqb xsd_uri []) with false by reflexivity. rewrite str_eqb_refl. cbn [xsd_name].
  intros E. apply fbind_ok in E as (t & E1 & E2). injection E2 as <-. unfold xsd_compile in E1.
  destruct (find_entry name (facet_table O C)) as [f|] eqn:Ef; [|discriminate E1]. apply fmap_ok in E1.
  destruct (table_stuck O C name f Ef) as [H1 H2]. cbn [dt_valid].
  assert (D : {In name stuck_names} + {~ In name stuck_names}) by (apply in_dec, str_eq_dec).
  split; [split|].
  - intros H. destruct (proj2 (valid_panics O t []) (H1 H ps t E1)) as [p Hp]. exists [], p; exact Hp.
  - intros (s & p & Hp). destruct D as [D|D]; [exact D|]. destruct (H2 D ps t E1). apply (valid_panics O t s). eauto.
  - intros H s. apply valid_ok, (H2 H ps t E1).
Qed.
Lemma builtin_total O n ps d : (n = DnString \/ n = DnToken \/ exists l, n = DnCName [] l) -> forall C, datatype_name O C n ps = Ok (inl d) -> forall s, dt_valid O d s = Ok true.
Proof.
  assert (G : forall n, relax_name n ps = Ok (inl d) -> forall s, dt_valid O d s = Ok true).
  { intros m. unfold relax_name. destruct ps as [|[k v] ps']; [|discriminate].
    destruct m as [| |u l|u l]; [intros E; injection E as <-; reflexivity.. | |discriminate].
    destruct (is_name l "string"); [intros E; injection E as <-; reflexivity|]. destruct (is_name l "token"); [intros E; injection E as <-; reflexivity | discriminate]. }
  intros [->|[->|[l ->]]] C; exact (G _).
Qed.

(** ** Values *)
Definition value_names : list str := [lit "string"; lit "token"; lit "QName"].
(** a prefix, a colon and a local name *)
Definition Prefixed (v : str) : Prop := exists p l, v = p ++ 58 :: l /\ NCName p /\ NCName l.
Lemma nc_no_colon p : NCName p -> ~ In 58 p.
Proof.
  intros (c & r & -> & Hc & Hr) [E|E].
  - subst c. unfold NameStart in Hc. lia.
  - rewrite Forall_forall in Hr. specialize (Hr _ E). unfold NameChar, NameStart in Hr. lia.
Qed.
Lemma take_while_until s : forall a b, take_while (fun c => negb (c =? 58)) s = (a, b) ->
  s = a ++ b /\ ~ In 58 a /\ (b = [] \/ exists b', b = 58 :: b').
Proof.
  induction s as [|c s IH]; cbn; intros a b E; [injection E as <- <-; auto|].
  destruct (c =? 58) eqn:Ec; cbn in E.
  - injection E as <- <-. apply N.eqb_eq in Ec; subst c. split; [reflexivity|]. split; [intros []|]. right; eauto.
  - destruct (take_while _ s) as [x y]. injection E as <- <-. destruct (IH x y eq_refl) as (-> & H1 & H2). split; [reflexivity|]. split; [|exact H2].
    intros [->|H]; [discriminate Ec | exact (H1 H)].
Qed.
Lemma split_colon (a : str) : forall b a' b', ~ In 58 a -> ~ In 58 a' -> a ++ 58 :: b = a' ++ 58 :: b' -> a = a' /\ b = b'.
Proof.
  induction a as [|x a IH]; intros b [|y a'] b' H H' E; cbn in E.
  - injection E as ->; auto.
  - injection E as E _. exfalso; apply H'; left; congruence.
  - injection E as E _. exfalso; apply H; left; congruence.
  - injection E as -> E. destruct (IH b a' b') as [-> ->]; auto; intros G; [apply H | apply H']; right; exact G.
Qed.
Lemma qname_cases v :
  (Prefixed v /\ qname_try v = Panic PUnimplemented) \/ (NCName v /\ qname_try v = Ok (Some v)) \/
  (~ Prefixed v /\ ~ NCName v /\ qname_try v = Ok None).
Proof.
  unfold qname_try, find_colon. destruct (take_while _ v) as [a b] eqn:E. apply take_while_until in E as (-> & Ha & [->|[b' ->]]).
  - rewrite app_nil_r. pose proof (ncname_spec a) as Hs. destruct (is_valid_ncname a); [right; left; split; [apply Hs; reflexivity | reflexivity]|].
    right; right. split; [|split; [intros H; apply Hs in H; discriminate H | reflexivity]].
    intros (p & l & -> & _ & _). apply Ha, in_or_app; right; left; reflexivity.
  - pose proof (ncname_spec a) as Hs. pose proof (ncname_spec b') as Hs'.
    assert (Hn : ~ NCName (a ++ 58 :: b')) by (intros H; apply nc_no_colon in H; apply H, in_or_app; right; left; reflexivity).
    destruct (is_valid_ncname a) eqn:Ea; cbn [andb]; [destruct (is_valid_ncname b') eqn:Eb|].
    + left. split; [|reflexivity]. exists a, b'. split; [reflexivity|]. split; [apply Hs | apply Hs']; reflexivity.
    + right; right. split; [|split; [exact Hn | reflexivity]]. intros (p & l & E & Hp & Hl).
      apply split_colon in E as [-> ->]; [|exact Ha | apply nc_no_colon; exact Hp]. apply Hs' in Hl; discriminate Hl.
    + right; right. split; [|split; [exact Hn | reflexivity]]. intros (p & l & E & Hp & Hl).
      apply split_colon in E as [-> ->]; [|exact Ha | apply nc_no_colon; exact Hp]. apply Hs in Hp; discriminate Hp.
Qed.
Lemma xsd_value_eq name v : datatype_value (DnCName xsd_uri name) v = fbind (xsd_compile_value name v) (fun x => fok (VXsd x)).
Proof. unfold datatype_value. replace (str_eqb xsd_uri []) with false by reflexivity. rewrite str_eqb_refl. reflexivity. Qed.
Lemma value_panics name v : (exists p, datatype_value (DnCName xsd_uri name) v = Panic p) <-> ~ In name value_names \/ name = lit "QName" /\ Prefixed v.
Proof.
  rewrite xsd_value_eq. unfold xsd_compile_value, is_name, value_names.
  destruct (str_eqb name (lit "string")) eqn:E1; [apply str_eqb_eq in E1; subst|].
  { cbn [fbind rbind fok]. split; [intros [p H]; discriminate H|]. intros [H|[H _]]; [exfalso; apply H; cbn; tauto | discriminate H]. }
  destruct (str_eqb name (lit "token")) eqn:E2; [apply str_eqb_eq in E2; subst|].
  { cbn [fbind rbind fok]. split; [intros [p H]; discriminate H|]. intros [H|[H _]]; [exfalso; apply H; cbn; tauto | discriminate H]. }
  destruct (str_eqb name (lit "QName")) eqn:E3; [apply str_eqb_eq in E3; subst|].
  - destruct (qname_cases v) as [[H ->]|[[H ->]|(H1 & H2 & ->)]]; cbn [fbind rbind fok].
    + split; [auto|]. intros _. exists PUnimplemented; reflexivity.
    + split; [intros [p G]; discriminate G|]. intros [G|[_ G]]; [exfalso; apply G; cbn; tauto|].
      destruct G as (p & l & -> & _ & _). destruct (nc_no_colon _ H). apply in_or_app; right; left; reflexivity.
    + split; [intros [p G]; discriminate G|]. intros [G|[_ G]]; [exfalso; apply G; cbn; tauto | contradiction].
  - split; [|intros _; exists PUnimplemented; reflexivity]. intros _. left. intros [<-|[<-|[<-|[]]]]; rewrite str_eqb_refl in *; discriminate.
Qed.
Lemma qname_value v : NCName v -> exists x, datatype_value (DnCName xsd_uri (lit "QName")) v = Ok (inl x) /\
  forall s, (dt_value_valid x s = Ok true <-> s = v) /\ ((exists p, dt_value_valid x s = Panic p) <-> Prefixed s).
Proof.
  intros Hv. exists (VXsd (XVQName v)). split.
  - rewrite xsd_value_eq. unfold xsd_compile_value, is_name. cbn [str_eqb].
    replace (str_eqb (lit "QName") (lit "string")) with false by reflexivity. replace (str_eqb (lit "QName") (lit "token")) with false by reflexivity. rewrite str_eqb_refl.
    destruct (qname_cases v) as [[H _]|[[_ ->]|(_ & H & _)]]; [|reflexivity | contradiction].
    destruct H as (p & l & -> & _ & _). destruct (nc_no_colon _ Hv). apply in_or_app; right; left; reflexivity.
  - intros s. cbn [dt_value_valid xsd_value_valid]. destruct (qname_cases s) as [[H ->]|[[H ->]|(H1 & H2 & ->)]]; cbn [rbind].
    + split; [|split; [auto | intros _; eauto]]. split; [discriminate|]. intros ->. destruct H as (p & l & -> & _ & _). destruct (nc_no_colon _ Hv). apply in_or_app; right; left; reflexivity.
    + split; [|split; [intros [p G]; discriminate G|]].
      * rewrite <- (str_eqb_eq s v). split; congruence.
      * intros (p & l & -> & _ & _). destruct (nc_no_colon _ H). apply in_or_app; right; left; reflexivity.
    + split; [|split; [intros [p G]; discriminate G | contradiction]]. split; [discriminate | intros ->; contradiction].
Qed.
Lemma qname_refused v : ~ Prefixed v -> ~ NCName v -> datatype_value (DnCName xsd_uri (lit "QName")) v = Ok (inr DInvalidValue).
Proof.
  intros H1 H2. rewrite xsd_value_eq. unfold xsd_compile_value, is_name.
  replace (str_eqb (lit "QName") (lit "string")) with false by reflexivity. replace (str_eqb (lit "QName") (lit "token")) with false by reflexivity. rewrite str_eqb_refl.
  destruct (qname_cases v) as [[H _]|[[H _]|(_ & _ & ->)]]; [contradiction | contradiction | reflexivity].
Qed.
(** [total]: every value pattern not of these kinds compiles, and validating never panics otherwise *)
Lemma value_total n v x : datatype_value n v = Ok (inl x) -> (forall s, exists b, dt_value_valid x s = Ok b) \/ exists q, x = VXsd (XVQName q).
Proof.
  intros _. destruct x as [y|y|[y|y|y]]; [left; intros s; eexists; reflexivity.. | right; eauto].
Qed.
