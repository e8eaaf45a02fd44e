(** * DatatypeProof2: white space, NCName, regular expressions, decimal, totality of the facet compiler. *)
From Coq Require Import QArith Qcanon String.
From Verif Require Import Base Regex Datatype Facets Spec Words DatatypeSpec DatatypeProof.
Local Open Scope N_scope.

(** ** Numerals with underscores *)
Lemma u_digits_app acc s t : Datatype.digits_val acc (strip_underscores (s ++ t)) =
  match Datatype.digits_val acc (strip_underscores s) with Some n => Datatype.digits_val n (strip_underscores t) | None => None end.
Proof. unfold strip_underscores. rewrite filter_app. apply digits_app. Qed.
Definition body_u (s : str) : option N :=
  match s with [] => None | c :: _ => if c =? 95 then None else Datatype.digits_val 0 (strip_underscores s) end.
Lemma body_snoc s d : s <> [] -> body_u (s ++ [d]) =
  match body_u s with Some n => if d =? 95 then Some n else match Datatype.digit_val d with Some k => Some (10 * n + k) | None => None end | None => None end.
Proof.
  intros H. destruct s as [|c s]; [contradiction|]. unfold body_u; cbn [app]. destruct (c =? 95); [reflexivity|].
  change (c :: s ++ [d]) with ((c :: s) ++ [d]). rewrite u_digits_app. destruct (Datatype.digits_val 0 _); [|reflexivity].
  unfold strip_underscores; cbn [filter]. destruct (d =? 95); [reflexivity|]. cbn. destruct (Datatype.digit_val d); reflexivity.
Qed.
Lemma Digits_u_cons s n : Digits_u s n -> exists c r, s = c :: r /\ digit c.
Proof. induction 1 as [d Hd|ds n d Hds (c & r & -> & Hc) Hd|ds n Hds (c & r & -> & Hc)]; [eauto | cbn; eauto ..]. Qed.
Lemma body_Digits s n : body_u s = Some n <-> Digits_u s n.
Proof.
  split.
  - revert n. induction s as [|d s IH] using rev_ind; intros n; [discriminate|].
    destruct s as [|c s].
    + unfold body_u; cbn [app]. destruct (N.eqb_spec d 95) as [-> |Hn]; [discriminate|]. unfold strip_underscores; cbn [filter].
      destruct (N.eqb_spec d 95); [contradiction|]. cbn. destruct (Datatype.digit_val d) as [k|] eqn:Ed; [|discriminate].
      apply digit_val_Some in Ed as [Hd ->]. intros H. assert (n = d - 48) as -> by congruence. constructor; exact Hd.
    + rewrite body_snoc by discriminate. destruct (body_u (c :: s)) as [m|] eqn:Em; [|discriminate].
      destruct (N.eqb_spec d 95) as [-> |Hn].
      * intros H; injection H as <-. apply Du_skip, IH; reflexivity.
      * destruct (Datatype.digit_val d) as [k|] eqn:Ed; [|discriminate]. apply digit_val_Some in Ed as [Hd ->]. intros H; injection H as <-.
        apply (Du_more (c :: s) m d); [apply IH; reflexivity | exact Hd].
  - induction 1 as [d Hd|ds n d Hds IH Hd|ds n Hds IH].
    + unfold body_u. assert (H95 : (d =? 95) = false) by (apply N.eqb_neq; unfold digit in Hd; lia). rewrite H95. unfold strip_underscores; cbn [filter]. rewrite H95. cbn.
      rewrite (proj2 (digit_val_Some d (d - 48))) by auto. reflexivity.
    + rewrite body_snoc by (destruct ds; [discriminate IH | discriminate]). rewrite IH.
      assert (H95 : (d =? 95) = false) by (apply N.eqb_neq; unfold digit in Hd; lia). rewrite H95, (proj2 (digit_val_Some d (d - 48))) by auto. reflexivity.
    + rewrite body_snoc by (destruct ds; [discriminate IH | discriminate]). rewrite IH. reflexivity.
Qed.
Lemma signed_u c s n : c = 43 \/ c = 45 -> Digits_u s n -> signed_by c s = None.
Proof.
  intros Hc H. apply Digits_u_cons in H as (x & r & -> & Hx). cbn. destruct (N.eqb_spec x c) as [-> |]; [|reflexivity]. unfold digit in Hx. lia.
Qed.
Lemma biguint_lit s n : parse_biguint s = Some n <-> Unsigned_u s (Z.of_N n).
Proof.
  assert (E : forall s', match s' with [] => None | c :: _ => if c =? 95 then None else Datatype.digits_val 0 (strip_underscores s') end = body_u s') by reflexivity.
  unfold parse_biguint. cbv zeta. rewrite E. clear E. unfold starts_with. split.
  - destruct (signed_by 43 s) as [t|] eqn:Es.
    + apply signed_Some in Es as ->. destruct (signed_by 43 t) as [u|] eqn:Et.
      * apply signed_Some in Et as ->. intros H. apply body_Digits in H. apply (signed_u 43) in H; [discriminate H | auto].
      * intros H. apply body_Digits in H. constructor; exact H.
    + intros H. apply body_Digits in H. constructor; exact H.
  - intros H. inversion H as [s' m Hd E1 E2|s' m Hd E1 E2]; apply N2Z.inj in E2; subst m s.
    + rewrite (signed_u 43 _ n) by auto. apply body_Digits; exact Hd.
    + cbn [signed_by]. rewrite N.eqb_refl. rewrite (signed_u 43 _ n) by auto. apply body_Digits; exact Hd.
Qed.
Lemma Unsigned_u_fun v k k' : Unsigned_u v k -> Unsigned_u v k' -> k = k'.
Proof.
  intros H H'. assert (Hk : (0 <= k)%Z) by (inversion H; lia). assert (Hk' : (0 <= k')%Z) by (inversion H'; lia).
  rewrite <- (Z2N.id k) in H by exact Hk. rewrite <- (Z2N.id k') in H' by exact Hk'. apply biguint_lit in H, H'. rewrite H in H'. injection H' as E. lia.
Qed.
Lemma biguint_Z s z : option_map Z.of_N (parse_biguint s) = Some z <-> Unsigned_u s z.
Proof.
  split.
  - destruct (parse_biguint s) as [n|] eqn:E; [|discriminate]. intros H; injection H as <-. apply biguint_lit; exact E.
  - intros H. assert (Hz : (0 <= z)%Z) by (inversion H; lia). rewrite <- (Z2N.id z) in H by exact Hz. apply biguint_lit in H. rewrite H. cbn. rewrite Z2N.id by exact Hz. reflexivity.
Qed.
Lemma bigint_lit s z : parse_bigint s = Some z <-> Int_u s z.
Proof.
  unfold parse_bigint, starts_with. destruct (signed_by 45 s) as [t|] eqn:Es.
  - apply signed_Some in Es as ->. split.
    + destruct (signed_by 43 t) as [u|] eqn:Et.
      * intros H. destruct (parse_biguint (45 :: t)) as [n|] eqn:E; [|discriminate]. apply biguint_lit in E.
        inversion E as [? ? Hd|]; subst. apply (signed_u 45) in Hd; [discriminate Hd | auto].
      * destruct (parse_biguint t) as [n|] eqn:E; [|discriminate]. intros H; injection H as <-. apply biguint_lit in E.
        inversion E as [? m Hd E1 E2|? m Hd E1 E2]; subst; [|discriminate Et]. apply N2Z.inj in E2; subst m. apply Iu_minus; exact Hd.
    + intros H. inversion H as [? ? Hu E1 E2|? n Hd E1 E2]; subst.
      * inversion Hu as [? ? Hd E1 E2|]; subst. apply (signed_u 45) in Hd; [discriminate Hd | auto].
      * rewrite (signed_u 43 t n) by auto. assert (E : parse_biguint t = Some n) by (apply biguint_lit; constructor; exact Hd). rewrite E. reflexivity.
  - rewrite biguint_Z. split; [intros H; constructor; exact H|]. intros H. inversion H; subst; [assumption | discriminate Es].
Qed.
Lemma Int_u_fun v k k' : Int_u v k -> Int_u v k' -> k = k'.
Proof. intros H H'. apply bigint_lit in H, H'. congruence. Qed.
Lemma Digits_u_plain s n : ~ In 95 s -> (Digits_u s n <-> Digits s n).
Proof.
  intros Hn. split.
  - intros H. induction H as [d Hd|ds n d Hds IH Hd|ds n Hds IH].
    + constructor; exact Hd.
    + constructor; [apply IH; intros Hi; apply Hn, in_or_app; left; exact Hi | exact Hd].
    + destruct Hn. apply in_or_app; right; left; reflexivity.
  - intros H; clear Hn. induction H; constructor; assumption.
Qed.
Lemma Int_u_plain s z : ~ In 95 s -> (Int_u s z <-> Int_lit s z).
Proof.
  intros Hn. assert (Ht : forall x t, s = x :: t -> ~ In 95 t) by (intros x t -> Hi; apply Hn; right; exact Hi).
  split; intros H; inversion H as [? ? Hu|? n Hd]; subst;
    try (constructor; apply Digits_u_plain; [eapply Ht; reflexivity | assumption]);
    constructor; inversion Hu; subst; constructor; (apply Digits_u_plain; [first [exact Hn | eapply Ht; reflexivity] | assumption]).
Qed.

(** integer, positiveInteger: no range *)
Lemma big_type_ok O C pz mk reads ps t :
  (forall s z, pz s = Some z <-> reads s z) -> (forall v k k', reads v k -> reads v k' -> k = k') ->
  int_type C pz mk ps = Ok (inl t) -> exists f q, t = mk f q /\ Last_pattern ps q /\
    forall s, (int_ok f (pz s) && patt_ok O q s = true <-> bigint_verdict O reads ps q s).
Proof.
  intros Hp Hf E. unfold int_type in E. apply fbind_ok in E as ([f q] & E1 & E2). injection E2 as <-. exists f, q. split; [reflexivity|].
  assert (HP : forall v k, p_int pz v = Ok (inl k) -> reads v k) by (intros v k H; apply parsed_ok in H; apply Hp in H; apply H).
  assert (HF : forall v k k', p_int pz v = Ok (inl k) -> reads v k' -> k = k') by (intros v k k' H H'; apply HP in H; eauto).
  destruct (bound_facets_ok Z.ltb Z.leb Z.le Z.lt (p_int pz) reads Z.leb_le Z.ltb_lt HP HF C ps _ _ _ _ E1) as [K H].
  split; [exact K|]. intros s. unfold bigint_verdict. rewrite andb_true_iff, patt_ok_holds.
  assert (HI : int_ok f (pz s) = true <-> exists z, reads s z /\ bounds_satisfied reads Z.le Z.lt ps z).
  { unfold int_ok. split.
    - destruct (pz s) as [z|] eqn:Ez; [|discriminate]. intros Hm. apply H in Hm as [_ Hm]. apply Hp in Ez. exists z; auto.
    - intros (z & Hz & Hb). rewrite (proj2 (Hp s z)) by auto. apply H. split; [apply minmax_no_bounds | exact Hb]. }
  rewrite HI. reflexivity.
Qed.
Lemma fmap_ok {E E' A} (g : E -> E') (x : fres E A) a : fmap_err g x = Ok (inl a) -> x = Ok (inl a).
Proof. unfold fmap_err, rbind. destruct x as [[b|e]| |]; intros H; try discriminate. injection H as ->; reflexivity. Qed.
Lemma integer_ok O C ps t : xsd_compile O C (lit "integer") ps = Ok (inl t) ->
  exists q, Last_pattern ps q /\ forall s, xsd_valid O t s = Ok true <-> bigint_verdict O Int_u ps q s.
Proof.
  intros E. assert (E' : int_type C parse_bigint XInteger ps = Ok (inl t)) by (apply (fmap_ok DFacet); exact E).
  destruct (big_type_ok O C _ _ Int_u ps t bigint_lit Int_u_fun E') as (f & q & -> & HL & H). exists q. split; [exact HL|]. intros s. rewrite <- H. cbn. split; congruence.
Qed.
Lemma positive_ok O C ps t : xsd_compile O C (lit "positiveInteger") ps = Ok (inl t) ->
  exists q, Last_pattern ps q /\ forall s, xsd_valid O t s = Ok true <-> bigint_verdict O Unsigned_u ps q s.
Proof.
  intros E. assert (E' : int_type C (fun s => option_map Z.of_N (parse_biguint s)) XPositiveInteger ps = Ok (inl t)) by (apply (fmap_ok DFacet); exact E).
  destruct (big_type_ok O C _ _ Unsigned_u ps t biguint_Z Unsigned_u_fun E') as (f & q & -> & HL & H). exists q. split; [exact HL|]. intros s. rewrite <- H. cbn. split; congruence.
Qed.

(** decimal *)
Lemma qc_leb_le a b : qc_leb a b = true <-> (a <= b)%Qc.
Proof. unfold qc_leb. destruct (Qclt_le_dec b a) as [H|H]; split; try congruence. intros H'. exfalso. exact (Qcle_not_lt _ _ H' H). Qed.
Lemma qc_ltb_lt a b : qc_ltb a b = true <-> (a < b)%Qc.
Proof. unfold qc_ltb. destruct (Qclt_le_dec a b) as [H|H]; split; try congruence. intros H'. exfalso. exact (Qcle_not_lt _ _ H H'). Qed.
Lemma decimal_facets_ok O C ps : forall f p fd td t, decimal_facets O C f p fd td ps = Ok (inl t) ->
  exists f' q fd' td', t = XDecimal f' q fd' td' /\ keeps p ps q /\
    forall x, minmax_valid qc_leb qc_ltb f' x = true <-> minmax_valid qc_leb qc_ltb f x = true /\ bounds_satisfied (fun v k => o_decimal O v = Some k) Qcle Qclt ps x.
Proof.
  assert (HP : forall v k, p_decimal O v = Ok (inl k) -> o_decimal O v = Some k) by (intros v k H; apply parsed_ok in H; exact H).
  assert (HF : forall v k k', p_decimal O v = Ok (inl k) -> o_decimal O v = Some k' -> k = k') by (intros v k k' H H'; apply HP in H; congruence).
  induction ps as [|[n v] ps IH]; intros f p fd td t; cbn [decimal_facets].
  - intros E; injection E as <-. exists f, p, fd, td. split; [reflexivity|]. split; [apply keeps_nil|]. intros x. split; [intros H; split; [exact H | intros n v []] | tauto].
  - destruct (bound_param qc_ltb qc_leb (p_decimal O) f n v) as [r|] eqn:El.
    + intros E. apply fbind_ok in E as (f1 & E1 & E2).
      destruct (bound_param_ok qc_ltb qc_leb Qcle Qclt (p_decimal O) _ qc_leb_le qc_ltb_lt HP HF _ _ _ _ _ El E1) as [Hn H1].
      destruct (IH _ _ _ _ _ E2) as (f' & q & fd' & td' & -> & K & H2). exists f', q, fd', td'. split; [reflexivity|].
      split; [apply keeps_other; assumption|]. intros x. rewrite H2, H1, (sat_cons _ _ _ n v ps x). tauto.
    + pose proof (fun x => bound_param_none qc_ltb qc_leb Qcle Qclt (p_decimal O) (fun v k => o_decimal O v = Some k) f n v x El) as Hnone.
      assert (G : forall p' fd1 td1, keeps p' ps = keeps p' ps -> (forall q, keeps p' ps q -> keeps p ((n, v) :: ps) q) -> decimal_facets O C f p' fd1 td1 ps = Ok (inl t) ->
        exists f' q fd' td', t = XDecimal f' q fd' td' /\ keeps p ((n, v) :: ps) q /\
         forall x, minmax_valid qc_leb qc_ltb f' x = true <-> minmax_valid qc_leb qc_ltb f x = true /\ bounds_satisfied (fun v k => o_decimal O v = Some k) Qcle Qclt ((n, v) :: ps) x).
      { intros p' fd1 td1 _ Hk E. destruct (IH _ _ _ _ _ E) as (f' & q & fd' & td' & -> & K & H2). exists f', q, fd', td'. split; [reflexivity|].
        split; [apply Hk; exact K|]. intros x. rewrite H2, (sat_cons _ _ _ n v ps x). specialize (Hnone x). tauto. }
      destruct (is_name n "pattern") eqn:En.
      * names; subst n. intros E. apply fbind_ok in E as (re & E1 & E2). unfold c_pattern in E1. destruct (co_regex_ok C v); [|discriminate E1]. injection E1 as <-.
        apply (G _ _ _ eq_refl (fun q => keeps_pattern p v ps q) E2).
      * assert (Hn : n <> lit "pattern") by (names; exact En). clear En.
        destruct (is_name n "fractionDigits").
        -- intros E. apply fbind_ok in E as (k & E1 & E2). apply (G _ _ _ eq_refl (fun q => keeps_other p n v ps q Hn) E2).
        -- destruct (is_name n "totalDigits"); [|discriminate]. intros E. apply fbind_ok in E as (k & E1 & E2). apply (G _ _ _ eq_refl (fun q => keeps_other p n v ps q Hn) E2).
Qed.
Lemma decimal_ok O C ps t : xsd_compile O C (lit "decimal") ps = Ok (inl t) ->
  exists q, Last_pattern ps q /\ forall s, xsd_valid O t s = Ok true <->
    (exists x, o_decimal O s = Some x /\ bounds_satisfied (fun v k => o_decimal O v = Some k) Qcle Qclt ps x) /\ pattern_holds O q s.
Proof.
  intros E. assert (E' : decimal_facets O C no_bounds None None None ps = Ok (inl t)) by (apply (fmap_ok DFacet); exact E).
  destruct (decimal_facets_ok _ _ _ _ _ _ _ _ E') as (f & q & fd & td & -> & K & H). exists q. split; [exact K|]. intros s. cbn [xsd_valid].
  assert (HI : dec_ok f (o_decimal O s) = true <-> exists x, o_decimal O s = Some x /\ bounds_satisfied (fun v k => o_decimal O v = Some k) Qcle Qclt ps x).
  { unfold dec_ok. split.
    - destruct (o_decimal O s) as [x|]; [|discriminate]. intros Hm. apply H in Hm as [_ Hm]. exists x; auto.
    - intros (x & -> & Hx). apply H. split; [reflexivity | exact Hx]. }
  rewrite <- HI, <- patt_ok_holds. rewrite <- andb_true_iff. split; congruence.
Qed.

(** string types *)
Lemma string_ok O C ps t : xsd_compile O C (lit "string") ps = Ok (inl t) ->
  exists q, Last_pattern ps q /\ forall s, xsd_valid O t s = Ok true <-> lengths_satisfied ps s /\ pattern_holds O q s.
Proof.
  intros E. assert (E' : str_type C XString ps = Ok (inl t)) by (apply (fmap_ok DFacet); exact E).
  unfold str_type in E'. apply fbind_ok in E' as ([f q] & E1 & E2). injection E2 as <-. destruct (string_facets_ok _ _ _ _ _ _ E1) as [K H].
  exists q. split; [exact K|]. intros s. rewrite <- patt_ok_holds. specialize (H s). cbn [xsd_valid length_valid] in *.
  assert (HI : length_valid f s = true <-> lengths_satisfied ps s) by tauto. rewrite <- HI, <- andb_true_iff. split; congruence.
Qed.
Lemma normalized_ok O C ps t : xsd_compile O C (lit "normalizedString") ps = Ok (inl t) ->
  exists q, Last_pattern ps q /\ forall s, xsd_valid O t s = Ok true <-> lengths_satisfied ps (normalize_whitespace s) /\ pattern_holds O q (normalize_whitespace s).
Proof.
  intros E. assert (E' : str_type C XNormalizedString ps = Ok (inl t)) by (apply (fmap_ok DFacet); exact E).
  unfold str_type in E'. apply fbind_ok in E' as ([f q] & E1 & E2). injection E2 as <-. destruct (string_facets_ok _ _ _ _ _ _ E1) as [K H].
  exists q. split; [exact K|]. intros s. rewrite <- patt_ok_holds. specialize (H (normalize_whitespace s)). cbn [xsd_valid length_valid] in *.
  assert (HI : length_valid f (normalize_whitespace s) = true <-> lengths_satisfied ps (normalize_whitespace s)) by tauto. rewrite <- HI, <- andb_true_iff. split; congruence.
Qed.

(** ** White space *)
Lemma blank_ascii b : blank b -> Forall (fun c => is_ascii_ws c = true) b.
Proof. apply Forall_impl. intros c. unfold is_xml_ws, is_ascii_ws. rewrite !orb_true_iff. tauto. Qed.
Lemma xml_ascii c : is_xml_ws c = true -> is_ascii_ws c = true.
Proof. unfold is_xml_ws, is_ascii_ws. rewrite !orb_true_iff. tauto. Qed.
Lemma solid_ascii c : c <> 12 -> is_xml_ws c = false -> is_ascii_ws c = false.
Proof. unfold is_xml_ws, is_ascii_ws. rewrite !orb_false_iff. intros H [[[? ?] ?] ?]. repeat split; try assumption. apply N.eqb_neq; exact H. Qed.
Lemma skip_blank b s : Forall (fun c => is_ascii_ws c = true) b -> skip_ws (b ++ s) = skip_ws s.
Proof. induction 1 as [|c b H Hb IH]; [reflexivity|]. cbn. rewrite H. exact IH. Qed.
Lemma loop_blank b s : Forall (fun c => is_ascii_ws c = true) b -> norm_loop true (b ++ s) = norm_loop true s.
Proof. induction 1 as [|c b H Hb IH]; [reflexivity|]. cbn. rewrite H. exact IH. Qed.
Lemma loop_word w s : Forall (fun c => is_ascii_ws c = false) w -> norm_loop false (w ++ s) = w ++ norm_loop false s.
Proof. induction 1 as [|c w H Hb IH]; [reflexivity|]. cbn. rewrite H. f_equal. exact IH. Qed.
Lemma loop_true s : norm_loop true s = match skip_ws s with [] => [] | t => 32 :: norm_loop false t end.
Proof. induction s as [|c s IH]; [reflexivity|]. cbn. destruct (is_ascii_ws c) eqn:E; [exact IH|]. cbn. rewrite E. reflexivity. Qed.
Lemma skip_word w s : w <> [] -> Forall (fun c => is_ascii_ws c = false) w -> skip_ws (w ++ s) = w ++ s.
Proof. intros Hw H. destruct H as [|c w H Hb]; [contradiction|]. cbn. rewrite H. reflexivity. Qed.
Lemma normalize_words s ws : ~ In 12 s -> Words s ws -> normalize_whitespace s = spaced ws /\ (ws = [] <-> skip_ws s = []).
Proof.
  intros Hf H. induction H as [s H|b w Hb Hw Hn|b w c r ws Hb Hw Hn Hc Hr IH].
  - unfold normalize_whitespace. rewrite <- (app_nil_r s), skip_blank by (apply blank_ascii; exact H). cbn. tauto.
  - assert (Hn' : Forall (fun c => is_ascii_ws c = false) w).
    { rewrite Forall_forall in *. intros x Hx. apply solid_ascii; [|apply Hn; exact Hx]. intros ->. apply Hf, in_or_app; right; exact Hx. }
    assert (Es : skip_ws (b ++ w) = w).
    { rewrite skip_blank by (apply blank_ascii; exact Hb). rewrite <- (app_nil_r w) at 1. rewrite skip_word by assumption. apply app_nil_r. }
    unfold normalize_whitespace. rewrite Es. split; [rewrite <- (app_nil_r w) at 1; rewrite loop_word by exact Hn'; apply app_nil_r|]. split; [discriminate | intros ->; contradiction].
  - assert (Hn' : Forall (fun c => is_ascii_ws c = false) w).
    { rewrite Forall_forall in *. intros x Hx. apply solid_ascii; [|apply Hn; exact Hx]. intros ->. apply Hf, in_or_app; right. apply in_or_app; left; exact Hx. }
    assert (Hr' : ~ In 12 r) by (intros Hi; apply Hf, in_or_app; right; apply in_or_app; right; right; exact Hi).
    destruct (IH Hr') as [E1 E2].
    unfold normalize_whitespace. rewrite skip_blank by (apply blank_ascii; exact Hb). rewrite skip_word by assumption. rewrite loop_word by exact Hn'.
    split; [|split; [discriminate|]; intros E; destruct w; [contradiction | discriminate E]].
    cbn [norm_loop]. rewrite (xml_ascii c Hc), loop_true. unfold normalize_whitespace in E1.
    destruct ws as [|w' ws]; [rewrite (proj1 E2 eq_refl); cbn; apply app_nil_r|].
    destruct (skip_ws r) as [|y t]; [discriminate (proj2 E2 eq_refl)|].
    rewrite E1. cbn. reflexivity.
Qed.
Lemma loop_idem s : forall l, norm_loop false (norm_loop l s) = norm_loop l s.
Proof.
  induction s as [|c s IH]; intros l; [reflexivity|]. cbn. destruct (is_ascii_ws c) eqn:E; [apply IH|].
  destruct l; cbn; rewrite E; rewrite (IH false); reflexivity.
Qed.
Lemma skip_head s : match skip_ws s with c :: _ => is_ascii_ws c = false | [] => True end.
Proof. induction s as [|c s IH]; [exact I|]. cbn. destruct (is_ascii_ws c) eqn:E; [exact IH | exact E]. Qed.
Lemma normalize_idem s : normalize_whitespace (normalize_whitespace s) = normalize_whitespace s.
Proof.
  unfold normalize_whitespace. pose proof (skip_head s) as H. destruct (skip_ws s) as [|c t]; [reflexivity|].
  cbn [norm_loop]. rewrite H. cbn [skip_ws]. rewrite H. cbn [norm_loop]. rewrite H. f_equal. apply loop_idem.
Qed.
Lemma word_fun : forall (w w' : str) c r c' r', Forall (fun c => is_xml_ws c = false) w -> Forall (fun c => is_xml_ws c = false) w' -> is_xml_ws c = true -> is_xml_ws c' = true ->
  w ++ c :: r = w' ++ c' :: r' -> w = w' /\ c :: r = c' :: r'.
Proof.
  induction w as [|x w IH]; intros [|y w'] c r c' r' H H' Hc Hc' E; cbn in E.
  - auto.
  - injection E as -> _. inversion H'; congruence.
  - injection E as <- _. inversion H; congruence.
  - injection E as -> E. inversion H; inversion H'; subst. destruct (IH w' c r c' r') as [-> E']; auto.
Qed.
Definition solid (w : str) : Prop := w <> [] /\ Forall (fun c => is_xml_ws c = false) w.
Lemma spaced_inj ws : forall ws', Forall solid ws -> Forall solid ws' -> spaced ws = spaced ws' -> ws = ws'.
Proof.
  assert (Hsp : is_xml_ws 32 = true) by reflexivity.
  assert (one : forall (w w' : str) r, Forall (fun c => is_xml_ws c = false) w -> w = w' ++ 32 :: r -> False).
  { intros w w' r H ->. apply Forall_app in H as [_ H]. inversion H; discriminate. }
  induction ws as [|w ws IH]; intros [|w' ws'] H H' E.
  - reflexivity.
  - inversion H' as [|? ? [Hw _] _]; subst. cbn in E. destruct ws', w'; try contradiction; discriminate E.
  - inversion H as [|? ? [Hw _] _]; subst. cbn in E. destruct ws, w; try contradiction; discriminate E.
  - inversion H as [|? ? [Hw Hs] Hr]; inversion H' as [|? ? [Hw' Hs'] Hr']; subst.
    destruct ws as [|v ws], ws' as [|v' ws'].
    + cbn in E. subst; reflexivity.
    + cbn [spaced] in E. exfalso. eapply one; [exact Hs | exact E].
    + cbn [spaced] in E. exfalso. eapply one; [exact Hs' | symmetry; exact E].
    + change (w ++ 32 :: spaced (v :: ws) = w' ++ 32 :: spaced (v' :: ws')) in E.
      destruct (word_fun _ _ _ _ _ _ Hs Hs' Hsp Hsp E) as [-> E']. injection E' as E'. f_equal. apply IH; assumption.
Qed.
Lemma Words_solid s ws : Words s ws -> Forall solid ws.
Proof. induction 1; repeat constructor; auto. Qed.
Lemma token_same v s wv ws : ~ In 12 v -> ~ In 12 s -> Words v wv -> Words s ws ->
  (str_eqb (normalize_whitespace v) (normalize_whitespace s) = true <-> wv = ws).
Proof.
  intros Hv Hs Wv Ws. rewrite str_eqb_eq, (proj1 (normalize_words v wv Hv Wv)), (proj1 (normalize_words s ws Hs Ws)).
  split; [apply spaced_inj; eapply Words_solid; eassumption | intros ->; reflexivity].
Qed.

(** ** NCName *)
Lemma in_ranges_spec l c : in_ranges l c = true <-> exists a b, In (a, b) l /\ a <= c <= b.
Proof.
  unfold in_ranges. rewrite existsb_exists. split.
  - intros ([a b] & Hin & H). apply andb_prop in H as [H1 H2]. apply N.leb_le in H1, H2. exists a, b; auto.
  - intros (a & b & Hin & H1 & H2). exists (a, b). split; [exact Hin|]. apply andb_true_intro; split; apply N.leb_le; assumption.
Qed.
Lemma start_spec c : nc_start_char c = true <-> NameStart c.
Proof.
  unfold nc_start_char. rewrite in_ranges_spec. unfold NameStart. split.
  - intros (a & b & Hin & H). cbn in Hin. repeat (destruct Hin as [E|Hin]; [injection E as <- <-; lia|]). destruct Hin.
  - intros H. unfold nc_start_ranges.
    repeat (destruct H as [H|H]; [eexists _, _; split; [|first [exact H | (split; [|]; first [apply N.eq_le_incl; symmetry; exact H | apply N.eq_le_incl; exact H])]]; cbn; tauto|]).
    eexists _, _; split; [|exact H]. cbn; tauto.
Qed.
Lemma char_spec c : nc_char c = true <-> NameChar c.
Proof.
  unfold nc_char, nc_char_ranges, NameChar. rewrite <- start_spec. unfold nc_start_char, in_ranges. rewrite existsb_app, orb_true_iff.
  assert (E : existsb (fun '(a, b) => (a <=? c) && (c <=? b)) [(45, 45); (46, 46); (48, 57); (183, 183); (768, 879); (8255, 8256)] = true <->
    (c = 45 \/ c = 46 \/ 48 <= c <= 57 \/ c = 183 \/ 768 <= c <= 879 \/ 8255 <= c <= 8256)).
  { cbn. rewrite !orb_true_iff, !andb_true_iff, !N.leb_le. split; intros H; [|lia]. repeat (destruct H as [H|H]; [lia|]). discriminate H. }
  rewrite E. reflexivity.
Qed.
Lemma take_while_all f s : snd (take_while f s) = [] <-> Forall (fun c => f c = true) s.
Proof.
  induction s as [|c s IH]; cbn; [split; [constructor | reflexivity]|]. destruct (f c) eqn:E.
  - destruct (take_while f s) as [a b]; cbn in *. rewrite IH. split; [intros H; constructor; assumption | intros H; inversion H; assumption].
  - cbn. split; [discriminate | intros H; inversion H; congruence].
Qed.
Lemma ncname_spec s : is_valid_ncname s = true <-> NCName s.
Proof.
  unfold is_valid_ncname, nc_name, NCName. destruct s as [|c s]; [split; [discriminate | intros (c & r & E & _); discriminate E]|].
  destruct (nc_start_char c) eqn:E.
  - pose proof (take_while_all nc_char s) as H. destruct (take_while nc_char s) as [a b]; cbn in H.
    assert (G : Forall NameChar s <-> Forall (fun c => nc_char c = true) s) by (split; apply Forall_impl; intros x; apply char_spec).
    transitivity (b = []); [destruct b; split; congruence|]. rewrite H, <- G. split.
    + intros Hs. exists c, s. repeat split; [apply start_spec; exact E | exact Hs].
    + intros (c' & r & Ec & _ & Hr). injection Ec as -> ->; exact Hr.
  - split; [discriminate|]. intros (c' & r & Ec & Hs & _). injection Ec as -> ->. apply start_spec in Hs. congruence.
Qed.
Lemma ncname_ok O C ps t : xsd_compile O C (lit "NCName") ps = Ok (inl t) ->
  forall s, xsd_valid O t s = Ok true <-> lengths_satisfied ps s /\ NCName s.
Proof.
  intros E. assert (E' : len_type XNcName ps = Ok (inl t)) by (apply (fmap_ok DFacet); exact E).
  unfold len_type in E'. apply fbind_ok in E' as (f & E1 & E2). injection E2 as <-. intros s. pose proof (length_facets_ok _ _ _ E1 s) as H. cbn [xsd_valid length_valid] in *.
  assert (HI : length_valid f s = true <-> lengths_satisfied ps s) by tauto. rewrite <- HI, <- ncname_spec, <- andb_true_iff. split; congruence.
Qed.

(** ** Regular expressions *)
Lemma pat_ok_gen C mk ps t : pat_type C mk ps = Ok (inl t) -> exists q, t = mk q /\ Last_pattern ps q.
Proof.
  unfold pat_type. intros E. apply fbind_ok in E as (q & E1 & E2). injection E2 as <-. exists q. split; [reflexivity|].
  change (keeps None ps q). revert E1. generalize (@None str). induction ps as [|[n v] ps IH]; intros p; cbn [pattern_facets].
  - intros E; injection E as <-. apply keeps_nil.
  - destruct (is_name n "pattern") eqn:En; [|discriminate]. names; subst n. intros E. apply fbind_ok in E as (re & E1 & E2).
    unfold c_pattern in E1. destruct (co_regex_ok C v); [|discriminate E1]. injection E1 as <-. apply keeps_pattern, IH; exact E2.
Qed.
Lemma rlang_upto n cls s : rlang (rupto n (RChar cls)) s <-> (List.length s <= n)%nat /\ Forall (fun c => cls c = true) s.
Proof.
  revert s; induction n as [|n IH]; intros s; cbn [rupto].
  - rewrite rlang_eps_inv. split; [intros ->; split; [cbn; lia | constructor] | intros [H _]; destruct s; [reflexivity | cbn in H; lia]].
  - unfold ropt. rewrite rlang_alt_inv, rlang_seq_inv, rlang_eps_inv. split.
    + intros [(u & v & -> & Hu & Hv)| ->]; [|split; [cbn; lia | constructor]].
      apply rlang_char_inv in Hu as (c & -> & Hc). apply IH in Hv as [Hl Hf]. cbn. split; [lia | constructor; assumption].
    + intros [Hl Hf]. destruct s as [|c s]; [right; reflexivity|]. left. exists [c], s. inversion Hf; subst. cbn in Hl.
      split; [reflexivity|]. split; [constructor; assumption | apply IH; split; [lia | assumption]].
Qed.
Lemma rlang_1upto n cls s : rlang (RSeq (RChar cls) (rupto n (RChar cls))) s <-> (1 <= List.length s <= S n)%nat /\ Forall (fun c => cls c = true) s.
Proof.
  rewrite rlang_seq_inv. split.
  - intros (u & v & -> & Hu & Hv). apply rlang_char_inv in Hu as (c & -> & Hc). apply rlang_upto in Hv as [Hl Hf]. cbn. split; [lia | constructor; assumption].
  - intros [Hl Hf]. destruct s as [|c s]; [cbn in Hl; lia|]. inversion Hf; subst. exists [c], s. split; [reflexivity|].
    split; [constructor; assumption | apply rlang_upto; split; [cbn in Hl; lia | assumption]].
Qed.
Lemma alpha_spec c : alpha c = true <-> letter c.
Proof. unfold alpha, range, letter. rewrite orb_true_iff, !andb_true_iff, !N.leb_le. lia. Qed.
Lemma alnum_spec c : alnum c = true <-> letter c \/ digit c.
Proof. unfold alnum. rewrite orb_true_iff, alpha_spec. unfold adigit, range, digit. rewrite andb_true_iff, !N.leb_le. reflexivity. Qed.
Lemma Forall_iff {A} (P Q : A -> Prop) l : (forall x, P x <-> Q x) -> (Forall P l <-> Forall Q l).
Proof. intros H; split; apply Forall_impl; intros x; apply H. Qed.
Lemma subtag_spec f P s : (forall c, f c = true <-> P c) -> (rlang (RSeq (RChar f) (rupto 7 (RChar f))) s <-> subtag P s).
Proof. intros H. rewrite rlang_1upto. unfold subtag. rewrite (Forall_iff _ _ s H). reflexivity. Qed.
Lemma star_snoc a s t : rlang (RStar a) s -> rlang a t -> rlang (RStar a) (s ++ t).
Proof.
  intros H Ht. remember (RStar a) as r eqn:E. induction H as [| | | | |a'|a' u v Hu IHu Hv IHv]; try discriminate E; injection E as ->.
  - cbn. rewrite <- (app_nil_r t). constructor; [exact Ht | constructor].
  - rewrite <- app_assoc. constructor; [exact Hu | apply IHv; reflexivity].
Qed.
Lemma lang_spec s : rmatch lang_re s = true <-> Language s.
Proof.
  rewrite rmatch_spec. unfold lang_re. split.
  - rewrite rlang_seq_inv. intros (u & v & -> & Hu & Hv). apply (subtag_spec alpha letter _ alpha_spec) in Hu.
    assert (HL : Language u) by (constructor; exact Hu). clear Hu.
    remember (RStar (RSeq (ch 45) (RSeq (RChar alnum) (rupto 7 (RChar alnum))))) as r eqn:E. revert u HL.
    induction Hv as [| | | | |a|a x y Hx IHx Hy IHy]; try discriminate E; injection E as ->; intros u HL; [rewrite app_nil_r; exact HL|].
    apply rlang_seq_inv in Hx as (h & w & -> & Hh & Hw). apply rlang_char_inv in Hh as (c & -> & Hc). apply N.eqb_eq in Hc; subst c.
    apply (subtag_spec alnum _ _ alnum_spec) in Hw. rewrite app_assoc. apply (IHy eq_refl). apply La_more; assumption.
  - induction 1 as [s Hs|s t Hs IH Ht].
    + rewrite <- (app_nil_r s). constructor; [apply (subtag_spec alpha letter _ alpha_spec); exact Hs | constructor].
    + apply rlang_seq_inv in IH as (u & v & -> & Hu & Hv). rewrite <- app_assoc. constructor; [exact Hu|]. apply star_snoc; [exact Hv|].
      change (45 :: t) with ([45] ++ t). constructor; [constructor; reflexivity | apply (subtag_spec alnum _ _ alnum_spec); exact Ht].
Qed.
Lemma rep_spec n cls s : rlang (rrep n (RChar cls)) s <-> digits_of (fun c => cls c = true) n s.
Proof.
  unfold digits_of. revert s; induction n as [|n IH]; intros s; cbn [rrep].
  - rewrite rlang_eps_inv. split; [intros ->; split; [reflexivity | constructor] | intros [H _]; destruct s; [reflexivity | discriminate H]].
  - rewrite rlang_seq_inv. split.
    + intros (u & v & -> & Hu & Hv). apply rlang_char_inv in Hu as (c & -> & Hc). apply IH in Hv as [Hl Hf]. cbn. split; [congruence | constructor; assumption].
    + intros [Hl Hf]. destruct s as [|c s]; [discriminate Hl|]. inversion Hf; subst. exists [c], s. split; [reflexivity|].
      split; [constructor; assumption | apply IH; split; [injection Hl as Hl; exact Hl | assumption]].
Qed.
Lemma ch_spec c s : rlang (ch c) s <-> s = [c].
Proof. unfold ch. rewrite rlang_char_inv. split; [intros (x & -> & H); apply N.eqb_eq in H; subst; reflexivity | intros ->; exists c; split; [reflexivity | apply N.eqb_refl]]. Qed.
Lemma seq_spec a b (P Q : str -> Prop) s : (forall u, rlang a u <-> P u) -> (forall u, rlang b u <-> Q u) -> (rlang (RSeq a b) s <-> exists u v, s = u ++ v /\ P u /\ Q v).
Proof.
  intros HP HQ. rewrite rlang_seq_inv. split; intros (u & v & E & Hu & Hv); exists u, v; (split; [exact E|]); split; try apply HP; try apply HQ; assumption.
Qed.
Lemma datetime_spec d s : rmatch (datetime_re d) s = true <-> DateTime (fun c => d c = true) s.
Proof.
  rewrite rmatch_spec. unfold datetime_re. cbn [rseqs].
  pose (D := fun n => digits_of (fun c => d c = true) n).
  assert (HZ : forall z, rlang (ropt (RSeq (ch 90) (ropt (RSeq (RAlt (ch 43) (ch 45)) (RSeq (rrep 2 (RChar d)) (RSeq (ch 58) (rrep 2 (RChar d)))))))) z <->
    (z = [] \/ z = [90] \/ exists sg oh om, (sg = 43 \/ sg = 45) /\ D 2%nat oh /\ D 2%nat om /\ z = 90 :: sg :: oh ++ [58] ++ om)).
  { intros z. unfold ropt. rewrite rlang_alt_inv, rlang_seq_inv, rlang_eps_inv. split.
    - intros [(u & v & -> & Hu & Hv)| ->]; [|auto]. right. apply ch_spec in Hu; subst u. apply rlang_alt_inv in Hv as [Hv|Hv].
      + right. apply rlang_seq_inv in Hv as (a & b & -> & Ha & Hb). apply rlang_seq_inv in Hb as (oh & b' & -> & Hoh & Hb). apply rlang_seq_inv in Hb as (c & om & -> & Hc & Hom).
        apply ch_spec in Hc; subst c. apply rep_spec in Hoh, Hom. apply rlang_alt_inv in Ha as [Ha|Ha]; apply ch_spec in Ha; subst a; [exists 43 | exists 45]; exists oh, om; (split; [auto|]); repeat split; try apply Hoh; try apply Hom; reflexivity.
      + apply rlang_eps_inv in Hv; subst v. left; reflexivity.
    - intros [-> | [-> | (sg & oh & om & Hs & Hoh & Hom & ->)]]; [right; reflexivity | left; exists [90], []; split; [reflexivity|]; split; [apply ch_spec; reflexivity | apply rl_altr; constructor]|].
      left. exists [90], (sg :: oh ++ [58] ++ om). split; [reflexivity|]. split; [apply ch_spec; reflexivity|]. apply rl_altl.
      change (sg :: oh ++ [58] ++ om) with ([sg] ++ (oh ++ ([58] ++ om))). constructor; [destruct Hs as [-> | ->]; [apply rl_altl | apply rl_altr]; apply ch_spec; reflexivity|].
      constructor; [apply rep_spec; exact Hoh|]. constructor; [apply ch_spec; reflexivity | apply rep_spec; exact Hom]. }
  split.
  - intros H. 
    apply rlang_seq_inv in H as (sign & ? & -> & Hs & H). apply rlang_seq_inv in H as (y & ? & -> & Hy & H).
    apply rlang_seq_inv in H as (c1 & ? & -> & Hc1 & H). apply ch_spec in Hc1; subst c1.
    apply rlang_seq_inv in H as (mo & ? & -> & Hmo & H).
    apply rlang_seq_inv in H as (c1 & ? & -> & Hc1 & H). apply ch_spec in Hc1; subst c1.
    apply rlang_seq_inv in H as (da & ? & -> & Hda & H).
    apply rlang_seq_inv in H as (c1 & ? & -> & Hc1 & H). apply ch_spec in Hc1; subst c1.
    apply rlang_seq_inv in H as (h & ? & -> & Hh & H).
    apply rlang_seq_inv in H as (c1 & ? & -> & Hc1 & H). apply ch_spec in Hc1; subst c1.
    apply rlang_seq_inv in H as (mi & ? & -> & Hmi & H).
    apply rlang_seq_inv in H as (c1 & ? & -> & Hc1 & H). apply ch_spec in Hc1; subst c1.
    apply rlang_seq_inv in H as (se & z & -> & Hse & H). apply HZ in H.
    apply rep_spec in Hy, Hmo, Hda, Hh, Hmi, Hse. exists sign, y, mo, da, h, mi, se, z.
    split; [reflexivity|]. split; [|repeat (split; [assumption|]); exact H].
    unfold ropt in Hs. apply rlang_alt_inv in Hs as [Hs|Hs]; [right; apply ch_spec; exact Hs | left; apply rlang_eps_inv; exact Hs].
  - intros (sign & y & mo & da & h & mi & se & z & -> & Hs & Hy & Hmo & Hda & Hh & Hmi & Hse & Hz).
    constructor; [destruct Hs as [-> | ->]; [apply rl_altr; constructor | apply rl_altl, ch_spec; reflexivity]|].
    repeat (constructor; [first [apply rep_spec; assumption | apply ch_spec; reflexivity]|]). apply HZ; exact Hz.
Qed.
Lemma language_ok O C ps t : xsd_compile O C (lit "language") ps = Ok (inl t) ->
  exists q, Last_pattern ps q /\ forall s, xsd_valid O t s = Ok true <-> Language s /\ pattern_holds O q s.
Proof.
  intros E. assert (E' : pat_type C XLanguage ps = Ok (inl t)) by (apply (fmap_ok DFacet); exact E). apply pat_ok_gen in E' as (q & -> & HL).
  exists q. split; [exact HL|]. intros s. rewrite <- lang_spec, <- patt_ok_holds, <- andb_true_iff. cbn. split; congruence.
Qed.
Lemma datetime_ok O C ps t : xsd_compile O C (lit "dateTime") ps = Ok (inl t) ->
  exists q, Last_pattern ps q /\ forall s, xsd_valid O t s = Ok true <-> DateTime (fun c => o_unicode_digit O c = true) s /\ pattern_holds O q s.
Proof.
  intros E. assert (E' : pat_type C XDatetime ps = Ok (inl t)) by (apply (fmap_ok DFacet); exact E). apply pat_ok_gen in E' as (q & -> & HL).
  exists q. split; [exact HL|]. intros s. rewrite <- datetime_spec, <- patt_ok_holds, <- andb_true_iff. cbn [xsd_valid]. split; congruence.
Qed.
Lemma boolean_ok O C ps t : xsd_compile O C (lit "boolean") ps = Ok (inl t) ->
  exists q, Last_pattern ps q /\ forall s, xsd_valid O t s = Ok true <-> (s = lit "true" \/ s = lit "false" \/ s = lit "1" \/ s = lit "0") /\ pattern_holds O q s.
Proof.
  intros E. assert (E' : pat_type C XBoolean ps = Ok (inl t)) by (apply (fmap_ok DFacet); exact E). apply pat_ok_gen in E' as (q & -> & HL).
  exists q. split; [exact HL|]. intros s. rewrite <- patt_ok_holds.
  assert (HB : bool_lex s = true <-> s = lit "true" \/ s = lit "false" \/ s = lit "1" \/ s = lit "0").
  { unfold bool_lex. rewrite !orb_true_iff, !str_eqb_eq. cbn. tauto. }
  rewrite <- HB, <- andb_true_iff. cbn [xsd_valid]. split; congruence.
Qed.
(** everything that starts with 'P' passes for a duration *)
Lemma duration_P O s : rmatch (duration_search (o_unicode_digit O)) (80 :: s) = true.
Proof.
  apply rmatch_spec. apply rl_altl. rewrite <- (app_nil_l s). change (80 :: [] ++ s) with (([80] ++ []) ++ s). constructor.
  - constructor; [apply ch_spec; reflexivity|]. repeat (rewrite <- (app_nil_l (@nil N)); constructor; [apply rl_altr; constructor|]). apply rl_altr; constructor.
  - induction s as [|c s IH]; [constructor|]. change (c :: s) with ([c] ++ s). constructor; [constructor; reflexivity | exact IH].
Qed.

(** ** Totality of the facet compiler *)
Lemma fbind_total {E A B} (x : fres E A) (f : A -> fres E B) : (exists r, x = Ok r) -> (forall a, x = Ok (inl a) -> exists r, f a = Ok r) -> exists r, fbind x f = Ok r.
Proof. intros [[a|e] ->] H; cbn; [apply H; reflexivity | eauto]. Qed.
Lemma parsed_total {A} e (o : option A) : exists r, parsed e o = Ok r.
Proof. destruct o; unfold parsed, fok, ferr; eauto. Qed.
Lemma c_pattern_total C v : exists r, c_pattern C v = Ok r.
Proof. unfold c_pattern. destruct (co_regex_ok C v); unfold fok, ferr; eauto. Qed.
(** which length facets may still come *)
Definition len_open (f : length_facet) (ps : params) : Prop :=
  match f with
  | LUnbounded | LMin _ => True
  | _ => forall n v, In (n, v) ps -> ~ In n length_names
  end.
Lemma len_order_tail x ps : len_order (x :: ps) -> len_order ps.
Proof. intros H a n v b -> Hn. apply (H (x :: a) n v b); auto. Qed.
Lemma merge_total f g ps n v : len_open f ((n, v) :: ps) -> In n length_names -> (n = lit "minLength" -> exists k, g = LMin k) -> (forall a b, g <> LMinMax a b) -> g <> LUnbounded ->
  (n <> lit "minLength" -> forall m w, In (m, w) ps -> ~ In m length_names) ->
  (exists r, merge_length f g = Ok r) /\ forall f', merge_length f g = Ok (inl f') -> len_open f' ps.
Proof.
  intros Ho Hn Hmin H1 H2 Hlast.
  assert (Hg : len_open g ps).
  { destruct (str_eq_dec n (lit "minLength")) as [E|E]; [destruct (Hmin E) as [k ->]; exact I|]. specialize (Hlast E). destruct g; cbn; auto. }
  destruct f; try (exfalso; exact (Ho n v (or_introl eq_refl) Hn)); cbn [merge_length].
  - split; [unfold fok; eauto | intros f' E; injection E as <-; exact Hg].
  - destruct g; try contradiction; try (exfalso; eapply H1; reflexivity); unfold fok, ferr; (split; [try (destruct (_ <? _); eauto); eauto|]); intros f' E; try discriminate E.
    destruct (_ <? _); [discriminate E|]. injection E as <-. exact Hg.
Qed.
Lemma length_param_total f n v ps r : len_open f ((n, v) :: ps) -> len_order ((n, v) :: ps) -> length_param f n v = Some r ->
  (exists x, r = Ok x) /\ forall f', r = Ok (inl f') -> len_open f' ps.
Proof.
  intros Ho Hord. assert (Hlast : n = lit "maxLength" \/ n = lit "length" -> forall m w, In (m, w) ps -> ~ In m length_names) by (intros Hn; apply (Hord [] n v ps); auto).
  unfold length_param.
  destruct (is_name n "length") eqn:E1; [|destruct (is_name n "minLength") eqn:E2; [|destruct (is_name n "maxLength") eqn:E3; [|discriminate]]]; intros H; injection H as <-; names;
  (split;
   [apply fbind_total; [apply parsed_total|]; intros k _; eapply merge_total; try exact Ho
   |intros f' E; apply fbind_ok in E as (k & _ & E); revert E; eapply merge_total; try exact Ho]);
   try (subst n; cbn; tauto); try discriminate; try (intros; eauto; fail); try (intros _; apply Hlast; auto; fail); try (intros Hx; subst n; try contradiction; vm_compute in Hx; discriminate Hx).
Qed.
Lemma string_total C ps : forall f p, len_open f ps -> len_order ps -> exists r, string_facets C f p ps = Ok r.
Proof.
  induction ps as [|[n v] ps IH]; intros f p Ho Hord; cbn [string_facets]; [unfold fok; eauto|].
  destruct (length_param f n v) as [r|] eqn:El.
  - destruct (length_param_total f n v ps r Ho Hord El) as [H1 H2]. apply fbind_total; [exact H1|]. intros f' E. apply IH; [apply H2; exact E | eapply len_order_tail; exact Hord].
  - destruct (is_name n "pattern"); [|unfold ferr; eauto]. apply fbind_total; [apply c_pattern_total|]. intros re _. apply IH; [|eapply len_order_tail; exact Hord].
    destruct f; cbn in *; auto; intros m w Hin; apply (Ho m w); right; exact Hin.
Qed.
Lemma length_total ps : forall f, len_open f ps -> len_order ps -> exists r, length_facets f ps = Ok r.
Proof.
  induction ps as [|[n v] ps IH]; intros f Ho Hord; cbn [length_facets]; [unfold fok; eauto|].
  destruct (length_param f n v) as [r|] eqn:El; [|unfold ferr; eauto].
  destruct (length_param_total f n v ps r Ho Hord El) as [H1 H2]. apply fbind_total; [exact H1|]. intros f' E. apply IH; [apply H2; exact E | eapply len_order_tail; exact Hord].
Qed.
(** bounds: no facet twice *)
Section BoundTotal.
Context {T : Type} (ltb leb : T -> T -> bool) (parse : str -> fres facet_error T).
Hypothesis Hp : forall v, exists r, parse v = Ok r.
Definition bnd_open (f : minmax T) (ps : params) : Prop :=
  forall n v, In (n, v) ps ->
   match mm_min f with BIncl _ => n <> lit "minInclusive" | BExcl _ => n <> lit "minExclusive" | BUnbounded => True end /\
   match mm_max f with BIncl _ => n <> lit "maxInclusive" | BExcl _ => n <> lit "maxExclusive" | BUnbounded => True end.
Lemma bnd_cons f n v ps : bnd_open f ((n, v) :: ps) -> bnd_open f ps.
Proof. intros H m w Hin. apply (H m w). right; exact Hin. Qed.
Lemma bound_param_total f n v ps r : bnd_open f ((n, v) :: ps) -> ~ In n (map fst ps) -> bound_param ltb leb parse f n v = Some r ->
  (exists x, r = Ok x) /\ forall f', r = Ok (inl f') -> bnd_open f' ps.
Proof.
  intros Ho Hn. destruct (Ho n v (or_introl eq_refl)) as [Hmin Hmax]. pose proof (bnd_cons _ _ _ _ Ho) as Ht.
  assert (Hne : forall m w, In (m, w) ps -> m <> n) by (intros m w Hin ->; apply Hn; change n with (fst (n, w)); apply in_map; exact Hin).
  unfold bound_param. destruct f as [mn mx]; cbn [mm_min mm_max] in *.
  destruct (is_name n "minInclusive") eqn:E1; [|destruct (is_name n "minExclusive") eqn:E2; [|destruct (is_name n "maxInclusive") eqn:E3; [|destruct (is_name n "maxExclusive") eqn:E4; [|discriminate]]]];
  intros H; injection H as <-; names;
  (split; [apply fbind_total; [apply Hp|]; intros k _ | intros f' E; apply fbind_ok in E as (k & _ & E); revert E]);
  unfold min_inclusive, min_exclusive, max_inclusive, max_exclusive; cbn [mm_min mm_max]; unfold fok, ferr;
  destruct mn as [|a|a], mx as [|b|b]; cbn [mm_min mm_max] in *; try contradiction; try congruence;
  try (match goal with |- context [if ?c then _ else _] => destruct c end); eauto; try discriminate;
  intros E; injection E as <-; intros m w Hin; specialize (Hne m w Hin); destruct (Ht m w Hin) as [A B]; cbn [mm_min mm_max] in *; split; auto; congruence.
Qed.
Lemma bounds_once_tail x ps : bounds_once (x :: ps) -> bounds_once ps.
Proof. intros H a n v b -> Hn. apply (H (x :: a) n v b); auto. Qed.
Lemma bound_param_name f n v r : bound_param ltb leb parse f n v = Some r -> In n bound_names.
Proof.
  unfold bound_param. destruct (is_name n "minInclusive") eqn:E1; [|destruct (is_name n "minExclusive") eqn:E2; [|destruct (is_name n "maxInclusive") eqn:E3; [|destruct (is_name n "maxExclusive") eqn:E4; [|discriminate]]]]; intros _; names; subst n; cbn; tauto.
Qed.
Lemma bound_total C ps : forall f p, bnd_open f ps -> bounds_once ps -> exists r, bound_facets C ltb leb parse f p ps = Ok r.
Proof.
  induction ps as [|[n v] ps IH]; intros f p Ho Hord; cbn [bound_facets]; [unfold fok; eauto|].
  destruct (bound_param ltb leb parse f n v) as [r|] eqn:El.
  - destruct (bound_param_total f n v ps r Ho (Hord [] n v ps eq_refl (bound_param_name _ _ _ _ El)) El) as [H1 H2]. apply fbind_total; [exact H1|].
    intros f' E. apply IH; [apply H2; exact E | eapply bounds_once_tail; exact Hord].
  - destruct (is_name n "pattern"); [|unfold ferr; eauto]. apply fbind_total; [apply c_pattern_total|]. intros re _. apply IH; [eapply bnd_cons; exact Ho | eapply bounds_once_tail; exact Hord].
Qed.
Lemma bnd_open_none ps : bnd_open no_bounds ps.
Proof. intros n v _; split; exact I. Qed.
End BoundTotal.
Lemma decimal_total O C ps : forall f p fd td, bnd_open f ps -> bounds_once ps -> exists r, decimal_facets O C f p fd td ps = Ok r.
Proof.
  induction ps as [|[n v] ps IH]; intros f p fd td Ho Hord; cbn [decimal_facets]; [unfold fok; eauto|].
  destruct (bound_param qc_ltb qc_leb (p_decimal O) f n v) as [r|] eqn:El.
  - destruct (bound_param_total qc_ltb qc_leb (p_decimal O) (fun v => parsed_total _ _) f n v ps r Ho (Hord [] n v ps eq_refl (bound_param_name _ _ _ _ _ _ _ El)) El) as [H1 H2].
    apply fbind_total; [exact H1|]. intros f' E. apply IH; [apply H2; exact E | eapply bounds_once_tail; exact Hord].
  - pose proof (bnd_cons _ _ _ _ Ho) as Ht. pose proof (bounds_once_tail _ _ Hord) as Hb.
    destruct (is_name n "pattern"); [apply fbind_total; [apply c_pattern_total|]; intros re _; apply IH; assumption|].
    destruct (is_name n "fractionDigits"); [apply fbind_total; [apply parsed_total|]; intros k _; apply IH; assumption|].
    destruct (is_name n "totalDigits"); [apply fbind_total; [apply parsed_total|]; intros k _; apply IH; assumption|]. unfold ferr; eauto.
Qed.
Lemma pattern_total C ps : forall p, exists r, pattern_facets C p ps = Ok r.
Proof.
  induction ps as [|[n v] ps IH]; intros p; cbn [pattern_facets]; [unfold fok; eauto|].
  destruct (is_name n "pattern"); [|unfold ferr; eauto]. apply fbind_total; [apply c_pattern_total|]. intros re _. apply IH.
Qed.
Lemma fmap_total {E E' A} (g : E -> E') (x : fres E A) : (exists r, x = Ok r) -> exists r, fmap_err g x = Ok r.
Proof. intros [[a|e] ->]; cbn; eauto. Qed.
Lemma find_entry_In {A} n (l : list (string * A)) a : find_entry n l = Some a -> In a (map snd l).
Proof. induction l as [|[k b] l IH]; cbn; [discriminate|]. destruct (is_name n k); [intros E; injection E as <-; auto | auto]. Qed.
Lemma compile_total O C name ps : len_order ps -> bounds_once ps -> exists r, xsd_compile O C name ps = Ok r.
Proof.
  intros Hl Hb. unfold xsd_compile. destruct (find_entry name (facet_table O C)) as [f|] eqn:E; [|unfold ferr; eauto].
  apply find_entry_In in E. apply fmap_total.
  assert (G1 : forall mk, exists r, str_type C mk ps = Ok r).
  { intros mk. unfold str_type. apply fbind_total; [apply string_total; [exact I | exact Hl]|]. intros [a b] _. unfold fok; eauto. }
  assert (G2 : forall pz mk, exists r, int_type C pz mk ps = Ok r).
  { intros pz mk. unfold int_type. apply fbind_total; [apply bound_total; [intros v; apply parsed_total | apply bnd_open_none | exact Hb]|]. intros [a b] _. unfold fok; eauto. }
  assert (G3 : forall mk, exists r, len_type mk ps = Ok r).
  { intros mk. unfold len_type. apply fbind_total; [apply length_total; [exact I | exact Hl]|]. intros a _. unfold fok; eauto. }
  assert (G4 : forall mk, exists r, pat_type C mk ps = Ok r).
  { intros mk. unfold pat_type. apply fbind_total; [apply pattern_total|]. intros a _. unfold fok; eauto. }
  assert (G5 : exists r, double_type C ps = Ok r).
  { unfold double_type. apply fbind_total; [apply bound_total; [intros v; apply parsed_total | apply bnd_open_none | exact Hb]|]. intros [a b] _. unfold fok; eauto. }
  assert (G6 : exists r, decimal_facets O C no_bounds None None None ps = Ok r) by (apply decimal_total; [apply bnd_open_none | exact Hb]).
  cbn [facet_table map snd In] in E.
  repeat (destruct E as [<-|E]; [first [apply G1 | apply G2 | apply G3 | apply G4 | exact G5 | exact G6]|]). destruct E.
Qed.
