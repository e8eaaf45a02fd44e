(** * AccessorsProof: the accessors of facets describe the strings the type accepts. *)
From Coq Require Import QArith Qcanon String.
From Verif Require Import Base Datatype Facets Spec DatatypeSpec DatatypeProof DatatypeProof2 DatatypeMain Accessors AccessorsSpec.
Local Open Scope N_scope.

Lemma mm_fixed lo hi m z : (lo <= z <= hi)%Z ->
  (minmax_valid Z.leb Z.ltb m z = true <-> at_least Z.le (facet_min (add1_to hi) m) z /\ at_most Z.le (facet_max (sub1_from lo) m) z).
Proof.
  intros Hz. unfold minmax_valid, facet_min, facet_max, add1_to, sub1_from. rewrite andb_true_iff.
  assert (A : min_valid Z.leb Z.ltb (mm_min m) z = true <-> at_least Z.le (match mm_min m with BUnbounded => Ok None | BIncl v => Ok (Some v) | BExcl v => rbind (if (v <? hi)%Z then Ok (v + 1)%Z else Panic PUnreachable) (fun w => Ok (Some w)) end) z).
  { destruct (mm_min m) as [|v|v]; cbn [min_valid]; unfold at_least.
    - tauto.
    - apply Z.leb_le.
    - rewrite Z.ltb_lt. destruct (v <? hi)%Z eqn:E; cbn [rbind]; [lia | apply Z.ltb_ge in E; lia]. }
  assert (B : max_valid Z.leb Z.ltb (mm_max m) z = true <-> at_most Z.le (match mm_max m with BUnbounded => Ok None | BIncl v => Ok (Some v) | BExcl v => rbind (if (lo <? v)%Z then Ok (v - 1)%Z else Panic PUnreachable) (fun w => Ok (Some w)) end) z).
  { destruct (mm_max m) as [|v|v]; cbn [max_valid]; unfold at_most.
    - tauto.
    - apply Z.leb_le.
    - rewrite Z.ltb_lt. destruct (lo <? v)%Z eqn:E; cbn [rbind]; [lia | apply Z.ltb_ge in E; lia]. }
  rewrite A, B. reflexivity.
Qed.

Lemma int_access O C name reads lo hi ps d : int_kind name reads lo hi -> compiles O C name ps d ->
  exists m p, int_parts d = Some (m, p) /\ Last_pattern ps p /\
    forall s, fits O d s <-> (exists z, reads s z /\ (lo <= z <= hi)%Z /\ at_least Z.le (facet_min (add1_to hi) m) z /\ at_most Z.le (facet_max (sub1_from lo) m) z) /\ pattern_holds O p s.
Proof.
  intros HK E. apply compiles_xsd in E as (t & -> & E).
  assert (G : forall pz mk, (forall s z, pz s = Some z <-> reads s z /\ (lo <= z <= hi)%Z) ->
    (forall f q, int_parts (DXsd (mk f q)) = Some (f, q)) -> (forall v k k', reads v k -> reads v k' -> k = k') ->
    (forall f q s, xsd_valid O (mk f q) s = Ok (int_ok f (pz s) && patt_ok O q s)) -> fmap_err DFacet (int_type C pz mk ps) = Ok (inl t) ->
    exists m p, int_parts (DXsd t) = Some (m, p) /\ Last_pattern ps p /\
    forall s, fits O (DXsd t) s <-> (exists z, reads s z /\ (lo <= z <= hi)%Z /\ at_least Z.le (facet_min (add1_to hi) m) z /\ at_most Z.le (facet_max (sub1_from lo) m) z) /\ pattern_holds O p s).
  { intros pz mk Hp Hm Hf Hv E'. unfold fmap_err, rbind in E'. destruct (int_type C pz mk ps) as [[t'|e]| |] eqn:Ei; try discriminate. injection E' as ->.
    destruct (int_type_ok O C pz mk reads lo hi ps t Hp Hf Ei) as (f & q & -> & HL & _). exists f, q. split; [apply Hm|]. split; [exact HL|].
    intros s. rewrite fits_xsd, Hv. rewrite <- patt_ok_holds.
    transitivity (int_ok f (pz s) && patt_ok O q s = true); [split; congruence|]. rewrite andb_true_iff.
    assert (HI : int_ok f (pz s) = true <-> exists z, reads s z /\ (lo <= z <= hi)%Z /\ at_least Z.le (facet_min (add1_to hi) f) z /\ at_most Z.le (facet_max (sub1_from lo) f) z).
    { unfold int_ok. split.
      - destruct (pz s) as [z|] eqn:Ez; [|discriminate]. intros H. apply Hp in Ez as [Hz Hr]. exists z. split; [exact Hz|]. split; [exact Hr|]. apply (proj1 (mm_fixed lo hi f z Hr) H).
      - intros (z & Hz & Hr & Ha). rewrite (proj2 (Hp s z)) by auto. apply (proj2 (mm_fixed lo hi f z Hr) Ha). }
    rewrite HI. reflexivity. }
  inversion HK; subst.
  - apply (G (parse_signed (-32768) 32767) XShort); [apply parse_signed_lit | reflexivity | exact Int_fun | reflexivity | exact E].
  - apply (G (parse_signed (-2147483648) 2147483647) XInt); [apply parse_signed_lit | reflexivity | exact Int_fun | reflexivity | exact E].
  - apply (G (parse_signed (-9223372036854775808) 9223372036854775807) XLong); [apply parse_signed_lit | reflexivity | exact Int_fun | reflexivity | exact E].
  - apply (G (parse_unsigned 65535) XUnsignedShort); [apply parse_unsigned_lit | reflexivity | exact Unsigned_fun | reflexivity | exact E].
  - apply (G (parse_unsigned 4294967295) XUnsignedInt); [apply parse_unsigned_lit | reflexivity | exact Unsigned_fun | reflexivity | exact E].
  - apply (G (parse_unsigned 18446744073709551615) XUnsignedLong); [apply parse_unsigned_lit | reflexivity | exact Unsigned_fun | reflexivity | exact E].
Qed.

Lemma mm_big m z :
  (minmax_valid Z.leb Z.ltb m z = true <-> at_least Z.le (facet_min add1_big m) z /\ at_most Z.le (facet_max sub1_big m) z).
Proof.
  unfold minmax_valid, facet_min, facet_max, add1_big, sub1_big. rewrite andb_true_iff.
  assert (A : min_valid Z.leb Z.ltb (mm_min m) z = true <-> at_least Z.le (match mm_min m with BUnbounded => Ok None | BIncl v => Ok (Some v) | BExcl v => rbind (Ok (v + 1)%Z) (fun w => Ok (Some w)) end) z).
  { destruct (mm_min m) as [|v|v]; cbn [min_valid rbind]; unfold at_least; [tauto | apply Z.leb_le | rewrite Z.ltb_lt; lia]. }
  assert (B : max_valid Z.leb Z.ltb (mm_max m) z = true <-> at_most Z.le (match mm_max m with BUnbounded => Ok None | BIncl v => Ok (Some v) | BExcl v => rbind (Ok (v - 1)%Z) (fun w => Ok (Some w)) end) z).
  { destruct (mm_max m) as [|v|v]; cbn [max_valid rbind]; unfold at_most; [tauto | apply Z.leb_le | rewrite Z.ltb_lt; lia]. }
  rewrite A, B. reflexivity.
Qed.
Lemma mm_nonneg m z : (0 <= z)%Z ->
  (minmax_valid Z.leb Z.ltb m z = true <-> at_least Z.le (facet_min add1_big m) z /\ at_most Z.le (facet_max (sub1_from 0) m) z).
Proof.
  intros Hz. rewrite mm_big. unfold facet_max, sub1_big, sub1_from. destruct (mm_max m) as [|v|v]; cbn [rbind at_most]; try tauto.
  destruct (0 <? v)%Z eqn:E; cbn [rbind at_most]; [tauto|]. apply Z.ltb_ge in E. lia.
Qed.
Lemma big_access O C ps d : compiles O C "integer" ps d -> exists m p, int_parts d = Some (m, p) /\ Last_pattern ps p /\
    forall s, fits O d s <-> (exists z, Int_u s z /\ at_least Z.le (facet_min add1_big m) z /\ at_most Z.le (facet_max sub1_big m) z) /\ pattern_holds O p s.
Proof.
  intros E. apply compiles_xsd in E as (t & -> & E). assert (E' : int_type C parse_bigint XInteger ps = Ok (inl t)) by (apply (fmap_ok DFacet); exact E).
  destruct (big_type_ok O C _ _ Int_u ps t bigint_lit Int_u_fun E') as (f & q & -> & HL & _). exists f, q. split; [reflexivity|]. split; [exact HL|].
  intros s. rewrite fits_xsd, <- patt_ok_holds. cbn [xsd_valid].
  transitivity (int_ok f (parse_bigint s) && patt_ok O q s = true); [split; congruence|]. rewrite andb_true_iff.
  assert (HI : int_ok f (parse_bigint s) = true <-> exists z, Int_u s z /\ at_least Z.le (facet_min add1_big f) z /\ at_most Z.le (facet_max sub1_big f) z).
  { unfold int_ok. split.
    - destruct (parse_bigint s) as [z|] eqn:Ez; [|discriminate]. intros H. apply bigint_lit in Ez. exists z. split; [exact Ez | apply mm_big; exact H].
    - intros (z & Hz & Ha). rewrite (proj2 (bigint_lit s z)) by exact Hz. apply mm_big; exact Ha. }
  rewrite HI. reflexivity.
Qed.
Lemma Unsigned_u_nonneg s z : Unsigned_u s z -> (0 <= z)%Z.
Proof. intros H. inversion H; lia. Qed.
Lemma pos_access O C ps d : compiles O C "positiveInteger" ps d -> exists m p, int_parts d = Some (m, p) /\ Last_pattern ps p /\
    forall s, fits O d s <-> (exists z, Unsigned_u s z /\ at_least Z.le (facet_min add1_big m) z /\ at_most Z.le (facet_max (sub1_from 0) m) z) /\ pattern_holds O p s.
Proof.
  intros E. apply compiles_xsd in E as (t & -> & E). set (pz := fun s => option_map Z.of_N (parse_biguint s)) in *.
  assert (E' : int_type C pz XPositiveInteger ps = Ok (inl t)) by (apply (fmap_ok DFacet); exact E).
  destruct (big_type_ok O C pz _ Unsigned_u ps t biguint_Z Unsigned_u_fun E') as (f & q & -> & HL & _). exists f, q. split; [reflexivity|]. split; [exact HL|].
  intros s. rewrite fits_xsd, <- patt_ok_holds. change (xsd_valid O (XPositiveInteger f q) s) with (Ok (int_ok f (pz s) && patt_ok O q s)).
  transitivity (int_ok f (pz s) && patt_ok O q s = true); [split; congruence|]. rewrite andb_true_iff.
  assert (HI : int_ok f (pz s) = true <-> exists z, Unsigned_u s z /\ at_least Z.le (facet_min add1_big f) z /\ at_most Z.le (facet_max (sub1_from 0) f) z).
  { unfold int_ok. split.
    - destruct (pz s) as [z|] eqn:Ez; [|discriminate]. intros H. apply biguint_Z in Ez. exists z. split; [exact Ez | apply mm_nonneg; [apply (Unsigned_u_nonneg s z Ez) | exact H]].
    - intros (z & Hz & Ha). rewrite (proj2 (biguint_Z s z) Hz : pz s = Some z). apply mm_nonneg; [apply (Unsigned_u_nonneg s z Hz) | exact Ha]. }
  rewrite HI. reflexivity.
Qed.

(** ** strings *)
Lemma len_access l s : length_valid l s = true <->
  (forall a, min_len l = Some a -> a <= N.of_nat (List.length s)) /\ (forall b, max_len l = Some b -> N.of_nat (List.length s) <= b).
Proof.
  destruct l as [|m|m|a b|n]; cbn [length_valid min_len max_len].
  - split; [intros _; split; intros x H; discriminate H | reflexivity].
  - rewrite N.leb_le. split; [intros H; split; intros x E; [injection E as <-; exact H | discriminate E] | intros [H _]; apply H; reflexivity].
  - rewrite N.leb_le. split; [intros H; split; intros x E; [discriminate E | injection E as <-; exact H] | intros [_ H]; apply H; reflexivity].
  - rewrite andb_true_iff, !N.leb_le. split; [intros [H1 H2]; split; intros x E; injection E as <-; assumption | intros [H1 H2]; split; [apply H1 | apply H2]; reflexivity].
  - rewrite N.eqb_eq. split; [intros ->; split; intros x E; injection E as <-; lia | intros [H1 H2]; apply N.le_antisymm; [apply H2 | apply H1]; reflexivity].
Qed.
Lemma string_access O C ps d : compiles O C "string" ps d -> exists l p, string_parts d = Some (l, p) /\ Last_pattern ps p /\
  forall s, fits O d s <-> ((forall a, min_len l = Some a -> a <= N.of_nat (List.length s)) /\ (forall b, max_len l = Some b -> N.of_nat (List.length s) <= b)) /\ pattern_holds O p s.
Proof.
  intros E. apply compiles_xsd in E as (t & -> & E). assert (E' : str_type C XString ps = Ok (inl t)) by (apply (fmap_ok DFacet); exact E).
  unfold str_type in E'. apply fbind_ok in E' as ([f q] & E1 & E2). injection E2 as <-. destruct (string_facets_ok _ _ _ _ _ _ E1) as [K _].
  exists f, q. split; [reflexivity|]. split; [exact K|]. intros s. rewrite fits_xsd, <- patt_ok_holds, <- len_access, <- andb_true_iff. cbn [xsd_valid]. split; congruence.
Qed.
Lemma normalized_access O C ps d : compiles O C "normalizedString" ps d -> exists l p, string_parts d = Some (l, p) /\ Last_pattern ps p /\
  forall s, let n := normalize_whitespace s in fits O d s <-> ((forall a, min_len l = Some a -> a <= N.of_nat (List.length n)) /\ (forall b, max_len l = Some b -> N.of_nat (List.length n) <= b)) /\ pattern_holds O p n.
Proof.
  intros E. apply compiles_xsd in E as (t & -> & E). assert (E' : str_type C XNormalizedString ps = Ok (inl t)) by (apply (fmap_ok DFacet); exact E).
  unfold str_type in E'. apply fbind_ok in E' as ([f q] & E1 & E2). injection E2 as <-. destruct (string_facets_ok _ _ _ _ _ _ E1) as [K _].
  exists f, q. split; [reflexivity|]. split; [exact K|]. intros s n. subst n. rewrite fits_xsd, <- patt_ok_holds, <- len_access, <- andb_true_iff. cbn [xsd_valid]. split; congruence.
Qed.

(** ** [bounded] *)
Lemma len_bounded_none l : len_bounded l = false <-> min_len l = None /\ max_len l = None.
Proof. destruct l; cbn; split; try discriminate; try tauto; intros [H H']; discriminate. Qed.
Lemma mm_bounded_none {T} (a1 s1 : T -> res T) m : mm_bounded m = false <-> facet_min a1 m = Ok None /\ facet_max s1 m = Ok None.
Proof.
  unfold mm_bounded, facet_min, facet_max. destruct (mm_min m) as [|v|v]; destruct (mm_max m) as [|w|w];
    (split; [intros H; try discriminate H; split; reflexivity | intros [H H']; try reflexivity; exfalso]); try discriminate H; try discriminate H';
    repeat match goal with K : rbind ?x _ = _ |- _ => destruct x; discriminate K end.
Qed.

(** ** decimal, without exclusive bounds *)
Definition incl_only {T} (m : minmax T) : Prop := (forall v, mm_min m <> BExcl v) /\ (forall v, mm_max m <> BExcl v).
Lemma bound_incl {T} (ltb leb : T -> T -> bool) parse f n v r f' : n <> lit "minExclusive" -> n <> lit "maxExclusive" -> incl_only f ->
  bound_param ltb leb parse f n v = Some r -> r = Ok (inl f') -> incl_only f'.
Proof.
  intros N1 N2 [H1 H2]. unfold bound_param.
  destruct (is_name n "minInclusive").
  - intros E1 E2. injection E1 as <-. apply fbind_ok in E2 as (k & _ & E). unfold min_inclusive in E.
    assert (G : f' = MinMax (BIncl k) (mm_max f)).
    { destruct (mm_max f) as [|x|x]; [|destruct (ltb x k); [discriminate E|]|destruct (leb x k); [discriminate E|]]; destruct (mm_min f); try discriminate E; injection E as <-; reflexivity. }
    subst f'. split; cbn [mm_min mm_max]; [discriminate | exact H2].
  - destruct (is_name n "minExclusive") eqn:E0; [apply is_name_true in E0; contradiction|].
    destruct (is_name n "maxInclusive").
    + intros E1 E2. injection E1 as <-. apply fbind_ok in E2 as (k & _ & E). unfold max_inclusive in E.
      destruct (match mm_min f with BUnbounded => false | BIncl mn => ltb k mn | BExcl mn => leb k mn end); [discriminate E|].
      destruct (mm_max f); try discriminate E. injection E as <-. split; cbn [mm_min mm_max]; [exact H1 | discriminate].
    + destruct (is_name n "maxExclusive") eqn:E3; [apply is_name_true in E3; contradiction | discriminate].
Qed.
Lemma decimal_incl O C ps : forall f p fd td m q fd' td', ~ In (lit "minExclusive") (map fst ps) -> ~ In (lit "maxExclusive") (map fst ps) -> incl_only f ->
  decimal_facets O C f p fd td ps = Ok (inl (XDecimal m q fd' td')) -> incl_only m.
Proof.
  induction ps as [|[n v] ps IH]; intros f p fd td m q fd' td' N1 N2 Hf; cbn [decimal_facets].
  - intros E. injection E as <- _ _ _. exact Hf.
  - cbn [map fst] in N1, N2. assert (A : n <> lit "minExclusive") by (intros ->; apply N1; left; reflexivity). assert (B : n <> lit "maxExclusive") by (intros ->; apply N2; left; reflexivity).
    assert (A' : ~ In (lit "minExclusive") (map fst ps)) by (intros H; apply N1; right; exact H). assert (B' : ~ In (lit "maxExclusive") (map fst ps)) by (intros H; apply N2; right; exact H).
    destruct (bound_param qc_ltb qc_leb (p_decimal O) f n v) as [r|] eqn:Eb.
    + intros E. apply fbind_ok in E as (f1 & E1 & E2). exact (IH _ _ _ _ _ _ _ _ A' B' (bound_incl _ _ _ _ _ _ _ _ A B Hf Eb E1) E2).
    + destruct (is_name n "pattern"); [intros E; apply fbind_ok in E as (x & _ & E); exact (IH _ _ _ _ _ _ _ _ A' B' Hf E)|].
      destruct (is_name n "fractionDigits"); [intros E; apply fbind_ok in E as (x & _ & E); exact (IH _ _ _ _ _ _ _ _ A' B' Hf E)|].
      destruct (is_name n "totalDigits"); [intros E; apply fbind_ok in E as (x & _ & E); exact (IH _ _ _ _ _ _ _ _ A' B' Hf E) | discriminate].
Qed.
Lemma decimal_access O C ps d : ~ In (lit "minExclusive") (map fst ps) -> ~ In (lit "maxExclusive") (map fst ps) -> compiles O C "decimal" ps d ->
  exists m p, decimal_parts d = Some (m, p) /\ Last_pattern ps p /\ forall s, fits O d s <-> (exists x, o_decimal O s = Some x /\ at_least Qcle (facet_min add1_dec m) x /\ at_most Qcle (facet_max sub1_dec m) x) /\ pattern_holds O p s.
Proof.
  intros N1 N2 E. apply compiles_xsd in E as (t & -> & E). assert (E' : decimal_facets O C no_bounds None None None ps = Ok (inl t)) by (apply (fmap_ok DFacet); exact E).
  destruct (decimal_facets_ok _ _ _ _ _ _ _ _ E') as (m & q & fd & td & -> & K & _). exists m, q. split; [reflexivity|]. split; [exact K|].
  assert (I : incl_only (no_bounds : minmax Qc)) by (split; intros v; discriminate).
  destruct (decimal_incl O C ps _ _ _ _ _ _ _ _ N1 N2 I E') as [I1 I2].
  intros s. rewrite fits_xsd, <- patt_ok_holds. cbn [xsd_valid].
  transitivity (dec_ok m (o_decimal O s) && patt_ok O q s = true); [split; congruence|]. rewrite andb_true_iff.
  assert (G : forall x, minmax_valid qc_leb qc_ltb m x = true <-> at_least Qcle (facet_min add1_dec m) x /\ at_most Qcle (facet_max sub1_dec m) x).
  { intros x. unfold minmax_valid, facet_min, facet_max. rewrite andb_true_iff.
    destruct (mm_min m) as [|v|v]; [| |exfalso; exact (I1 v eq_refl)]; (destruct (mm_max m) as [|w|w]; [| |exfalso; exact (I2 w eq_refl)]); cbn [min_valid max_valid at_least at_most]; rewrite ?qc_leb_le; tauto. }
  assert (HI : dec_ok m (o_decimal O s) = true <-> exists x, o_decimal O s = Some x /\ at_least Qcle (facet_min add1_dec m) x /\ at_most Qcle (facet_max sub1_dec m) x).
  { unfold dec_ok. split.
    - destruct (o_decimal O s) as [x|]; [|discriminate]. intros H. exists x. split; [reflexivity | apply G; exact H].
    - intros (x & -> & H). apply G; exact H. }
  rewrite HI. reflexivity.
Qed.
