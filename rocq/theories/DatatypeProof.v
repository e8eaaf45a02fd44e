(** * DatatypeProof: the datatypes of the code against DatatypeSpec. *)
From Coq Require Import QArith Qcanon String.
From Verif Require Import Base Regex Datatype Facets Spec Words DatatypeSpec.
Local Open Scope N_scope.

(** ** Numerals *)
Lemma digit_val_Some c d : Datatype.digit_val c = Some d <-> digit c /\ d = c - 48.
Proof.
  unfold Datatype.digit_val, digit. destruct ((48 <=? c) && (c <=? 57)) eqn:E.
  - apply andb_prop in E as [E1 E2]. apply N.leb_le in E1, E2. split; [intros H; injection H as <-; auto | intros [_ ->]; reflexivity].
  - split; [discriminate|]. intros [[H1 H2] _]. apply N.leb_le in H1, H2. rewrite H1, H2 in E; discriminate E.
Qed.
Lemma digits_app acc s t : Datatype.digits_val acc (s ++ t) = match Datatype.digits_val acc s with Some n => Datatype.digits_val n t | None => None end.
Proof.
  revert acc; induction s as [|c s IH]; intros acc; [reflexivity|]. cbn [app Datatype.digits_val].
  destruct (Datatype.digit_val c); [apply IH | reflexivity].
Qed.
Lemma nat_val_Digits s n : nat_val s = Some n <-> Digits s n.
Proof.
  split.
  - revert n. induction s as [|d s IH] using rev_ind; intros n; [discriminate|].
    assert (E : nat_val (s ++ [d]) = Datatype.digits_val 0 (s ++ [d])) by (destruct s; reflexivity). rewrite E, digits_app.
    destruct (Datatype.digits_val 0 s) as [m|] eqn:Em; [|discriminate]. cbn [Datatype.digits_val].
    destruct (Datatype.digit_val d) as [k|] eqn:Ed; [|discriminate]. intros H; injection H as <-. apply digit_val_Some in Ed as [Hd ->].
    destruct s as [|c s]; [injection Em as <-; cbn [app]; replace (10 * 0 + (d - 48)) with (d - 48) by lia; constructor; exact Hd|].
    constructor; [apply IH; exact Em | exact Hd].
  - induction 1 as [d Hd|ds n d Hds IH Hd].
    + cbn. rewrite (proj2 (digit_val_Some d (d - 48))) by auto. f_equal; lia.
    + assert (E : nat_val (ds ++ [d]) = Datatype.digits_val 0 (ds ++ [d])) by (destruct ds; reflexivity). rewrite E, digits_app.
      assert (E2 : Datatype.digits_val 0 ds = Some n) by (destruct ds; [discriminate IH | exact IH]). rewrite E2. cbn [Datatype.digits_val].
      rewrite (proj2 (digit_val_Some d (d - 48))) by auto. reflexivity.
Qed.
Lemma Digits_cons s n : Digits s n -> exists c r, s = c :: r /\ digit c.
Proof. induction 1 as [d Hd|ds n d Hds (c & r & -> & Hc) Hd]; [eauto | cbn; eauto]. Qed.
Lemma Digits_not_sign s n c r : Digits s n -> s = c :: r -> c <> 43 /\ c <> 45.
Proof. intros H E. apply Digits_cons in H as (c' & r' & -> & Hc). injection E as -> ->. unfold digit in Hc. lia. Qed.
Lemma signed_Some c s t : signed_by c s = Some t <-> s = c :: t.
Proof.
  destruct s as [|x s]; [split; discriminate|]. cbn. destruct (N.eqb_spec x c) as [->|H]; split; intros E; try discriminate E; try (injection E as <-; reflexivity); injection E as -> ->; congruence.
Qed.
Lemma signed_Digits c s n : c = 43 \/ c = 45 -> Digits s n -> signed_by c s = None.
Proof.
  intros Hc H. apply Digits_cons in H as (x & r & -> & Hx). cbn. destruct (N.eqb_spec x c) as [->|]; [|reflexivity]. unfold digit in Hx. lia.
Qed.
Definition usig (s : str) : option N := match signed_by 43 s with Some t => nat_val t | None => nat_val s end.
Lemma usig_lit s n : usig s = Some n <-> Unsigned_lit s (Z.of_N n).
Proof.
  unfold usig. split.
  - destruct (signed_by 43 s) as [t|] eqn:E; intros H; apply nat_val_Digits in H.
    + apply signed_Some in E as ->. constructor; exact H.
    + constructor; exact H.
  - intros H. inversion H as [s' m Hd E1 E2|s' m Hd E1 E2]; apply N2Z.inj in E2; subst m.
    + rewrite (signed_Digits 43 s n) by auto. apply nat_val_Digits; exact Hd.
    + cbn. apply nat_val_Digits; exact Hd.
Qed.
Lemma parse_unsigned_lit hi s z : parse_unsigned hi s = Some z <-> Unsigned_lit s z /\ (0 <= z <= hi)%Z.
Proof.
  change (parse_unsigned hi s) with (match usig s with Some n => if (Z.of_N n <=? hi)%Z then Some (Z.of_N n) else None | None => None end).
  split.
  - destruct (usig s) as [n|] eqn:E; [|discriminate]. destruct (Z.leb_spec (Z.of_N n) hi) as [Hle|]; [|discriminate].
    intros H; injection H as <-. split; [apply usig_lit; exact E | lia].
  - intros [H Hr]. rewrite <- (Z2N.id z) in H by lia. apply usig_lit in H. rewrite H, Z2N.id by lia. destruct (Z.leb_spec z hi); [reflexivity | lia].
Qed.
Definition ssig (s : str) : option Z :=
  match signed_by 45 s with Some t => option_map (fun n => (- Z.of_N n)%Z) (nat_val t) | None => option_map Z.of_N (usig s) end.
Lemma ssig_lit s z : ssig s = Some z <-> Int_lit s z.
Proof.
  unfold ssig. destruct (signed_by 45 s) as [t|] eqn:E.
  - apply signed_Some in E as ->. split.
    + destruct (nat_val t) as [n|] eqn:E; [|discriminate]. intros H; injection H as <-. apply Il_minus, nat_val_Digits; exact E.
    + intros H. inversion H as [? ? Hu E1 E2|? n Hd E1 E2]; subst; [|apply nat_val_Digits in Hd; rewrite Hd; reflexivity].
      inversion Hu as [? ? Hd E1 E2|]; subst. apply (signed_Digits 45) in Hd; [|auto]. cbn in Hd. discriminate Hd.
  - split.
    + destruct (usig s) as [n|] eqn:E'; [|discriminate]. intros H; injection H as <-. apply Il_unsigned, usig_lit; exact E'.
    + intros H. inversion H as [? ? Hu E1 E2|? n Hd E1 E2]; subst; [|discriminate E].
      assert (Hz : (0 <= z)%Z) by (inversion Hu; lia). rewrite <- (Z2N.id z) in Hu by exact Hz. apply usig_lit in Hu. rewrite Hu. cbn. rewrite Z2N.id by exact Hz. reflexivity.
Qed.
Lemma parse_signed_lit lo hi s z : parse_signed lo hi s = Some z <-> Int_lit s z /\ (lo <= z <= hi)%Z.
Proof.
  assert (E : parse_signed lo hi s = match ssig s with Some z => if ((lo <=? z) && (z <=? hi))%Z then Some z else None | None => None end).
  { unfold parse_signed, ssig, usig. destruct (signed_by 43 s) as [t|] eqn:E1; [|reflexivity]. apply signed_Some in E1 as ->. reflexivity. }
  rewrite E. split.
  - destruct (ssig s) as [n|] eqn:E'; [|discriminate]. destruct ((lo <=? n) && (n <=? hi))%Z eqn:Er; [|discriminate].
    intros H; injection H as <-. apply andb_prop in Er as [E1 E2]. split; [apply ssig_lit; exact E' | lia].
  - intros [H Hr]. apply ssig_lit in H. rewrite H. replace ((lo <=? z) && (z <=? hi))%Z with true; [reflexivity|]. symmetry; apply andb_true_intro; split; lia.
Qed.
(** num_bigint, on strings without underscores *)
Lemma strip_none s : ~ In 95 s -> strip_underscores s = s.
Proof.
  unfold strip_underscores. induction s as [|c s IH]; intros H; [reflexivity|]. cbn.
  destruct (N.eqb_spec c 95) as [->|]; [destruct H; left; reflexivity|]. cbn. f_equal. apply IH. intros Hi; apply H; right; exact Hi.
Qed.
Lemma biguint_usig s : ~ In 95 s -> parse_biguint s = usig s.
Proof.
  intros H. unfold parse_biguint, usig, starts_with.
  assert (Hbody : forall t, ~ In 95 t -> match t with [] => None | c :: _ => if c =? 95 then None else Datatype.digits_val 0 (strip_underscores t) end = nat_val t).
  { intros [|x t] Ht; [reflexivity|]. destruct (N.eqb_spec x 95) as [->|]; [destruct Ht; left; reflexivity|]. rewrite strip_none by exact Ht. reflexivity. }
  destruct (signed_by 43 s) as [t|] eqn:E; [|apply Hbody; exact H]. apply signed_Some in E as ->.
  assert (Ht : ~ In 95 t) by (intros Hi; apply H; right; exact Hi).
  destruct (signed_by 43 t) as [u|] eqn:E; [|apply Hbody; exact Ht]. apply signed_Some in E as ->.
  rewrite strip_none by exact H. reflexivity.
Qed.
Lemma bigint_ssig s : ~ In 95 s -> parse_bigint s = ssig s.
Proof.
  intros H. unfold parse_bigint, ssig, starts_with. destruct (signed_by 45 s) as [t|] eqn:E; [|rewrite biguint_usig by exact H; reflexivity].
  apply signed_Some in E as ->. assert (Ht : ~ In 95 t) by (intros Hi; apply H; right; exact Hi). f_equal.
  destruct (signed_by 43 t) as [u|] eqn:E.
  - rewrite biguint_usig by exact H. apply signed_Some in E as ->. reflexivity.
  - rewrite biguint_usig by exact Ht. unfold usig. rewrite E. reflexivity.
Qed.

(** ** Facet lists *)
Lemma is_name_true n k : is_name n k = true <-> n = lit k.
Proof. apply str_eqb_eq. Qed.
Lemma is_name_false n k : is_name n k = false <-> n <> lit k.
Proof. apply str_eqb_neq. Qed.
Ltac names :=
  repeat match goal with
  | H : is_name _ _ = true |- _ => apply is_name_true in H
  | H : is_name _ _ = false |- _ => apply is_name_false in H
  end.
Lemma fbind_ok {E A B} (x : fres E A) (f : A -> fres E B) b : fbind x f = Ok (inl b) -> exists a, x = Ok (inl a) /\ f a = Ok (inl b).
Proof. unfold fbind, rbind. destruct x as [[a|e]| |]; intros H; try discriminate. exists a; auto. Qed.
Lemma parsed_ok {A} e (o : option A) a : parsed e o = Ok (inl a) -> o = Some a.
Proof. destruct o; cbn; intros H; [injection H as <-; reflexivity | discriminate]. Qed.

(** the pattern kept is the last one *)
Definition keeps (p : pattern_facet) (ps : params) (q : pattern_facet) : Prop :=
  match p with None => Last_pattern ps q | Some v => Last_pattern ((lit "pattern", v) :: ps) q end.
Lemma keeps_nil p : keeps p [] p.
Proof. destruct p as [v|]; cbn; [apply (Lp_some [] v []); intros w [] | apply Lp_none; intros w []]. Qed.
Lemma keeps_other p n v ps q : n <> lit "pattern" -> keeps p ps q -> keeps p ((n, v) :: ps) q.
Proof.
  intros Hn. destruct p as [w|]; cbn; intros H.
  - inversion H as [ps' Hx E1 E2|a x b Hx E1 E2]; subst.
    + exfalso. apply (Hx w). left; reflexivity.
    + destruct a as [|y a]; cbn [app] in E1; inversion E1; subst.
      * apply (Lp_some [] w ((n, v) :: ps)). intros z [E|Hz]; [congruence | exact (Hx z Hz)].
      * apply (Lp_some ((lit "pattern", w) :: (n, v) :: a) x b). exact Hx.
  - inversion H as [ps' Hx E1 E2|a x b Hx E1 E2]; subst.
    + apply Lp_none. intros z [E|Hz]; [congruence | exact (Hx z Hz)].
    + apply (Lp_some ((n, v) :: a) x b). exact Hx.
Qed.
Lemma keeps_pattern p v ps q : keeps (Some v) ps q -> keeps p ((lit "pattern", v) :: ps) q.
Proof.
  destruct p as [w|]; cbn; intros H; [|exact H].
  inversion H as [ps' Hx E1 E2|a x b Hx E1 E2]; subst; [exfalso; apply (Hx v); left; reflexivity|].
  apply (Lp_some ((lit "pattern", w) :: a) x b). exact Hx.
Qed.
Lemma Last_pattern_fun ps q q' : Last_pattern ps q -> Last_pattern ps q' -> q = q'.
Proof.
  intros H H'. inversion H as [? Hx E1 E2|a x b Hx E1 E2]; inversion H' as [? Hy E3 E4|a' y b' Hy E3 E4]; subst; auto.
  - exfalso. apply (Hx y). apply in_or_app; right; left; reflexivity.
  - exfalso. apply (Hy x). apply in_or_app; right; left; reflexivity.
  - assert (G : forall (a a' b b' : params), (forall w, ~ In (lit "pattern", w) b) -> (forall w, ~ In (lit "pattern", w) b') ->
      a' ++ (lit "pattern", y) :: b' = a ++ (lit "pattern", x) :: b -> x = y).
    { clear. induction a as [|z a IH]; intros [|z' a'] b b' Hb Hb' E; cbn in E.
      - injection E as ->; auto.
      - injection E as _ <-. exfalso. apply (Hb y). apply in_or_app; right; left; reflexivity.
      - injection E as _ ->. exfalso. apply (Hb' x). apply in_or_app; right; left; reflexivity.
      - injection E as _ E. apply (IH a' b b'); assumption. }
    f_equal. apply (G a a' b b'); assumption.
Qed.

(** *** lengths *)
Lemma lengths_cons n v ps s : lengths_satisfied ((n, v) :: ps) s <-> lengths_satisfied [(n, v)] s /\ lengths_satisfied ps s.
Proof.
  unfold lengths_satisfied. split.
  - intros H. split; intros m w Hin; apply H; [destruct Hin as [E|[]]; left; exact E | right; exact Hin].
  - intros [H1 H2] m w [E|Hin]; [apply H1; left; exact E | apply H2; exact Hin].
Qed.
Lemma lengths_one n v s : lengths_satisfied [(n, v)] s <->
    (n = lit "length" -> exists k, Unsigned_lit v k /\ Z.of_nat (List.length s) = k) /\
    (n = lit "minLength" -> exists k, Unsigned_lit v k /\ (k <= Z.of_nat (List.length s))%Z) /\
    (n = lit "maxLength" -> exists k, Unsigned_lit v k /\ (Z.of_nat (List.length s) <= k)%Z).
Proof. unfold lengths_satisfied. split; [intros H; apply (H n v); left; reflexivity | intros H m w [E|[]]; injection E as <- <-; exact H]. Qed.
Lemma Unsigned_fun v k k' : Unsigned_lit v k -> Unsigned_lit v k' -> k = k'.
Proof.
  intros H H'. assert (Hk : (0 <= k)%Z) by (inversion H; lia). assert (Hk' : (0 <= k')%Z) by (inversion H'; lia).
  rewrite <- (Z2N.id k) in H by exact Hk. rewrite <- (Z2N.id k') in H' by exact Hk'. apply usig_lit in H, H'. rewrite H in H'. injection H' as E. lia.
Qed.
Lemma p_usize_ok v k : p_usize v = Ok (inl k) -> Unsigned_lit v (Z.of_N k).
Proof.
  unfold p_usize. intros H. apply parsed_ok in H. destruct (parse_unsigned _ v) as [z|] eqn:E; [|discriminate]. injection H as <-.
  apply parse_unsigned_lit in E as [E Hz]. rewrite Z2N.id by lia. exact E.
Qed.
Lemma merge_min f k f' : merge_length f (LMin k) = Ok (inl f') -> forall s, length_valid f' s = true <-> length_valid f s = true /\ k <= N.of_nat (List.length s).
Proof. destruct f; cbn; intros E s; try discriminate; injection E as <-. cbn. rewrite N.leb_le. tauto. Qed.
Lemma merge_max f k f' : merge_length f (LMax k) = Ok (inl f') -> forall s, length_valid f' s = true <-> length_valid f s = true /\ N.of_nat (List.length s) <= k.
Proof.
  destruct f as [|m|m|a b|m]; cbn; intros E s; try discriminate.
  - injection E as <-. cbn. rewrite N.leb_le. tauto.
  - destruct (k <? m); [discriminate|]. injection E as <-. cbn. rewrite andb_true_iff, !N.leb_le. tauto.
Qed.
Lemma merge_len f k f' : merge_length f (LLength k) = Ok (inl f') -> forall s, length_valid f' s = true <-> length_valid f s = true /\ N.of_nat (List.length s) = k.
Proof. destruct f; cbn; intros E s; try discriminate; injection E as <-. cbn. rewrite N.eqb_eq. tauto. Qed.
Lemma lit_neq a b : str_eqb (lit a) (lit b) = false -> lit a <> lit b.
Proof. apply str_eqb_neq. Qed.
Lemma length_param_ok f n v r f' : length_param f n v = Some r -> r = Ok (inl f') -> n <> lit "pattern" /\
  forall s, length_valid f' s = true <-> length_valid f s = true /\ lengths_satisfied [(n, v)] s.
Proof.
  unfold length_param. intros H E.
  destruct (is_name n "length") eqn:E1; [|destruct (is_name n "minLength") eqn:E2; [|destruct (is_name n "maxLength") eqn:E3; [|discriminate]]];
    injection H as <-; names; subst n; (split; [apply lit_neq; reflexivity|]); intros s; apply fbind_ok in E as (k & Hk & Hm); apply p_usize_ok in Hk; rewrite lengths_one.
  - rewrite (merge_len _ _ _ Hm s). split; intros [H1 H2]; (split; [exact H1|]).
    + split; [intros _; exists (Z.of_N k); split; [exact Hk | lia] | split; intros E; exfalso; revert E; apply lit_neq; reflexivity].
    + destruct H2 as [H2 _]. destruct (H2 eq_refl) as (k' & Hu & Hl). rewrite <- (Unsigned_fun _ _ _ Hk Hu) in Hl. lia.
  - rewrite (merge_min _ _ _ Hm s). split; intros [H1 H2]; (split; [exact H1|]).
    + split; [|split]; [intros E; exfalso; revert E; apply lit_neq; reflexivity | intros _; exists (Z.of_N k); split; [exact Hk | lia] | intros E; exfalso; revert E; apply lit_neq; reflexivity].
    + destruct H2 as (_ & H2 & _). destruct (H2 eq_refl) as (k' & Hu & Hl). rewrite <- (Unsigned_fun _ _ _ Hk Hu) in Hl. lia.
  - rewrite (merge_max _ _ _ Hm s). split; intros [H1 H2]; (split; [exact H1|]).
    + split; [|split]; [intros E; exfalso; revert E; apply lit_neq; reflexivity .. | intros _; exists (Z.of_N k); split; [exact Hk | lia]].
    + destruct H2 as (_ & _ & H2). destruct (H2 eq_refl) as (k' & Hu & Hl). rewrite <- (Unsigned_fun _ _ _ Hk Hu) in Hl. lia.
Qed.
Lemma length_param_none f n v s : length_param f n v = None -> lengths_satisfied [(n, v)] s.
Proof.
  unfold length_param. destruct (is_name n "length") eqn:E1; [discriminate|]. destruct (is_name n "minLength") eqn:E2; [discriminate|].
  destruct (is_name n "maxLength") eqn:E3; [discriminate|]. names. intros _. apply lengths_one. repeat split; intros E; congruence.
Qed.
Lemma string_facets_ok C ps : forall f p f' q, string_facets C f p ps = Ok (inl (f', q)) ->
  keeps p ps q /\ forall s, length_valid f' s = true <-> length_valid f s = true /\ lengths_satisfied ps s.
Proof.
  induction ps as [|[n v] ps IH]; intros f p f' q; cbn [string_facets].
  - intros E; injection E as <- <-. split; [apply keeps_nil|]. intros s. split; [intros H; split; [exact H | intros n v []] | tauto].
  - destruct (length_param f n v) as [r|] eqn:El.
    + intros E. apply fbind_ok in E as (f1 & E1 & E2). destruct (length_param_ok _ _ _ _ _ El E1) as [Hn H1]. destruct (IH _ _ _ _ E2) as [K H2].
      split; [apply keeps_other; assumption|]. intros s. rewrite H2, H1, (lengths_cons n v ps s). tauto.
    + destruct (is_name n "pattern") eqn:En; [|discriminate]. names; subst n. intros E. apply fbind_ok in E as (re & E1 & E2).
      unfold c_pattern in E1. destruct (co_regex_ok C v); [|discriminate E1]. injection E1 as <-. destruct (IH _ _ _ _ E2) as [K H2].
      split; [apply keeps_pattern; exact K|]. intros s. rewrite H2, (lengths_cons _ v ps s). pose proof (length_param_none f _ v s El). tauto.
Qed.
Lemma length_facets_ok ps : forall f f', length_facets f ps = Ok (inl f') ->
  forall s, length_valid f' s = true <-> length_valid f s = true /\ lengths_satisfied ps s.
Proof.
  induction ps as [|[n v] ps IH]; intros f f'; cbn [length_facets].
  - intros E; injection E as <-. intros s. split; [intros H; split; [exact H | intros n v []] | tauto].
  - destruct (length_param f n v) as [r|] eqn:El; [|discriminate].
    intros E s. apply fbind_ok in E as (f1 & E1 & E2). destruct (length_param_ok _ _ _ _ _ El E1) as [Hn H1]. rewrite (IH _ _ E2 s), H1, (lengths_cons n v ps s). tauto.
Qed.
Lemma patt_ok_holds O q s : patt_ok O q s = true <-> pattern_holds O q s.
Proof. destruct q; cbn; [reflexivity | tauto]. Qed.

(** *** bounds *)
Section BoundsProof.
Context {T : Type} (ltb leb : T -> T -> bool) (le lt : T -> T -> Prop) (parse : str -> fres facet_error T) (reads : str -> T -> Prop).
Hypothesis Hle : forall a b, leb a b = true <-> le a b.
Hypothesis Hlt : forall a b, ltb a b = true <-> lt a b.
Hypothesis Hparse : forall v k, parse v = Ok (inl k) -> reads v k.
Hypothesis Hfun : forall v k k', parse v = Ok (inl k) -> reads v k' -> k = k'.
Notation sat := (bounds_satisfied reads le lt).
Notation mmv := (minmax_valid leb ltb).
Lemma sat_cons n v ps x : sat ((n, v) :: ps) x <-> sat [(n, v)] x /\ sat ps x.
Proof.
  unfold bounds_satisfied. split.
  - intros H. split; intros m w Hin; apply H; [destruct Hin as [E|[]]; left; exact E | right; exact Hin].
  - intros [H1 H2] m w [E|Hin]; [apply H1; left; exact E | apply H2; exact Hin].
Qed.
Lemma sat_one n v x : sat [(n, v)] x <->
    (n = lit "minInclusive" -> exists k, reads v k /\ le k x) /\
    (n = lit "minExclusive" -> exists k, reads v k /\ lt k x) /\
    (n = lit "maxInclusive" -> exists k, reads v k /\ le x k) /\
    (n = lit "maxExclusive" -> exists k, reads v k /\ lt x k).
Proof. unfold bounds_satisfied. split; [intros H; apply (H n v); left; reflexivity | intros H m w [E|[]]; injection E as <- <-; exact H]. Qed.
Lemma min_incl_ok f k f' : min_inclusive ltb leb f k = Ok (inl f') -> forall x, mmv f' x = true <-> mmv f x = true /\ le k x.
Proof.
  destruct f as [mn mx]. unfold min_inclusive; cbn [mm_min mm_max]. intros E x.
  assert (Hc : mn = BUnbounded /\ f' = MinMax (BIncl k) mx).
  { destruct mx as [|m|m]; [|destruct (ltb m k); [discriminate|]|destruct (leb m k); [discriminate|]]; destruct mn; try discriminate; injection E as <-; auto. }
  destruct Hc as [-> ->]. unfold minmax_valid; cbn [mm_min mm_max min_valid]. rewrite !andb_true_iff, Hle. tauto.
Qed.
Lemma min_excl_ok f k f' : min_exclusive ltb leb f k = Ok (inl f') -> forall x, mmv f' x = true <-> mmv f x = true /\ lt k x.
Proof.
  destruct f as [mn mx]. unfold min_exclusive; cbn [mm_min mm_max]. intros E x.
  assert (Hc : mn = BUnbounded /\ f' = MinMax (BExcl k) mx).
  { destruct mx as [|m|m]; [|destruct (ltb m k); [discriminate|]|destruct (leb m k); [discriminate|]]; destruct mn; try discriminate; injection E as <-; auto. }
  destruct Hc as [-> ->]. unfold minmax_valid; cbn [mm_min mm_max min_valid]. rewrite !andb_true_iff, Hlt. tauto.
Qed.
Lemma max_incl_ok f k f' : max_inclusive ltb leb f k = Ok (inl f') -> forall x, mmv f' x = true <-> mmv f x = true /\ le x k.
Proof.
  destruct f as [mn mx]. unfold max_inclusive; cbn [mm_min mm_max]. intros E x.
  assert (Hc : mx = BUnbounded /\ f' = MinMax mn (BIncl k)).
  { destruct mn as [|m|m]; [|destruct (ltb k m); [discriminate|]|destruct (leb k m); [discriminate|]]; destruct mx; try discriminate; injection E as <-; auto. }
  destruct Hc as [-> ->]. unfold minmax_valid; cbn [mm_min mm_max max_valid]. rewrite !andb_true_iff, Hle. tauto.
Qed.
Lemma max_excl_ok f k f' : max_exclusive ltb leb f k = Ok (inl f') -> forall x, mmv f' x = true <-> mmv f x = true /\ lt x k.
Proof.
  destruct f as [mn mx]. unfold max_exclusive; cbn [mm_min mm_max]. intros E x.
  assert (Hc : mx = BUnbounded /\ f' = MinMax mn (BExcl k)).
  { destruct mn as [|m|m]; [|destruct (ltb k m); [discriminate|]|destruct (leb k m); [discriminate|]]; destruct mx; try discriminate; injection E as <-; auto. }
  destruct Hc as [-> ->]. unfold minmax_valid; cbn [mm_min mm_max max_valid]. rewrite !andb_true_iff, Hlt. tauto.
Qed.
Lemma bound_param_ok f n v r f' : bound_param ltb leb parse f n v = Some r -> r = Ok (inl f') -> n <> lit "pattern" /\
  forall x, mmv f' x = true <-> mmv f x = true /\ sat [(n, v)] x.
Proof.
  unfold bound_param. intros H E.
  destruct (is_name n "minInclusive") eqn:E1; [|destruct (is_name n "minExclusive") eqn:E2; [|destruct (is_name n "maxInclusive") eqn:E3; [|destruct (is_name n "maxExclusive") eqn:E4; [|discriminate]]]];
    injection H as <-; names; subst n; (split; [apply lit_neq; reflexivity|]); intros x; apply fbind_ok in E as (k & Hk & Hm); rewrite sat_one;
    [rewrite (min_incl_ok _ _ _ Hm x) | rewrite (min_excl_ok _ _ _ Hm x) | rewrite (max_incl_ok _ _ _ Hm x) | rewrite (max_excl_ok _ _ _ Hm x)];
    (split; [intros [H1 H2]; split; [exact H1|]; repeat split; intros E; try (exfalso; revert E; apply lit_neq; reflexivity); exists k; split; [apply Hparse; exact Hk | exact H2]
            |intros [H1 H2]; split; [exact H1|]]);
    [destruct H2 as (H2 & _) | destruct H2 as (_ & H2 & _) | destruct H2 as (_ & _ & H2 & _) | destruct H2 as (_ & _ & _ & H2)];
    destruct (H2 eq_refl) as (k' & Hr & Hl); rewrite (Hfun _ _ _ Hk Hr); exact Hl.
Qed.
Lemma bound_param_none f n v x : bound_param ltb leb parse f n v = None -> sat [(n, v)] x.
Proof.
  unfold bound_param. destruct (is_name n "minInclusive") eqn:E1; [discriminate|]. destruct (is_name n "minExclusive") eqn:E2; [discriminate|].
  destruct (is_name n "maxInclusive") eqn:E3; [discriminate|]. destruct (is_name n "maxExclusive") eqn:E4; [discriminate|].
  names. intros _. apply sat_one. repeat split; intros E; congruence.
Qed.
Lemma sat_nil x : sat [] x.
Proof. intros n v []. Qed.
Lemma bound_facets_ok C ps : forall f p f' q, bound_facets C ltb leb parse f p ps = Ok (inl (f', q)) ->
  keeps p ps q /\ forall x, mmv f' x = true <-> mmv f x = true /\ sat ps x.
Proof.
  induction ps as [|[n v] ps IH]; intros f p f' q; cbn [bound_facets].
  - intros E; injection E as <- <-. split; [apply keeps_nil|]. intros x. pose proof (sat_nil x). tauto.
  - destruct (bound_param ltb leb parse f n v) as [r|] eqn:El.
    + intros E. apply fbind_ok in E as (f1 & E1 & E2). destruct (bound_param_ok _ _ _ _ _ El E1) as [Hn H1]. destruct (IH _ _ _ _ E2) as [K H2].
      split; [apply keeps_other; assumption|]. intros x. rewrite H2, H1, (sat_cons n v ps x). tauto.
    + destruct (is_name n "pattern") eqn:En; [|discriminate]. names; subst n. intros E. apply fbind_ok in E as (re & E1 & E2).
      unfold c_pattern in E1. destruct (co_regex_ok C v); [|discriminate E1]. injection E1 as <-. destruct (IH _ _ _ _ E2) as [K H2].
      split; [apply keeps_pattern; exact K|]. intros x. rewrite H2, (sat_cons _ v ps x). pose proof (bound_param_none f _ v x El). tauto.
Qed.
Lemma bound_facets_reads C ps : forall f p f' q, bound_facets C ltb leb parse f p ps = Ok (inl (f', q)) -> forall n v, In (n, v) ps ->
   n = lit "minInclusive" \/ n = lit "minExclusive" \/ n = lit "maxInclusive" \/ n = lit "maxExclusive" -> exists k, parse v = Ok (inl k).
Proof.
  induction ps as [|[n v] ps IH]; intros f p f' q; cbn [bound_facets]; [intros _ n v []|].
  destruct (bound_param ltb leb parse f n v) as [r|] eqn:El.
  - intros E m w [Ew|Hin] Hm; apply fbind_ok in E as (f1 & E1 & E2); [|eapply IH; eassumption].
    injection Ew as <- <-. unfold bound_param in El.
    destruct (is_name n "minInclusive"); [|destruct (is_name n "minExclusive"); [|destruct (is_name n "maxInclusive"); [|destruct (is_name n "maxExclusive"); [|discriminate El]]]];
      injection El as <-; apply fbind_ok in E1 as (k & Hk & _); exists k; exact Hk.
  - destruct (is_name n "pattern") eqn:En; [|discriminate]. names; subst n. intros E m w [Ew|Hin] Hm; apply fbind_ok in E as (f1 & E1 & E2); [|eapply IH; eassumption].
    injection Ew as <- <-. exfalso. destruct Hm as [Hm|[Hm|[Hm|Hm]]]; vm_compute in Hm; discriminate Hm.
Qed.
End BoundsProof.
Lemma Int_fun v k k' : Int_lit v k -> Int_lit v k' -> k = k'.
Proof. intros H H'. apply ssig_lit in H, H'. congruence. Qed.
Lemma minmax_no_bounds {T} le lt (x : T) : minmax_valid le lt no_bounds x = true.
Proof. reflexivity. Qed.

(** ** C22, C24: integer types *)
Lemma int_type_ok O C pz mk reads lo hi ps t :
  (forall s z, pz s = Some z <-> reads s z /\ (lo <= z <= hi)%Z) -> (forall v k k', reads v k -> reads v k' -> k = k') ->
  int_type C pz mk ps = Ok (inl t) -> exists f q, t = mk f q /\ Last_pattern ps q /\
    forall s, (int_ok f (pz s) && patt_ok O q s = true <-> int_verdict O reads lo hi ps q s).
Proof.
  intros Hp Hf E. unfold int_type in E. apply fbind_ok in E as ([f q] & E1 & E2). injection E2 as <-. exists f, q. split; [reflexivity|].
  assert (HP : forall v k, p_int pz v = Ok (inl k) -> reads v k) by (intros v k H; apply parsed_ok in H; apply Hp in H; apply H).
  assert (HF : forall v k k', p_int pz v = Ok (inl k) -> reads v k' -> k = k') by (intros v k k' H H'; apply HP in H; eauto).
  destruct (bound_facets_ok Z.ltb Z.leb Z.le Z.lt (p_int pz) reads Z.leb_le Z.ltb_lt HP HF C ps _ _ _ _ E1) as [K H].
  split; [exact K|]. intros s. unfold int_verdict. rewrite andb_true_iff, patt_ok_holds.
  assert (HI : int_ok f (pz s) = true <-> exists z, reads s z /\ (lo <= z <= hi)%Z /\ bounds_satisfied reads Z.le Z.lt ps z).
  { unfold int_ok. split.
    - destruct (pz s) as [z|] eqn:Ez; [|discriminate]. intros Hm. apply H in Hm as [_ Hm]. apply Hp in Ez as [Ez Hr]. exists z; auto.
    - intros (z & Hz & Hr & Hb). rewrite (proj2 (Hp s z)) by auto. apply H. split; [apply minmax_no_bounds | exact Hb]. }
  rewrite HI. reflexivity.
Qed.
Lemma int_kind_ok O C name reads lo hi ps t : int_kind name reads lo hi -> xsd_compile O C (lit name) ps = Ok (inl t) ->
  exists q, Last_pattern ps q /\ forall s, xsd_valid O t s = Ok true <-> int_verdict O reads lo hi ps q s.
Proof.
  intros HK E. 
  assert (G : forall pz mk, (forall s z, pz s = Some z <-> reads s z /\ (lo <= z <= hi)%Z) -> (forall v k k', reads v k -> reads v k' -> k = k') ->
    (forall f q s, xsd_valid O (mk f q) s = Ok (int_ok f (pz s) && patt_ok O q s)) -> fmap_err DFacet (int_type C pz mk ps) = Ok (inl t) ->
    exists q, Last_pattern ps q /\ forall s, xsd_valid O t s = Ok true <-> int_verdict O reads lo hi ps q s).
  { intros pz mk Hp Hf Hv E'. unfold fmap_err, rbind in E'. destruct (int_type C pz mk ps) as [[t'|e]| |] eqn:Ei; try discriminate. injection E' as ->.
    destruct (int_type_ok O C pz mk reads lo hi ps t Hp Hf Ei) as (f & q & -> & HL & H). exists q. split; [exact HL|]. intros s. rewrite Hv, <- H. split; congruence. }
  inversion HK; subst.
  - apply (G (parse_signed (-32768) 32767) XShort); [apply parse_signed_lit | exact Int_fun | reflexivity | exact E].
  - apply (G (parse_signed (-2147483648) 2147483647) XInt); [apply parse_signed_lit | exact Int_fun | reflexivity | exact E].
  - apply (G (parse_signed (-9223372036854775808) 9223372036854775807) XLong); [apply parse_signed_lit | exact Int_fun | reflexivity | exact E].
  - apply (G (parse_unsigned 65535) XUnsignedShort); [apply parse_unsigned_lit | exact Unsigned_fun | reflexivity | exact E].
  - apply (G (parse_unsigned 4294967295) XUnsignedInt); [apply parse_unsigned_lit | exact Unsigned_fun | reflexivity | exact E].
  - apply (G (parse_unsigned 18446744073709551615) XUnsignedLong); [apply parse_unsigned_lit | exact Unsigned_fun | reflexivity | exact E].
Qed.
