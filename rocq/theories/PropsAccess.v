(** * PropsAccess: the accessors of facets (C80). *)
From Coq Require Import QArith Qcanon String.
From Verif Require Import Base Datatype Facets Spec DatatypeSpec Accessors AccessorsSpec AccessorsProof.
Local Open Scope N_scope.

(** ** C80: the reported bounds are exactly the bounds in force.  A report that panics ([at_least], [at_most] are
    false then) belongs to a type without values. *)
Theorem C80_fixed_width : forall O C name reads lo hi ps d, int_kind name reads lo hi -> compiles O C name ps d ->
  exists m p, int_parts d = Some (m, p) /\ Last_pattern ps p /\
    forall s, fits O d s <-> (exists z, reads s z /\ (lo <= z <= hi)%Z /\ at_least Z.le (facet_min (add1_to hi) m) z /\ at_most Z.le (facet_max (sub1_from lo) m) z) /\ pattern_holds O p s.
Proof. exact int_access. Qed.
Theorem C80_integer : forall O C ps d, compiles O C "integer" ps d -> exists m p, int_parts d = Some (m, p) /\ Last_pattern ps p /\
    forall s, fits O d s <-> (exists z, Int_u s z /\ at_least Z.le (facet_min add1_big m) z /\ at_most Z.le (facet_max sub1_big m) z) /\ pattern_holds O p s.
Proof. exact big_access. Qed.
Theorem C80_positive : forall O C ps d, compiles O C "positiveInteger" ps d -> exists m p, int_parts d = Some (m, p) /\ Last_pattern ps p /\
    forall s, fits O d s <-> (exists z, Unsigned_u s z /\ at_least Z.le (facet_min add1_big m) z /\ at_most Z.le (facet_max (sub1_from 0) m) z) /\ pattern_holds O p s.
Proof. exact pos_access. Qed.
Theorem C80_string : forall O C ps d, compiles O C "string" ps d -> exists l p, string_parts d = Some (l, p) /\ Last_pattern ps p /\
  forall s, fits O d s <-> ((forall a, min_len l = Some a -> a <= N.of_nat (List.length s)) /\ (forall b, max_len l = Some b -> N.of_nat (List.length s) <= b)) /\ pattern_holds O p s.
Proof. exact string_access. Qed.
Theorem C80_normalized : forall O C ps d, compiles O C "normalizedString" ps d -> exists l p, string_parts d = Some (l, p) /\ Last_pattern ps p /\
  forall s, let n := normalize_whitespace s in fits O d s <-> ((forall a, min_len l = Some a -> a <= N.of_nat (List.length n)) /\ (forall b, max_len l = Some b -> N.of_nat (List.length n) <= b)) /\ pattern_holds O p n.
Proof. exact normalized_access. Qed.
(** decimal: missing are exclusive bounds, see [C80_decimal_refuted] *)
Theorem C80_decimal_partial : forall O C ps d, ~ In (lit "minExclusive") (map fst ps) -> ~ In (lit "maxExclusive") (map fst ps) -> compiles O C "decimal" ps d ->
  exists m p, decimal_parts d = Some (m, p) /\ Last_pattern ps p /\
    forall s, fits O d s <-> (exists x, o_decimal O s = Some x /\ at_least Qcle (facet_min add1_dec m) x /\ at_most Qcle (facet_max sub1_dec m) x) /\ pattern_holds O p s.
Proof. exact decimal_access. Qed.
(** [bounded] is false exactly if there is no bound to report *)
Theorem C80_string_bounded : forall l, len_bounded l = false <-> min_len l = None /\ max_len l = None.
Proof. exact len_bounded_none. Qed.
Theorem C80_number_bounded : forall T (a1 s1 : T -> res T) m, mm_bounded m = false <-> facet_min a1 m = Ok None /\ facet_max s1 m = Ok None.
Proof. exact @mm_bounded_none. Qed.
Example C80_instance O C : exists d m p, compiles O C "short" [(lit "minExclusive", lit "10"); (lit "maxInclusive", lit "20")] d /\ int_parts d = Some (m, p) /\
  facet_min (add1_to 32767) m = Ok (Some 11%Z) /\ facet_max (sub1_from (-32768)) m = Ok (Some 20%Z) /\ mm_bounded m = true.
Proof. eexists _, _, _. split; [reflexivity|]. split; [reflexivity|]. repeat split; reflexivity. Qed.
Example C80_string_instance O C : exists d l p, compiles O C "string" [(lit "minLength", lit "2"); (lit "maxLength", lit "3")] d /\ string_parts d = Some (l, p) /\
  min_len l = Some 2 /\ max_len l = Some 3 /\ len_bounded l = true.
Proof. eexists _, _, _. split; [reflexivity|]. split; [reflexivity|]. repeat split; reflexivity. Qed.
Example C80_decimal_instance O C x : o_decimal O (lit "1.5") = Some x -> exists d m p, compiles O C "decimal" [(lit "minInclusive", lit "1.5")] d /\ decimal_parts d = Some (m, p) /\ facet_min add1_dec m = Ok (Some x).
Proof.
  intros E. exists (DXsd (XDecimal (MinMax (BIncl x) BUnbounded) None None None)), (MinMax (BIncl x) BUnbounded), None. split; [|split; reflexivity].
  revert E. generalize (lit "1.5"). intros v E. cbv - [o_decimal]. rewrite E. reflexivity.
Qed.
(** the report may panic: xsd:short with minExclusive="32767", xsd:positiveInteger with maxExclusive="0" *)
Theorem C80_panic_refuted : forall O C, (exists d m p q, compiles O C "short" [(lit "minExclusive", lit "32767")] d /\ int_parts d = Some (m, p) /\ facet_min (add1_to 32767) m = Panic q) /\
  (exists d m p q, compiles O C "positiveInteger" [(lit "maxExclusive", lit "0")] d /\ int_parts d = Some (m, p) /\ facet_max (sub1_from 0) m = Panic q).
Proof. intros O C. split; eexists _, _, _, _; (split; [reflexivity|]); split; reflexivity. Qed.
(** the least value reported for a decimal above 1 is 2, but 1.5 is accepted *)
Theorem C80_decimal_refuted : forall O C one half, o_decimal O (lit "1") = Some one -> o_decimal O (lit "1.5") = Some half -> one = 1%Qc -> half = Q2Qc (3 # 2) ->
  exists d m p a, compiles O C "decimal" [(lit "minExclusive", lit "1")] d /\ decimal_parts d = Some (m, p) /\ facet_min add1_dec m = Ok (Some a) /\
    fits O d (lit "1.5") /\ (half < a)%Qc.
Proof.
  intros O C one half E1 E2 H1 H2. exists (DXsd (XDecimal (MinMax (BExcl one) BUnbounded) None None None)), (MinMax (BExcl one) BUnbounded), None, (one + 1)%Qc. repeat split.
  - revert E1. generalize (lit "1"). intros v E1. cbv - [o_decimal]. rewrite E1. reflexivity.
  - unfold fits. cbn [dt_valid xsd_valid]. rewrite E2. cbn [dec_ok patt_ok]. subst. reflexivity.
  - subst. reflexivity.
Qed.

Print Assumptions C80_fixed_width.
Print Assumptions C80_integer.
Print Assumptions C80_positive.
Print Assumptions C80_string.
Print Assumptions C80_normalized.
Print Assumptions C80_decimal_partial.
Print Assumptions C80_string_bounded.
Print Assumptions C80_number_bounded.
Print Assumptions C80_panic_refuted.
Print Assumptions C80_decimal_refuted.
