(** * ParamSpec: which parameters a type of the XML Schema library takes, and what is wrong with a list of them (C83).
    Nothing here is taken from the code's own definitions; the kinds of error are those of its API. *)
From Coq Require Import QArith Qcanon String.
From Verif Require Import Base Datatype Facets DatatypeSpec.
Local Open Scope N_scope.

(** The families of types.  [Lengths b]: length, minLength, maxLength (and pattern if [b]).
    [Numbers reads digits bad]: bounds that [reads] relates to rational numbers, pattern, and fractionDigits and totalDigits if
    [digits]; a bound that cannot be read is the error [bad].  [Patterns]: pattern only. *)
Inductive family : Type :=
| Lengths (pattern : bool)
| Numbers (reads : str -> Qc -> Prop) (digits : bool) (bad : facet_error)
| Patterns.
Definition digit_names : list str := [lit "fractionDigits"; lit "totalDigits"].
Definition allowed (F : family) : list str :=
  match F with
  | Lengths p => length_names ++ (if p then [lit "pattern"] else [])
  | Numbers _ d _ => bound_names ++ [lit "pattern"] ++ (if d then digit_names else [])
  | Patterns => [lit "pattern"]
  end.

(** a bound stated later is at odds with one stated earlier: it is about the same end but of the other kind, or
    it leaves nothing between the two -- where one number is left if and only if the earlier one is inclusive *)
Inductive Clash : str * Qc -> str * Qc -> Prop :=
| Cl_min_ie j k : Clash (lit "minInclusive", j) (lit "minExclusive", k)
| Cl_min_ei j k : Clash (lit "minExclusive", j) (lit "minInclusive", k)
| Cl_max_ie j k : Clash (lit "maxInclusive", j) (lit "maxExclusive", k)
| Cl_max_ei j k : Clash (lit "maxExclusive", j) (lit "maxInclusive", k)
| Cl_down_i j k n : n = lit "maxInclusive" \/ n = lit "maxExclusive" -> (k < j)%Qc -> Clash (lit "minInclusive", j) (n, k)
| Cl_down_e j k n : n = lit "maxInclusive" \/ n = lit "maxExclusive" -> (k <= j)%Qc -> Clash (lit "minExclusive", j) (n, k)
| Cl_up_i j k n : n = lit "minInclusive" \/ n = lit "minExclusive" -> (j < k)%Qc -> Clash (lit "maxInclusive", j) (n, k)
| Cl_up_e j k n : n = lit "minInclusive" \/ n = lit "minExclusive" -> (j <= k)%Qc -> Clash (lit "maxExclusive", j) (n, k).

(** a numeral for a number of characters (64 bits), of digits (16 bits) *)
Definition Size (v : str) (k : Z) : Prop := Unsigned_lit v k /\ (k <= 18446744073709551615)%Z.
Definition Small (v : str) (k : Z) : Prop := Unsigned_lit v k /\ (k <= 65535)%Z.

(** What is wrong with the parameter [(n, v)] after the parameters [a]: an error, or the compiler panics. *)
Inductive trouble : Type := Wrong (e : facet_error) | Crash.
Definition closed_length (a : params) : Prop := exists m w, In (m, w) a /\ (m = lit "maxLength" \/ m = lit "length").
Inductive Fault (C : coracles) : family -> params -> str * str -> trouble -> Prop :=
| Fa_unknown F a n v : ~ In n (allowed F) -> Fault C F a (n, v) (Wrong (FInvalidFacet n))
| Fa_pattern F a v : In (lit "pattern") (allowed F) -> co_regex_ok C v = false -> Fault C F a (lit "pattern", v) (Wrong FInvalidPattern)
(* lengths *)
| Fa_size p a n v : In n length_names -> (forall k, ~ Size v k) -> Fault C (Lengths p) a (n, v) (Wrong FInvalidInt)
| Fa_again p a n v k : In n length_names -> Size v k -> closed_length a -> Fault C (Lengths p) a (n, v) Crash
| Fa_min_twice p a n v k w : n = lit "length" \/ n = lit "minLength" -> Size v k -> ~ closed_length a -> In (lit "minLength", w) a ->
    Fault C (Lengths p) a (n, v) (Wrong FConflict)
| Fa_max_below p a v k w j : Size v k -> ~ closed_length a -> In (lit "minLength", w) a -> Size w j -> (k < j)%Z ->
    Fault C (Lengths p) a (lit "maxLength", v) (Wrong FConflict)
(* bounds *)
| Fa_number (reads : str -> Qc -> Prop) d bad a n v : In n bound_names -> (forall k, ~ reads v k) -> Fault C (Numbers reads d bad) a (n, v) (Wrong bad)
| Fa_clash (reads : str -> Qc -> Prop) d bad a n v k m w j : In n bound_names -> reads v k -> In (m, w) a -> reads w j -> Clash (m, j) (n, k) ->
    Fault C (Numbers reads d bad) a (n, v) (Wrong FConflict)
| Fa_twice (reads : str -> Qc -> Prop) d bad a n v k : In n bound_names -> reads v k -> In n (map fst a) ->
    (forall m w j, In (m, w) a -> reads w j -> ~ Clash (m, j) (n, k)) ->
    Fault C (Numbers reads d bad) a (n, v) Crash
| Fa_digits (reads : str -> Qc -> Prop) bad a n v : In n digit_names -> (forall k, ~ Small v k) -> Fault C (Numbers reads true bad) a (n, v) (Wrong FInvalidInt).

(** a whole number, as a rational one *)
Definition whole (reads : str -> Z -> Prop) (v : str) (k : Qc) : Prop := exists z, reads v z /\ k = Q2Qc (inject_Z z).
(** The types of the library and their families. *)
Inductive type_family (O : oracles) (C : coracles) : string -> family -> Prop :=
| Tf_string name : In name ["string"; "normalizedString"]%string -> type_family O C name (Lengths true)
| Tf_token name : In name ["NMTOKENS"; "NMTOKEN"; "NCName"; "token"]%string -> type_family O C name (Lengths false)
| Tf_int name reads lo hi : int_kind name reads lo hi -> type_family O C name (Numbers (whole (fun v z => reads v z /\ (lo <= z <= hi)%Z)) false FInvalidInt)
| Tf_integer : type_family O C "integer" (Numbers (whole Int_u) false FInvalidInt)
| Tf_positive : type_family O C "positiveInteger" (Numbers (whole Unsigned_u) false FInvalidInt)
| Tf_decimal : type_family O C "decimal" (Numbers (fun v k => o_decimal O v = Some k) true FInvalidInt)
| Tf_double : type_family O C "double" (Numbers (fun v k => co_f64 C v = Some k) false FInvalidFloat)
| Tf_pattern name : In name ["duration"; "date"; "dateTime"; "anyURI"; "language"; "boolean"; "ID"; "IDREF"]%string -> type_family O C name Patterns.
(** accepted by the compiler *)
Definition accepted (O : oracles) (C : coracles) (name : string) (ps : params) : Prop := exists d, compiles O C name ps d.
