(** * DatatypeSpec: what the datatypes should accept, stated without the code's parsers.
    (XML Schema Part 2 lexical spaces, Namespaces in XML, RELAX NG datatype parameters.) *)
From Coq Require Import String.
From Verif Require Import Base Spec Datatype Facets.
Local Open Scope N_scope.

(** ** Numerals *)
Definition digit (c : N) : Prop := 48 <= c <= 57.
(** [Digits s n]: the decimal digits [s] denote [n]. *)
Inductive Digits : str -> N -> Prop :=
| Dg_one d : digit d -> Digits [d] (d - 48)
| Dg_more ds n d : Digits ds n -> digit d -> Digits (ds ++ [d]) (10 * n + (d - 48)).
(** optional '+' *)
Inductive Unsigned_lit : str -> Z -> Prop :=
| Ul_plain s n : Digits s n -> Unsigned_lit s (Z.of_N n)
| Ul_plus s n : Digits s n -> Unsigned_lit (43 :: s) (Z.of_N n).
(** optional sign *)
Inductive Int_lit : str -> Z -> Prop :=
| Il_unsigned s z : Unsigned_lit s z -> Int_lit s z
| Il_minus s n : Digits s n -> Int_lit (45 :: s) (- Z.of_N n).

(** The same with underscores allowed after the first digit ("1_000"). *)
Inductive Digits_u : str -> N -> Prop :=
| Du_one d : digit d -> Digits_u [d] (d - 48)
| Du_more ds n d : Digits_u ds n -> digit d -> Digits_u (ds ++ [d]) (10 * n + (d - 48))
| Du_skip ds n : Digits_u ds n -> Digits_u (ds ++ [95]) n.
Inductive Unsigned_u : str -> Z -> Prop :=
| Uu_plain s n : Digits_u s n -> Unsigned_u s (Z.of_N n)
| Uu_plus s n : Digits_u s n -> Unsigned_u (43 :: s) (Z.of_N n).
Inductive Int_u : str -> Z -> Prop :=
| Iu_unsigned s z : Unsigned_u s z -> Int_u s z
| Iu_minus s n : Digits_u s n -> Int_u (45 :: s) (- Z.of_N n).

(** ** Parameters: a list of names and values *)
Definition params := list (str * str).
(** number of characters *)
Definition lengths_satisfied (ps : params) (s : str) : Prop :=
  forall n v, In (n, v) ps ->
    (n = lit "length" -> exists k, Unsigned_lit v k /\ Z.of_nat (List.length s) = k) /\
    (n = lit "minLength" -> exists k, Unsigned_lit v k /\ (k <= Z.of_nat (List.length s))%Z) /\
    (n = lit "maxLength" -> exists k, Unsigned_lit v k /\ (Z.of_nat (List.length s) <= k)%Z).
(** bounds of numbers; [reads v k]: the parameter value [v] denotes [k] *)
Section Bounds.
Context {T : Type} (reads : str -> T -> Prop) (le lt : T -> T -> Prop).
Definition bounds_satisfied (ps : params) (x : T) : Prop :=
  forall n v, In (n, v) ps ->
    (n = lit "minInclusive" -> exists k, reads v k /\ le k x) /\
    (n = lit "minExclusive" -> exists k, reads v k /\ lt k x) /\
    (n = lit "maxInclusive" -> exists k, reads v k /\ le x k) /\
    (n = lit "maxExclusive" -> exists k, reads v k /\ lt x k).
End Bounds.
(** the value of the last parameter named "pattern" *)
Inductive Last_pattern : params -> option str -> Prop :=
| Lp_none ps : (forall v, ~ In (lit "pattern", v) ps) -> Last_pattern ps None
| Lp_some a v b : (forall w, ~ In (lit "pattern", w) b) -> Last_pattern (a ++ (lit "pattern", v) :: b) (Some v).
(** the pattern matches (regex::Regex::is_match, an engine outside the repository) *)
Definition pattern_holds (O : oracles) (q : option str) (s : str) : Prop := match q with Some re => o_regex O re s = true | None => True end.
(** what an integer type with the range [lo..hi] accepts *)
Definition int_verdict (O : oracles) (reads : str -> Z -> Prop) (lo hi : Z) (ps : params) (q : option str) (s : str) : Prop :=
  (exists z, reads s z /\ (lo <= z <= hi)%Z /\ bounds_satisfied reads Z.le Z.lt ps z) /\ pattern_holds O q s.
(** what an integer type without range accepts *)
Definition bigint_verdict (O : oracles) (reads : str -> Z -> Prop) (ps : params) (q : option str) (s : str) : Prop :=
  (exists z, reads s z /\ bounds_satisfied reads Z.le Z.lt ps z) /\ pattern_holds O q s.

(** Lists of parameters on which compiling does not panic *)
Definition bound_names : list str := [lit "minInclusive"; lit "minExclusive"; lit "maxInclusive"; lit "maxExclusive"].
Definition length_names : list str := [lit "length"; lit "minLength"; lit "maxLength"].
(** no length facet after a maximum or an exact length *)
Definition len_order (ps : params) : Prop :=
  forall a n v b, ps = a ++ (n, v) :: b -> n = lit "maxLength" \/ n = lit "length" -> forall m w, In (m, w) b -> ~ In m length_names.
(** no bound facet occurs twice *)
Definition bounds_once (ps : params) : Prop :=
  forall a n v b, ps = a ++ (n, v) :: b -> In n bound_names -> ~ In n (map fst b).

(** [compiles C name ps d]: the type [name] of the XML Schema library with the parameters [ps] compiles to [d] *)
Definition compiles (O : oracles) (C : coracles) (name : string) (ps : params) (d : dt) : Prop :=
  datatype_name O C (DnCName xsd_uri (lit name)) ps = Ok (inl d).
Definition fits (O : oracles) (d : dt) (s : str) : Prop := dt_valid O d s = Ok true.

(** the integer types: name, reading, smallest and largest value *)
Inductive int_kind : string -> (str -> Z -> Prop) -> Z -> Z -> Prop :=
| Ik_short : int_kind "short" Int_lit (-32768) 32767
| Ik_int : int_kind "int" Int_lit (-2147483648) 2147483647
| Ik_long : int_kind "long" Int_lit (-9223372036854775808) 9223372036854775807
| Ik_ushort : int_kind "unsignedShort" Unsigned_lit 0 65535
| Ik_uint : int_kind "unsignedInt" Unsigned_lit 0 4294967295
| Ik_ulong : int_kind "unsignedLong" Unsigned_lit 0 18446744073709551615.

(** ** NCName (Namespaces in XML 1.0, XML 1.0 fifth edition productions 4, 4a without ':') *)
Definition NameStart (c : N) : Prop :=
  0x41 <= c <= 0x5A \/ c = 0x5F \/ 0x61 <= c <= 0x7A \/ 0xC0 <= c <= 0xD6 \/ 0xD8 <= c <= 0xF6 \/ 0xF8 <= c <= 0x2FF \/
  0x370 <= c <= 0x37D \/ 0x37F <= c <= 0x1FFF \/ 0x200C <= c <= 0x200D \/ 0x2070 <= c <= 0x218F \/ 0x2C00 <= c <= 0x2FEF \/
  0x3001 <= c <= 0xD7FF \/ 0xF900 <= c <= 0xFDCF \/ 0xFDF0 <= c <= 0xFFFD \/ 0x10000 <= c <= 0xEFFFF.
Definition NameChar (c : N) : Prop :=
  NameStart c \/ c = 0x2D \/ c = 0x2E \/ 0x30 <= c <= 0x39 \/ c = 0xB7 \/ 0x300 <= c <= 0x36F \/ 0x203F <= c <= 0x2040.
Definition NCName (s : str) : Prop := exists c r, s = c :: r /\ NameStart c /\ Forall NameChar r.

(** ** language, dateTime *)
Definition letter (c : N) : Prop := 65 <= c <= 90 \/ 97 <= c <= 122.
Definition subtag (cls : N -> Prop) (s : str) : Prop := (1 <= List.length s <= 8)%nat /\ Forall cls s.
Inductive Language : str -> Prop :=
| La_one s : subtag letter s -> Language s
| La_more s t : Language s -> subtag (fun c => letter c \/ digit c) t -> Language (s ++ 45 :: t).
Definition digits_of (d : N -> Prop) (n : nat) (s : str) : Prop := List.length s = n /\ Forall d s.
Definition DateTime (d : N -> Prop) (s : str) : Prop :=
  exists sign y mo da h mi se z, s = sign ++ y ++ [45] ++ mo ++ [45] ++ da ++ [84] ++ h ++ [58] ++ mi ++ [58] ++ se ++ z /\
    (sign = [] \/ sign = [45]) /\ digits_of d 4 y /\ digits_of d 2 mo /\ digits_of d 2 da /\ digits_of d 2 h /\ digits_of d 2 mi /\ digits_of d 2 se /\
    (z = [] \/ z = [90] \/ exists sg oh om, (sg = 43 \/ sg = 45) /\ digits_of d 2 oh /\ digits_of d 2 om /\ z = 90 :: sg :: oh ++ [58] ++ om).

(** ** token: words separated by single spaces *)
Fixpoint spaced (ws : list str) : str :=
  match ws with [] => [] | [w] => w | w :: ws' => w ++ 32 :: spaced ws' end.
