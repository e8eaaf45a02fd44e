(** * Datatype: the two datatype libraries, validation side.
    relaxng-model/src/datatype/{mod,relax,xsd}.rs *)
From Verif Require Import Base Regex.
From Coq Require Import QArith Qcanon.
Local Open Scope N_scope.

(** ** relax.rs:9-25 [normalize_whitespace] *)
Fixpoint skip_ws (s : str) : str :=                   (* [skip_while(is_ascii_whitespace)], line 13 *)
  match s with c :: s' => if is_ascii_ws c then skip_ws s' else s | [] => [] end.
Fixpoint norm_loop (last_space : bool) (s : str) : str :=   (* the loop of lines 13-23 *)
  match s with
  | [] => []
  | c :: s' =>
      if is_ascii_ws c then norm_loop true s'
      else if last_space then 32 :: c :: norm_loop false s' else c :: norm_loop false s'
  end.
Definition normalize_whitespace (s : str) : str := norm_loop false (skip_ws s).

(** ** relaxng-syntax/src/compact.rs:210-257 [nc_name] and xsd.rs:181-186 [is_valid_ncname] *)
Definition in_ranges (l : list (N * N)) (c : N) : bool :=
  existsb (fun '(a, b) => (a <=? c) && (c <=? b)) l.
(** compact.rs:224-244 [nc_name_start_char] *)
Definition nc_start_ranges : list (N * N) :=
  [(65, 90); (95, 95); (97, 122); (192, 214); (216, 246); (248, 767); (880, 893); (895, 8191);
   (8204, 8205); (8304, 8591); (11264, 12271); (12289, 55295); (63744, 64975); (65008, 65533);
   (65536, 983039)].
(** compact.rs:246-257 [nc_name_char] *)
Definition nc_char_ranges : list (N * N) :=
  nc_start_ranges ++ [(45, 45); (46, 46); (48, 57); (183, 183); (768, 879); (8255, 8256)].
Definition nc_start_char : N -> bool := in_ranges nc_start_ranges.
Definition nc_char : N -> bool := in_ranges nc_char_ranges.
(** compact.rs:210-222 [nc_name]: longest prefix; returns (name, rest). *)
Fixpoint take_while (f : N -> bool) (s : str) : str * str :=
  match s with
  | c :: s' => if f c then let '(a, b) := take_while f s' in (c :: a, b) else ([], s)
  | [] => ([], [])
  end.
Definition nc_name (s : str) : option (str * str) :=
  match s with
  | c :: s' => if nc_start_char c then let '(a, b) := take_while nc_char s' in Some (c :: a, b) else None
  | [] => None
  end.
(** xsd.rs:181-186 [is_valid_ncname] *)
Definition is_valid_ncname (s : str) : bool :=
  match nc_name s with Some (_, []) => true | _ => false end.

(** ** Integer parsing ([FromStr] of the primitive integers and of num_bigint) *)
Definition digit_val (c : N) : option N := if (48 <=? c) && (c <=? 57) then Some (c - 48) else None.
Fixpoint digits_val (acc : N) (s : str) : option N :=
  match s with
  | [] => Some acc
  | c :: s' => match digit_val c with Some d => digits_val (10 * acc + d) s' | None => None end
  end.
(** at least one digit, only digits *)
Definition nat_val (s : str) : option N := match s with [] => None | _ => digits_val 0 s end.
(** a sign character, then the rest *)
Definition signed_by (sign : N) (s : str) : option str :=
  match s with c :: t => if c =? sign then Some t else None | [] => None end.
(** [i16/i32/i64::from_str] (std): optional sign, digits, range check. *)
Definition parse_signed (lo hi : Z) (s : str) : option Z :=
  let v := match signed_by 43 s with
           | Some t => option_map Z.of_N (nat_val t)
           | None =>
               match signed_by 45 s with
               | Some t => option_map (fun n => (- Z.of_N n)%Z) (nat_val t)
               | None => option_map Z.of_N (nat_val s)
               end
           end in
  match v with Some z => if ((lo <=? z) && (z <=? hi))%Z then Some z else None | None => None end.
(** [u16/u32/u64::from_str] (std): optional '+', digits, range check. *)
Definition parse_unsigned (hi : Z) (s : str) : option Z :=
  let v := match signed_by 43 s with Some t => nat_val t | None => nat_val s end in
  match v with Some n => if (Z.of_N n <=? hi)%Z then Some (Z.of_N n) else None | None => None end.
(** num_bigint [BigUint::from_str]: optional '+' (not followed by '+'), must not start with '_',
    underscores are skipped. *)
Definition strip_underscores (s : str) : str := filter (fun c => negb (c =? 95)) s.
Definition starts_with (c : N) (s : str) : bool := match signed_by c s with Some _ => true | None => false end.
Definition parse_biguint (s : str) : option N :=
  let s' := match signed_by 43 s with Some t => if starts_with 43 t then s else t | None => s end in
  match s' with
  | [] => None
  | c :: _ => if c =? 95 then None else digits_val 0 (strip_underscores s')
  end.
(** num_bigint [BigInt::from_str]. *)
Definition parse_bigint (s : str) : option Z :=
  match signed_by 45 s with
  | Some t => option_map (fun n => (- Z.of_N n)%Z) (parse_biguint (if starts_with 43 t then s else t))
  | None => option_map Z.of_N (parse_biguint s)
  end.

(** ** Facets *)
(** xsd.rs:256-263 [LengthFacet] *)
Inductive length_facet : Type :=
| LUnbounded | LMin (n : N) | LMax (n : N) | LMinMax (a b : N) | LLength (n : N).
(** xsd.rs:265-274 [LengthFacet::is_valid] ([chars().count()]) *)
Definition length_valid (f : length_facet) (s : str) : bool :=
  let n := N.of_nat (length s) in
  match f with
  | LUnbounded => true
  | LMin m => m <=? n
  | LMax m => n <=? m
  | LMinMax a b => (a <=? n) && (n <=? b)
  | LLength m => n =? m
  end.
(** xsd.rs:308-313 [Min], 323-328 [Max] *)
Inductive bound (T : Type) : Type := BUnbounded | BIncl (v : T) | BExcl (v : T).
Arguments BUnbounded {T}. Arguments BIncl {T} v. Arguments BExcl {T} v.
(** xsd.rs:338-342 [MinMaxFacet] *)
Record minmax (T : Type) : Type := MinMax { mm_min : bound T; mm_max : bound T }.
Arguments MinMax {T} _ _. Arguments mm_min {T} _. Arguments mm_max {T} _.
(** xsd.rs:314-322, 329-337, 533-535 *)
Definition min_valid {T} (le lt : T -> T -> bool) (b : bound T) (v : T) : bool :=
  match b with BUnbounded => true | BIncl m => le m v | BExcl m => lt m v end.
Definition max_valid {T} (le lt : T -> T -> bool) (b : bound T) (v : T) : bool :=
  match b with BUnbounded => true | BIncl m => le v m | BExcl m => lt v m end.
Definition minmax_valid {T} (le lt : T -> T -> bool) (f : minmax T) (v : T) : bool :=
  min_valid le lt (mm_min f) v && max_valid le lt (mm_max f) v.

(** A pattern facet is identified by its source text (xsd.rs:538-545: equality and hash use it). *)
Definition pattern_facet := option str.

(** ** Datatypes *)
(** xsd.rs:12-17 *)
Inductive xsd_value : Type := XVString (s : str) | XVToken (s : str) | XVQName (s : str).
(** xsd.rs:39-69.  [Decimal]'s fraction/total digits are kept although validation ignores them. *)
Inductive xsd_type : Type :=
| XNormalizedString (l : length_facet) (p : pattern_facet)
| XString (l : length_facet) (p : pattern_facet)
| XShort (m : minmax Z) (p : pattern_facet)
| XUnsignedShort (m : minmax Z) (p : pattern_facet)
| XLong (m : minmax Z) (p : pattern_facet)
| XInt (m : minmax Z) (p : pattern_facet)
| XInteger (m : minmax Z) (p : pattern_facet)
| XPositiveInteger (m : minmax Z) (p : pattern_facet)
| XUnsignedInt (m : minmax Z) (p : pattern_facet)
| XUnsignedLong (m : minmax Z) (p : pattern_facet)
| XDecimal (m : minmax Qc) (p : pattern_facet) (fd td : option N)
| XDouble (p : pattern_facet)
| XNmTokens (l : length_facet)
| XNmToken (l : length_facet)
| XNcName (l : length_facet)
| XToken (l : length_facet)
| XDuration (p : pattern_facet)
| XDate (p : pattern_facet)
| XDatetime (p : pattern_facet)
| XAnyURI (p : pattern_facet)
| XLanguage (p : pattern_facet)
| XBoolean (p : pattern_facet)
| XId (p : pattern_facet)
| XIdRef (p : pattern_facet).
(** relax.rs:28-31, 41-45; mod.rs:39-42, 52-55 *)
Inductive dt_value : Type := VToken (s : str) | VString (s : str) | VXsd (v : xsd_value).
Inductive dt : Type := DToken | DString | DXsd (t : xsd_type).

(** ** Engines outside the repository *)
Record oracles : Type := {
  o_regex : str -> str -> bool;       (* regex::Regex::is_match of a pattern facet's source *)
  o_unicode_digit : N -> bool;        (* the regex engine's \d class *)
  o_date : str -> bool;               (* chrono::NaiveDate::parse_from_str(v, "%Y-%m-%d").is_ok() *)
  o_uri : str -> bool;                (* uriparse::URIReference::try_from(v).is_ok() *)
  o_f64 : str -> bool;                (* v.parse::<f64>().is_ok() *)
  o_decimal : str -> option Qc        (* bigdecimal::BigDecimal::from_str *)
}.

Definition patt_ok (O : oracles) (p : pattern_facet) (s : str) : bool :=
  match p with Some re => o_regex O re s | None => true end.
Definition int_ok (m : minmax Z) (v : option Z) : bool :=
  match v with Some z => minmax_valid Z.leb Z.ltb m z | None => false end.
Definition qc_leb (a b : Qc) : bool := if Qclt_le_dec b a then false else true.
Definition qc_ltb (a b : Qc) : bool := if Qclt_le_dec a b then true else false.
Definition dec_ok (m : minmax Qc) (v : option Qc) : bool :=
  match v with Some q => minmax_valid qc_leb qc_ltb m q | None => false end.

(** xsd.rs:1452-1469 [QNameVal::try_from_val]: [Ok None] is [Err(())]. *)
Definition find_colon (s : str) : option (str * str) :=
  let '(a, b) := take_while (fun c => negb (c =? 58)) s in
  match b with _ :: b' => Some (a, b') | [] => None end.
Definition qname_try (s : str) : res (option str) :=
  match find_colon s with
  | Some (p, l) => if is_valid_ncname p && is_valid_ncname l then Panic PUnimplemented else Ok None
  | None => if is_valid_ncname s then Ok (Some s) else Ok None
  end.

(** xsd.rs:19-29 [XsdDatatypeValues::is_valid] *)
Definition xsd_value_valid (v : xsd_value) (s : str) : res bool :=
  match v with
  | XVString x => Ok (str_eqb x s)
  | XVToken x => Ok (str_eqb x (normalize_whitespace s))
  | XVQName x => rbind (qname_try s) (fun o => Ok (match o with Some y => str_eqb y x | None => false end))
  end.
(** relax.rs:32-39, mod.rs:43-50 [DatatypeValues::is_valid] *)
Definition dt_value_valid (v : dt_value) (s : str) : res bool :=
  match v with
  | VToken x => Ok (str_eqb x (normalize_whitespace s))
  | VString x => Ok (str_eqb x s)
  | VXsd x => xsd_value_valid x s
  end.

Definition bool_lex (s : str) : bool :=
  str_eqb s [116; 114; 117; 101] || str_eqb s [102; 97; 108; 115; 101] || str_eqb s [49] || str_eqb s [48].

(** xsd.rs:70-179 [XsdDatatypes::is_valid] *)
Definition xsd_valid (O : oracles) (t : xsd_type) (s : str) : res bool :=
  match t with
  | XNormalizedString l p => let n := normalize_whitespace s in Ok (length_valid l n && patt_ok O p n)
  | XString l p => Ok (length_valid l s && patt_ok O p s)
  | XShort m p => Ok (int_ok m (parse_signed (-32768) 32767 s) && patt_ok O p s)
  | XUnsignedShort m p => Ok (int_ok m (parse_unsigned 65535 s) && patt_ok O p s)
  | XLong m p => Ok (int_ok m (parse_signed (-9223372036854775808) 9223372036854775807 s) && patt_ok O p s)
  | XInt m p => Ok (int_ok m (parse_signed (-2147483648) 2147483647 s) && patt_ok O p s)
  | XInteger m p => Ok (int_ok m (parse_bigint s) && patt_ok O p s)
  | XPositiveInteger m p => Ok (int_ok m (option_map Z.of_N (parse_biguint s)) && patt_ok O p s)
  | XUnsignedInt m p => Ok (int_ok m (parse_unsigned 4294967295 s) && patt_ok O p s)
  | XUnsignedLong m p => Ok (int_ok m (parse_unsigned 18446744073709551615 s) && patt_ok O p s)
  | XDecimal m p _ _ => Ok (dec_ok m (o_decimal O s) && patt_ok O p s)
  | XNmTokens _ => Panic PUnimplemented
  | XNmToken _ => Panic PUnimplemented
  | XNcName l => Ok (length_valid l s && is_valid_ncname s)
  | XToken _ => Panic PUnimplemented
  | XDuration p => Ok (rmatch (duration_search (o_unicode_digit O)) s && patt_ok O p s)
  | XDate p => Ok (o_date O s && patt_ok O p s)
  | XDatetime p => Ok (rmatch (datetime_re (o_unicode_digit O)) s && patt_ok O p s)
  | XDouble p => Ok (o_f64 O s && patt_ok O p s)
  | XAnyURI p => Ok (o_uri O s && patt_ok O p s)
  | XLanguage p => Ok (rmatch lang_re s && patt_ok O p s)
  | XBoolean p => Ok (bool_lex s && patt_ok O p s)
  | XId p => Ok (patt_ok O p s)
  | XIdRef p => Ok (patt_ok O p s)
  end.
(** relax.rs:46-56, mod.rs:56-63 [Datatypes::is_valid] *)
Definition dt_valid (O : oracles) (d : dt) (s : str) : res bool :=
  match d with DToken => Ok true | DString => Ok true | DXsd t => xsd_valid O t s end.

(** ** Decidable equality (derived [PartialEq]/[Eq], used by the pattern memo) *)
Definition opt_eq_dec {A} (d : forall a b : A, {a = b} + {a <> b}) : forall a b : option A, {a = b} + {a <> b}.
Proof. decide equality. Defined.
Definition length_facet_eq_dec : forall a b : length_facet, {a = b} + {a <> b}.
Proof. decide equality; apply N.eq_dec. Defined.
Definition bound_eq_dec {A} (d : forall a b : A, {a = b} + {a <> b}) : forall a b : bound A, {a = b} + {a <> b}.
Proof. decide equality. Defined.
Definition minmax_eq_dec {A} (d : forall a b : A, {a = b} + {a <> b}) : forall a b : minmax A, {a = b} + {a <> b}.
Proof. decide equality; apply (bound_eq_dec d). Defined.
Definition xsd_value_eq_dec : forall a b : xsd_value, {a = b} + {a <> b}.
Proof. decide equality; apply str_eq_dec. Defined.
Definition dt_value_eq_dec : forall a b : dt_value, {a = b} + {a <> b}.
Proof. decide equality; try apply str_eq_dec; apply xsd_value_eq_dec. Defined.
Definition xsd_type_eq_dec : forall a b : xsd_type, {a = b} + {a <> b}.
Proof.
  decide equality; try apply (opt_eq_dec str_eq_dec); try apply length_facet_eq_dec;
    try apply (minmax_eq_dec Z.eq_dec); try apply (opt_eq_dec N.eq_dec);
    apply (minmax_eq_dec Qc_eq_dec).
Defined.
Definition dt_eq_dec : forall a b : dt, {a = b} + {a <> b}.
Proof. decide equality; apply xsd_type_eq_dec. Defined.
