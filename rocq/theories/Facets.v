(** * Facets: compiling a datatype name with its parameters, and a value with its datatype.
    relaxng-model/src/datatype/{mod,relax,xsd}.rs, the compile side.

    Simplifications: spans and the texts of error messages are dropped; a parameter is its name and
    the string value of its literal (types.rs:207-214, 228-235); [usize] has 64 bits; a finite
    [f64] is the rational number it denotes (used for comparisons only). *)
From Coq Require Import QArith Qcanon String.
From Verif Require Import Base Datatype.
Local Open Scope N_scope.

(** xsd.rs:247-254 [FacetError] *)
Inductive facet_error : Type :=
| FConflict | FInvalidInt | FInvalidFloat | FInvalidPattern | FInvalidFacet (name : str).
(** relax.rs:59-63, xsd.rs:231-245, mod.rs:64-71 *)
Inductive dt_error : Type :=
| DParamNotAllowed (name : str) | DNameUnknown (name : str)
| DFacet (e : facet_error) | DUnsupportedDatatype (name : str) | DInvalidValue
| DUnsupportedLibrary (ns : str).

(** [Result<A, E>] in code that may panic *)
Definition fres (E A : Type) := res (A + E).
Definition fbind {E A B} (x : fres E A) (f : A -> fres E B) : fres E B :=
  rbind x (fun r => match r with inl a => f a | inr e => Ok (inr e) end).
Definition fok {E A} (a : A) : fres E A := Ok (inl a).
Definition ferr {E A} (e : E) : fres E A := Ok (inr e).
Definition fmap_err {E E' A} (g : E -> E') (x : fres E A) : fres E' A :=
  rbind x (fun r => match r with inl a => Ok (inl a) | inr e => Ok (inr (g e)) end).

(** xsd.rs:276-305 [LengthFacet::merge] *)
Definition merge_length (self other : length_facet) : fres facet_error length_facet :=
  match self with
  | LUnbounded => fok other
  | LMin m =>
      match other with
      | LUnbounded | LMinMax _ _ => Panic PUnreachable
      | LMin _ => ferr FConflict
      | LMax mx => if mx <? m then ferr FConflict else fok (LMinMax m mx)
      | LLength _ => ferr FConflict
      end
  | LMax _ | LMinMax _ _ | LLength _ => Panic PUnimplemented
  end.

Section MinMaxOps.
Context {T : Type} (lt le : T -> T -> bool).
(** xsd.rs:416-444 [min_inclusive] *)
Definition min_inclusive (f : minmax T) (v : T) : fres facet_error (minmax T) :=
  match mm_max f with
  | BIncl mx => if lt mx v then ferr FConflict else
      match mm_min f with BUnbounded => fok (MinMax (BIncl v) (mm_max f)) | BIncl _ => Panic PUnreachable | BExcl _ => ferr FConflict end
  | BExcl mx => if le mx v then ferr FConflict else
      match mm_min f with BUnbounded => fok (MinMax (BIncl v) (mm_max f)) | BIncl _ => Panic PUnreachable | BExcl _ => ferr FConflict end
  | BUnbounded =>
      match mm_min f with BUnbounded => fok (MinMax (BIncl v) (mm_max f)) | BIncl _ => Panic PUnreachable | BExcl _ => ferr FConflict end
  end.
(** xsd.rs:445-473 [min_exclusive] *)
Definition min_exclusive (f : minmax T) (v : T) : fres facet_error (minmax T) :=
  let conflict := match mm_max f with BUnbounded => false | BIncl mx => lt mx v | BExcl mx => le mx v end in
  if conflict then ferr FConflict else
  match mm_min f with BUnbounded => fok (MinMax (BExcl v) (mm_max f)) | BIncl _ => ferr FConflict | BExcl _ => Panic PUnreachable end.
(** xsd.rs:474-502 [max_inclusive] *)
Definition max_inclusive (f : minmax T) (v : T) : fres facet_error (minmax T) :=
  let conflict := match mm_min f with BUnbounded => false | BIncl mn => lt v mn | BExcl mn => le v mn end in
  if conflict then ferr FConflict else
  match mm_max f with BUnbounded => fok (MinMax (mm_min f) (BIncl v)) | BIncl _ => Panic PUnreachable | BExcl _ => ferr FConflict end.
(** xsd.rs:503-531 [max_exclusive] *)
Definition max_exclusive (f : minmax T) (v : T) : fres facet_error (minmax T) :=
  let conflict := match mm_min f with BUnbounded => false | BIncl mn => lt v mn | BExcl mn => le v mn end in
  if conflict then ferr FConflict else
  match mm_max f with BUnbounded => fok (MinMax (mm_min f) (BExcl v)) | BIncl _ => ferr FConflict | BExcl _ => Panic PUnreachable end.
End MinMaxOps.

(** Engines used when compiling *)
Record coracles : Type := {
  co_regex_ok : str -> bool;          (* regex::Regex::new(v).is_ok() *)
  co_f64 : str -> option Qc           (* a finite f64 parsed from the string (xsd.rs:1351-1371) *)
}.

Definition param := (str * str)%type.
Definition is_name (n : str) (s : string) : bool := str_eqb n (lit s).

(** a parsed parameter value; [None] is a parse error (xsd.rs:1282-1438) *)
Definition parsed {A} (e : facet_error) (o : option A) : fres facet_error A :=
  match o with Some a => fok a | None => ferr e end.
Definition p_usize (v : str) : fres facet_error N := parsed FInvalidInt (option_map Z.to_N (parse_unsigned 18446744073709551615 v)).

Section Compile.
Variable O : oracles.
Variable C : coracles.

(** xsd.rs:1432-1436 [pattern] *)
Definition c_pattern (v : str) : fres facet_error str := if co_regex_ok C v then fok v else ferr FInvalidPattern.

(** xsd.rs:790-845 (normalizedString, string): the loop over the parameters *)
Definition length_param (f : length_facet) (n v : str) : option (fres facet_error length_facet) :=
  if is_name n "length" then Some (fbind (p_usize v) (fun k => merge_length f (LLength k)))
  else if is_name n "minLength" then Some (fbind (p_usize v) (fun k => merge_length f (LMin k)))
  else if is_name n "maxLength" then Some (fbind (p_usize v) (fun k => merge_length f (LMax k)))
  else None.
Fixpoint string_facets (f : length_facet) (p : pattern_facet) (ps : list param) : fres facet_error (length_facet * pattern_facet) :=
  match ps with
  | [] => fok (f, p)
  | (n, v) :: ps' =>
      match length_param f n v with
      | Some r => fbind r (fun f' => string_facets f' p ps')
      | None => if is_name n "pattern" then fbind (c_pattern v) (fun re => string_facets f (Some re) ps')
                else ferr (FInvalidFacet n)
      end
  end.
(** xsd.rs:1037-1119 (NMTOKENS, NMTOKEN, NCName, token): no pattern *)
Fixpoint length_facets (f : length_facet) (ps : list param) : fres facet_error length_facet :=
  match ps with
  | [] => fok f
  | (n, v) :: ps' =>
      match length_param f n v with
      | Some r => fbind r (fun f' => length_facets f' ps')
      | None => ferr (FInvalidFacet n)
      end
  end.
(** xsd.rs:847-1011, 1015-1035, 1208-1250 (short, unsignedShort, long, int, integer, positiveInteger,
    double, unsignedInt, unsignedLong), parameterised by the parser of the bounds *)
Section Bounds.
Context {T : Type} (lt le : T -> T -> bool) (parse : str -> fres facet_error T).
Definition bound_param (f : minmax T) (n v : str) : option (fres facet_error (minmax T)) :=
  if is_name n "minInclusive" then Some (fbind (parse v) (min_inclusive lt le f))
  else if is_name n "minExclusive" then Some (fbind (parse v) (min_exclusive lt le f))
  else if is_name n "maxInclusive" then Some (fbind (parse v) (max_inclusive lt le f))
  else if is_name n "maxExclusive" then Some (fbind (parse v) (max_exclusive lt le f))
  else None.
Fixpoint bound_facets (f : minmax T) (p : pattern_facet) (ps : list param) : fres facet_error (minmax T * pattern_facet) :=
  match ps with
  | [] => fok (f, p)
  | (n, v) :: ps' =>
      match bound_param f n v with
      | Some r => fbind r (fun f' => bound_facets f' p ps')
      | None => if is_name n "pattern" then fbind (c_pattern v) (fun re => bound_facets f (Some re) ps')
                else ferr (FInvalidFacet n)
      end
  end.
End Bounds.
(** xsd.rs:980-1013 [decimal] *)
Definition p_decimal (v : str) : fres facet_error Qc := parsed FInvalidInt (o_decimal O v).
Definition p_u16 (v : str) : fres facet_error N := parsed FInvalidInt (option_map Z.to_N (parse_unsigned 65535 v)).
Fixpoint decimal_facets (f : minmax Qc) (p : pattern_facet) (fd td : option N) (ps : list param) : fres facet_error xsd_type :=
  match ps with
  | [] => fok (XDecimal f p fd td)
  | (n, v) :: ps' =>
      match bound_param qc_ltb qc_leb p_decimal f n v with
      | Some r => fbind r (fun f' => decimal_facets f' p fd td ps')
      | None =>
          if is_name n "pattern" then fbind (c_pattern v) (fun re => decimal_facets f (Some re) fd td ps')
          else if is_name n "fractionDigits" then fbind (p_u16 v) (fun k => decimal_facets f p (Some k) td ps')
          else if is_name n "totalDigits" then fbind (p_u16 v) (fun k => decimal_facets f p fd (Some k) ps')
          else ferr (FInvalidFacet n)
      end
  end.
(** xsd.rs:1121-1206, 1252-1280 (duration, date, dateTime, anyURI, language, boolean, ID, IDREF) *)
Fixpoint pattern_facets (p : pattern_facet) (ps : list param) : fres facet_error pattern_facet :=
  match ps with
  | [] => fok p
  | (n, v) :: ps' =>
      if is_name n "pattern" then fbind (c_pattern v) (fun re => pattern_facets (Some re) ps') else ferr (FInvalidFacet n)
  end.

(** [MinMaxFacet::default], xsd.rs:343-350 *)
Definition no_bounds {T} : minmax T := MinMax BUnbounded BUnbounded.
Definition p_int (pz : str -> option Z) (v : str) : fres facet_error Z := parsed FInvalidInt (pz v).
Definition int_type (pz : str -> option Z) (mk : minmax Z -> pattern_facet -> xsd_type) (ps : list param) : fres facet_error xsd_type :=
  fbind (bound_facets Z.ltb Z.leb (p_int pz) no_bounds None ps) (fun '(f, p) => fok (mk f p)).
Definition len_type (mk : length_facet -> xsd_type) (ps : list param) : fres facet_error xsd_type :=
  fbind (length_facets LUnbounded ps) (fun f => fok (mk f)).
Definition str_type (mk : length_facet -> pattern_facet -> xsd_type) (ps : list param) : fres facet_error xsd_type :=
  fbind (string_facets LUnbounded None ps) (fun '(f, p) => fok (mk f p)).
Definition pat_type (mk : pattern_facet -> xsd_type) (ps : list param) : fres facet_error xsd_type :=
  fbind (pattern_facets None ps) (fun p => fok (mk p)).
Definition p_f64 (v : str) : fres facet_error Qc := parsed FInvalidFloat (co_f64 C v).
Definition double_type (ps : list param) : fres facet_error xsd_type :=      (* the bounds are checked, then dropped *)
  fbind (bound_facets qc_ltb qc_leb p_f64 no_bounds None ps) (fun '(_, p) => fok (XDouble p)).

(** xsd.rs:609-764 [Compiler::compile]: the table of type names *)
Definition facet_table : list (string * (list param -> fres facet_error xsd_type)) :=
  [ ("normalizedString"%string, str_type XNormalizedString);
    ("string"%string, str_type XString);
    ("short"%string, int_type (parse_signed (-32768) 32767) XShort);
    ("unsignedShort"%string, int_type (parse_unsigned 65535) XUnsignedShort);
    ("long"%string, int_type (parse_signed (-9223372036854775808) 9223372036854775807) XLong);
    ("int"%string, int_type (parse_signed (-2147483648) 2147483647) XInt);
    ("integer"%string, int_type parse_bigint XInteger);
    ("positiveInteger"%string, int_type (fun s => option_map Z.of_N (parse_biguint s)) XPositiveInteger);
    ("decimal"%string, decimal_facets no_bounds None None None);
    ("double"%string, double_type);
    ("NMTOKENS"%string, len_type XNmTokens);
    ("NMTOKEN"%string, len_type XNmToken);
    ("NCName"%string, len_type XNcName);
    ("token"%string, len_type XToken);
    ("duration"%string, pat_type XDuration);
    ("date"%string, pat_type XDate);
    ("dateTime"%string, pat_type XDatetime);
    ("anyURI"%string, pat_type XAnyURI);
    ("language"%string, pat_type XLanguage);
    ("boolean"%string, pat_type XBoolean);
    ("unsignedInt"%string, int_type (parse_unsigned 4294967295) XUnsignedInt);
    ("ID"%string, pat_type XId);
    ("IDREF"%string, pat_type XIdRef);
    ("unsignedLong"%string, int_type (parse_unsigned 18446744073709551615) XUnsignedLong) ].
Fixpoint find_entry {A} (n : str) (l : list (string * A)) : option A :=
  match l with [] => None | (k, a) :: l' => if is_name n k then Some a else find_entry n l' end.
Definition xsd_compile (name : str) (ps : list param) : fres dt_error xsd_type :=
  match find_entry name facet_table with
  | Some f => fmap_err DFacet (f ps)
  | None => ferr (DUnsupportedDatatype name)
  end.
(** xsd.rs:766-788 [compile_value] *)
Definition xsd_compile_value (name value : str) : fres dt_error xsd_value :=
  if is_name name "string" then fok (XVString value)
  else if is_name name "token" then fok (XVToken (normalize_whitespace value))
  else if is_name name "QName" then
    rbind (qname_try value) (fun o => match o with Some q => fok (XVQName q) | None => ferr DInvalidValue end)
  else Panic PUnimplemented.

(** types.rs:114-122 [DatatypeName], with the prefix already replaced by the namespace
    (relaxng-model lib.rs resolves CName prefixes before calling the compiler). *)
Inductive dtname : Type :=
| DnString | DnToken | DnCName (uri local : str) | DnNamespaced (uri local : str).
Definition xsd_uri : str := lit "http://www.w3.org/2001/XMLSchema-datatypes".   (* xsd.rs:10 *)

(** relax.rs:107-141 *)
Definition relax_name (n : dtname) (ps : list param) : fres dt_error dt :=
  match ps with
  | (k, _) :: _ => ferr (DParamNotAllowed k)
  | [] =>
      match n with
      | DnString => fok DString
      | DnToken => fok DToken
      | DnCName _ l => if is_name l "string" then fok DString else if is_name l "token" then fok DToken else ferr (DNameUnknown l)
      | DnNamespaced _ l => ferr (DNameUnknown l)
      end
  end.
(** relax.rs:72-105 *)
Definition relax_value (n : dtname) (v : str) : fres dt_error dt_value :=
  match n with
  | DnString => fok (VString v)
  | DnToken => fok (VToken (normalize_whitespace v))
  | DnCName _ l => if is_name l "string" then fok (VString v) else if is_name l "token" then fok (VToken (normalize_whitespace v)) else ferr (DNameUnknown l)
  | DnNamespaced _ l => ferr (DNameUnknown l)
  end.
(** xsd.rs:573-607 *)
Definition xsd_name (n : dtname) (ps : list param) : fres dt_error dt :=
  match n with
  | DnCName _ l => fbind (xsd_compile l ps) (fun t => fok (DXsd t))
  | _ => Panic PUnreachable
  end.
Definition xsd_val (n : dtname) (v : str) : fres dt_error dt_value :=
  match n with
  | DnCName _ l => fbind (xsd_compile_value l v) (fun x => fok (VXsd x))
  | DnNamespaced _ _ => Panic PUnimplemented
  | _ => Panic PUnreachable
  end.
(** mod.rs:78-185 [Compiler::datatype_name], [dt_name] *)
Definition datatype_name (n : dtname) (ps : list param) : fres dt_error dt :=
  match n with
  | DnString | DnToken => relax_name n ps
  | DnCName u _ | DnNamespaced u _ =>
      if str_eqb u [] then relax_name n ps
      else if str_eqb u xsd_uri then xsd_name n ps
      else ferr (DUnsupportedLibrary u)
  end.
(** mod.rs:83-105, 187-215 [Compiler::datatype_value], [dt_value] *)
Definition datatype_value (n : dtname) (v : str) : fres dt_error dt_value :=
  match n with
  | DnString | DnToken => relax_value n v
  | DnCName u _ | DnNamespaced u _ =>
      if str_eqb u [] then relax_value n v
      else if str_eqb u xsd_uri then xsd_val n v
      else ferr (DUnsupportedLibrary u)
  end.
End Compile.
