(** * Accessors: the public accessors of the facets of a compiled datatype.
    relaxng-model/src/datatype/xsd.rs:203-230 ([StringFacets]), 352-414 ([MinMaxFacet]).

    A code generator reads the bounds of a type through them.  Arithmetic that overflows panics, as it does in a
    build with overflow checks ([PUnreachable]); without them the fixed-width types wrap around. *)
From Coq Require Import QArith Qcanon String.
From Verif Require Import Base Datatype Facets.
Local Open Scope N_scope.

(** xsd.rs:203-205 [StringFacets::bounded] *)
Definition len_bounded (l : length_facet) : bool := match l with LUnbounded => false | _ => true end.
(** xsd.rs:207-215 [min_len] *)
Definition min_len (l : length_facet) : option N :=
  match l with
  | LUnbounded => None | LMin m => Some m | LMax _ => None | LMinMax m _ => Some m | LLength n => Some n
  end.
(** xsd.rs:217-225 [max_len] *)
Definition max_len (l : length_facet) : option N :=
  match l with
  | LUnbounded => None | LMin _ => None | LMax m => Some m | LMinMax _ m => Some m | LLength n => Some n
  end.

Section MinMax.
Context {T : Type} (add1 sub1 : T -> res T).       (* [v + T::from(1)], [v - T::from(1)] *)
(** xsd.rs:357-363 [min], 385-391 [min_cloned] *)
Definition facet_min (m : minmax T) : res (option T) :=
  match mm_min m with
  | BUnbounded => Ok None
  | BIncl v => Ok (Some v)
  | BExcl v => rbind (add1 v) (fun w => Ok (Some w))
  end.
(** xsd.rs:371-377 [max], 399-405 [max_cloned] *)
Definition facet_max (m : minmax T) : res (option T) :=
  match mm_max m with
  | BUnbounded => Ok None
  | BIncl v => Ok (Some v)
  | BExcl v => rbind (sub1 v) (fun w => Ok (Some w))
  end.
(** xsd.rs:412-414 [bounded] *)
Definition mm_bounded (m : minmax T) : bool :=
  match mm_min m, mm_max m with BUnbounded, BUnbounded => false | _, _ => true end.
End MinMax.

(** the arithmetic of i16, i32, i64, u16, u32, u64 *)
Definition add1_to (hi v : Z) : res Z := if (v <? hi)%Z then Ok (v + 1)%Z else Panic PUnreachable.
Definition sub1_from (lo v : Z) : res Z := if (lo <? v)%Z then Ok (v - 1)%Z else Panic PUnreachable.
(** of num_bigint: BigInt and BigUint add without limit; BigUint panics below 0 *)
Definition add1_big (v : Z) : res Z := Ok (v + 1)%Z.
Definition sub1_big (v : Z) : res Z := Ok (v - 1)%Z.
(** of bigdecimal *)
Definition add1_dec (v : Qc) : res Qc := Ok (v + 1)%Qc.
Definition sub1_dec (v : Qc) : res Qc := Ok (v - 1)%Qc.

(** the facets of the variants of [XsdDatatypes] (xsd.rs:39-69) *)
Definition string_parts (d : dt) : option (length_facet * pattern_facet) :=
  match d with DXsd (XString l p) | DXsd (XNormalizedString l p) => Some (l, p) | _ => None end.
Definition int_parts (d : dt) : option (minmax Z * pattern_facet) :=
  match d with
  | DXsd (XShort m p) | DXsd (XUnsignedShort m p) | DXsd (XLong m p) | DXsd (XInt m p) | DXsd (XInteger m p)
  | DXsd (XPositiveInteger m p) | DXsd (XUnsignedInt m p) | DXsd (XUnsignedLong m p) => Some (m, p)
  | _ => None
  end.
Definition decimal_parts (d : dt) : option (minmax Qc * pattern_facet) :=
  match d with DXsd (XDecimal m p _ _) => Some (m, p) | _ => None end.
