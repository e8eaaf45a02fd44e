(** * Base: strings, outcomes, small shared definitions.

    A Rust [&str]/[String] is modelled as the list of its Unicode scalar values.  Byte
    offsets and byte lengths, where the code uses them, are computed with [utf8_len]. *)
From Coq Require Export List Arith NArith ZArith Lia Bool.
From Coq Require Import String Ascii.
Export ListNotations.

Definition str := list N.

Definition str_eq_dec : forall a b : str, {a = b} + {a <> b} := list_eq_dec N.eq_dec.
Definition str_eqb (a b : str) : bool := if str_eq_dec a b then true else false.

Lemma str_eqb_eq a b : str_eqb a b = true <-> a = b.
Proof. unfold str_eqb; destruct (str_eq_dec a b); split; congruence. Qed.
Lemma str_eqb_neq a b : str_eqb a b = false <-> a <> b.
Proof. unfold str_eqb; destruct (str_eq_dec a b); split; congruence. Qed.
Lemma str_eqb_refl a : str_eqb a a = true.
Proof. apply str_eqb_eq; reflexivity. Qed.

(** Literal helper: ASCII text as a [str]. *)
Fixpoint lit (s : string) : str :=
  match s with
  | EmptyString => []
  | String c s' => N_of_ascii c :: lit s'
  end.

(** Number of bytes of the UTF-8 encoding of a scalar value ([str::len] counts bytes). *)
Definition utf8_width (c : N) : nat :=
  if (c <? 128)%N then 1 else if (c <? 2048)%N then 2 else if (c <? 65536)%N then 3 else 4.
Fixpoint utf8_len (s : str) : nat :=
  match s with [] => 0 | c :: s' => utf8_width c + utf8_len s' end.

(** Panics the modelled code can raise (explicit outcome instead of unwinding). *)
Inductive panic : Type :=
| PTooManyPatterns        (* validator lib.rs:90-92 *)
| PanPlaceholder          (* unreachable!("Placeholder") lib.rs:982, 1055, 1247 *)
| PApplyAfter             (* lib.rs:1078 *)
| PResolveToPlaceholder   (* lib.rs:225 *)
| PResolveNotPlaceholder  (* lib.rs:233 *)
| PMissingDefinition      (* lib.rs:604 *)
| PUnwrapNone             (* an unwrap() of None, e.g. lib.rs:560, 1595, 1618 *)
| PIndex                  (* out of bounds patterns[id] lib.rs:241 *)
| PUnimplemented          (* unimplemented!() *)
| PUnreachable            (* unreachable!() / panic! elsewhere *)
| PSubspan.               (* codemap's assertion in Span::subspan, model lib.rs:328 etc. *)

(** Outcome of a computation: a value, a panic, or (artefact of the model only) the recursion
    budget was exhausted.  Theorems exclude [OutOfFuel] by quantifying over large fuel. *)
Inductive res (A : Type) : Type :=
| Ok (a : A)
| Panic (p : panic)
| OutOfFuel.
Arguments Ok {A} a.
Arguments Panic {A} p.
Arguments OutOfFuel {A}.

Definition rbind {A B} (x : res A) (f : A -> res B) : res B :=
  match x with Ok a => f a | Panic p => Panic p | OutOfFuel => OutOfFuel end.

Definition opt_bind {A B} (x : option A) (f : A -> option B) : option B :=
  match x with Some a => f a | None => None end.

(** XML white space: space, tab, CR, LF.
    relaxng-validator/src/lib.rs:1545-1551 [is_whitespace_char], [is_whitespace_str];
    [xml::common::is_whitespace_str] used at lib.rs:968, 976 is the same predicate. *)
Definition is_xml_ws (c : N) : bool :=
  ((c =? 32) || (c =? 9) || (c =? 13) || (c =? 10))%N.
Definition is_whitespace_str (s : str) : bool := forallb is_xml_ws s.

(** Unicode White_Space, the predicate behind [str::split_whitespace] (lib.rs:936). *)
Definition is_uni_ws (c : N) : bool :=
  (((9 <=? c) && (c <=? 13)) || (c =? 32) || (c =? 133) || (c =? 160) || (c =? 5760)
   || ((8192 <=? c) && (c <=? 8202)) || (c =? 8232) || (c =? 8233) || (c =? 8239)
   || (c =? 8287) || (c =? 12288))%N.

(** [char::is_ascii_whitespace]: space, tab, LF, FF, CR (no VT). *)
Definition is_ascii_ws (c : N) : bool :=
  ((c =? 32) || (c =? 9) || (c =? 10) || (c =? 12) || (c =? 13))%N.

(** [split_while ws s]: maximal runs of non-[ws] characters, in order. *)
Fixpoint split_on (ws : N -> bool) (cur : str) (s : str) : list str :=
  match s with
  | [] => match cur with [] => [] | _ => [rev cur] end
  | c :: s' =>
      if ws c then match cur with [] => split_on ws [] s' | _ => rev cur :: split_on ws [] s' end
      else split_on ws (c :: cur) s'
  end.
(** [str::split_whitespace]. *)
Definition split_whitespace (s : str) : list str := split_on is_uni_ws [] s.
