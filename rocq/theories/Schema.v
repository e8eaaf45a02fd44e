(** * Schema: static conditions on schemas (independent of compilation). *)
From Verif Require Import Base Datatype Store Deriv Lang Compile.

Section Static.
Variable O : oracles.
Variable allowed : panic -> Prop.
Variable defs : list mpat.

Definition body (r : nat) : option mpat := nth_error defs r.

(** [Nul X]: [X] matches no attributes and no content. *)
Inductive Nul : mpat -> Prop :=
| Nul_empty : Nul MEmpty
| Nul_text : Nul MText
| Nul_opt p : Nul (MOptional p)
| Nul_zero p : Nul (MZeroOrMore p)
| Nul_one p : Nul p -> Nul (MOneOrMore p)
| Nul_mixed p : Nul p -> Nul (MMixed p)
| Nul_ch1 x l : Nul x -> Nul (MChoice (x :: l))
| Nul_ch2 x l : Nul (MChoice l) -> Nul (MChoice (x :: l))
| Nul_gr1 x : Nul x -> Nul (MGroup [x])
| Nul_gr x l : Nul x -> Nul (MGroup l) -> Nul (MGroup (x :: l))
| Nul_in1 x : Nul x -> Nul (MInterleave [x])
| Nul_in x l : Nul x -> Nul (MInterleave l) -> Nul (MInterleave (x :: l))
| Nul_ref r X : body r = Some X -> Nul X -> Nul (MRef r).

(** Patterns the smart constructors may reduce to notAllowed / empty / a bare reference. *)
Inductive na_able : mpat -> Prop :=
| na_na : na_able MNotAllowed
| na_ref r X : body r = Some X -> na_able X -> na_able (MRef r)
| na_ch1 x : na_able x -> na_able (MChoice [x])
| na_ch x l : na_able x -> na_able (MChoice l) -> na_able (MChoice (x :: l))
| na_gr1 x l : na_able x -> na_able (MGroup (x :: l))
| na_gr2 x l : na_able (MGroup l) -> na_able (MGroup (x :: l))
| na_in1 x l : na_able x -> na_able (MInterleave (x :: l))
| na_in2 x l : na_able (MInterleave l) -> na_able (MInterleave (x :: l))
| na_mixed p : na_able p -> na_able (MMixed p).
Inductive empty_able : mpat -> Prop :=
| em_empty : empty_able MEmpty
| em_ref r X : body r = Some X -> empty_able X -> empty_able (MRef r)
| em_opt_na p : na_able p -> empty_able (MOptional p)
| em_opt_em p : empty_able p -> empty_able (MOptional p)
| em_ch1 x : empty_able x -> empty_able (MChoice [x])
| em_chl x l : empty_able x -> na_able (MChoice l) -> empty_able (MChoice (x :: l))
| em_chr x l : na_able x -> empty_able (MChoice l) -> empty_able (MChoice (x :: l))
| em_ch x l : empty_able x -> empty_able (MChoice l) -> empty_able (MChoice (x :: l))
| em_gr1 x : empty_able x -> empty_able (MGroup [x])
| em_gr x l : empty_able x -> empty_able (MGroup l) -> empty_able (MGroup (x :: l))
| em_in1 x : empty_able x -> empty_able (MInterleave [x])
| em_in x l : empty_able x -> empty_able (MInterleave l) -> empty_able (MInterleave (x :: l)).
Inductive alias : mpat -> nat -> Prop :=
| al_ref r : alias (MRef r) r
| al_ch1 x m : alias x m -> alias (MChoice [x]) m
| al_chl x l m : alias x m -> na_able (MChoice l) \/ alias (MChoice l) m -> alias (MChoice (x :: l)) m
| al_chr x l m : alias (MChoice l) m -> na_able x \/ alias x m -> alias (MChoice (x :: l)) m
| al_gr1 x m : alias x m -> alias (MGroup [x]) m
| al_grl x l m : alias x m -> empty_able (MGroup l) -> alias (MGroup (x :: l)) m
| al_grr x l m : alias (MGroup l) m -> empty_able x -> alias (MGroup (x :: l)) m
| al_in1 x m : alias x m -> alias (MInterleave [x]) m
| al_inl x l m : alias x m -> empty_able (MInterleave l) -> alias (MInterleave (x :: l)) m
| al_inr x l m : alias (MInterleave l) m -> empty_able x -> alias (MInterleave (x :: l)) m.

(** [refs_in X r]: [X] mentions definition [r]. *)
Fixpoint refs_in (X : mpat) (r : nat) : Prop :=
  match X with
  | MChoice l | MInterleave l | MGroup l =>
      (fix go (l : list mpat) : Prop := match l with [] => False | x :: l' => refs_in x r \/ go l' end) l
  | MMixed p | MOptional p | MZeroOrMore p | MOneOrMore p | MAttribute _ p | MElement _ p | MList p => refs_in p r
  | MRef r' => r' = r
  | MData _ (Some e) => refs_in e r
  | MData _ None | MValue _ | MEmpty | MText | MNotAllowed => False
  end.
(** [reach r r']: definition [r] leads to [r'] through one or more references. *)
Inductive reach : nat -> nat -> Prop :=
| reach_one r r' X : body r = Some X -> refs_in X r' -> reach r r'
| reach_trans a b c : reach a b -> reach b c -> reach a c.
(** [ureach X r]: [X] leads to [r] without entering element, attribute or list. *)
Inductive ureach : mpat -> nat -> Prop :=
| ur_ref r : ureach (MRef r) r
| ur_trans r X r' : body r = Some X -> ureach X r' -> ureach (MRef r) r'
| ur_ch x l r : In x l -> ureach x r -> ureach (MChoice l) r
| ur_gr x l r : In x l -> ureach x r -> ureach (MGroup l) r
| ur_in x l r : In x l -> ureach x r -> ureach (MInterleave l) r
| ur_mixed p r : ureach p r -> ureach (MMixed p) r
| ur_opt p r : ureach p r -> ureach (MOptional p) r
| ur_zero p r : ureach p r -> ureach (MZeroOrMore p) r
| ur_one p r : ureach p r -> ureach (MOneOrMore p) r.
(** [good X]: the recursive definitions met at the level of [X] are not nullable. *)
Definition good (X : mpat) : Prop :=
  forall r Y, ureach X r -> reach r r -> body r = Some Y -> ~ Nul Y.
Definition more_ok (X : mpat) : Prop :=
  good X \/ exists r Y, X = MRef r /\ body r = Some Y /\ good Y.

(** Content types (an upper bound), and in the same derivation guardedness: the derivation goes
    through references but not into elements. *)
Inductive TYP : nat -> ctype -> mpat -> Prop :=
| Ty_sub j j' t t' X : TYP j t X -> j <= j' -> (match t, t' with TE, _ | TN, TN | TN, TA | TA, TA => True | _, _ => False end) -> TYP j' t' X
| Ty_ch1 j t x : TYP j t x -> TYP j t (MChoice [x])
| Ty_ch j t x l : TYP j t x -> TYP j t (MChoice l) -> TYP j t (MChoice (x :: l))
| Ty_gr1 j t x : TYP j t x -> TYP j t (MGroup [x])
| Ty_gr j t x l : TYP j t x -> TYP j t (MGroup l) -> TYP j t (MGroup (x :: l))
| Ty_in1 j t x : TYP j t x -> TYP j t (MInterleave [x])
| Ty_in j t x l : t <> TA -> TYP j t x -> TYP j t (MInterleave l) -> TYP j t (MInterleave (x :: l))
| Ty_inl j x l : TYP j TE x -> TYP j TA (MInterleave l) -> TYP j TA (MInterleave (x :: l))
| Ty_inr j x l : TYP j TA x -> TYP j TE (MInterleave l) -> TYP j TA (MInterleave (x :: l))
| Ty_mixed j p : TYP j TN p -> TYP j TN (MMixed p)
| Ty_empty j t : TYP j t MEmpty
| Ty_text j : TYP j TN MText
| Ty_na j t : TYP j t MNotAllowed
| Ty_opt j t p : TYP j t p -> TYP j t (MOptional p)
| Ty_zero j t p : TYP j t p -> TYP j t (MZeroOrMore p)
| Ty_one j t p : TYP j t p -> TYP j t (MOneOrMore p)
| Ty_attr j j' t nc p : TYP j' TA p -> TYP j t (MAttribute nc p)
| Ty_elem j nc p : TYP j TN (MElement nc p)
| Ty_ref j t r X : body r = Some X -> TYP j t X -> TYP j t (MRef r)
| Ty_value j v : TYP j TA (MValue v)
| Ty_data j d ex : TYP j TA (MData d ex)
| Ty_list j p : TYP j TA p -> TYP (S j) TA (MList p).

(** Except patterns. *)
Inductive EXC : mpat -> Prop :=
| Ex_na : EXC MNotAllowed
| Ex_ch1 x : EXC x -> EXC (MChoice [x])
| Ex_ch x l : EXC x -> EXC (MChoice l) -> EXC (MChoice (x :: l))
| Ex_data d : EXC (MData d None)
| Ex_except d e : EXC e -> EXC (MData d (Some e))
| Ex_value v : EXC (MValue v)
| Ex_ref r X : body r = Some X -> EXC X -> EXC (MRef r).

(** Conditions on every subpattern.  [T] bounds the content type of elements by their name class. *)
Variable T : nameclass -> ctype.
Fixpoint SOK (X : mpat) : Prop :=
  match X with
  | MChoice l | MInterleave l | MGroup l =>
      l <> [] /\ (fix go (l : list mpat) : Prop := match l with [] => True | x :: l' => SOK x /\ go l' end) l
  | MMixed p | MOptional p => SOK p
  | MZeroOrMore p | MOneOrMore p => SOK p /\ more_ok p
  | MAttribute _ p | MList p => SOK p /\ good p
  | MElement nc p => SOK p /\ exists j, TYP j (T nc) p
  | MRef r => body r <> None
  | MValue v => value_fine allowed v
  | MData d ex => dt_fine O allowed d /\ match ex with Some e => SOK e /\ EXC e | None => True end
  | MEmpty | MText | MNotAllowed => True
  end.

(** The start pattern: elements only. *)
Inductive START : mpat -> Prop :=
| St_na : START MNotAllowed
| St_elem nc p : START (MElement nc p)
| St_ch1 x : START x -> START (MChoice [x])
| St_ch x l : START x -> START (MChoice l) -> START (MChoice (x :: l))
| St_ref r X : body r = Some X -> START X -> START (MRef r).

(** A definition must not be a bare alias of a definition that leads back to it. *)
Definition no_alias : Prop :=
  forall n m X, body n = Some X -> alias X m -> m <> n /\ ~ reach m n.

Record schema_ok (start : mpat) : Prop := {
  so_defs : forall r X, body r = Some X -> SOK X;
  so_start : SOK start;
  so_root : START start;
  so_alias : no_alias
}.

End Static.
