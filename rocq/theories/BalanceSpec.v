(** * BalanceSpec: which token can come next in a document, as far as nesting goes (C18). *)
From Verif Require Import Base Datatype Store Deriv Events Compile Schema Spec.

(** a token that ends a start tag / that is (or includes) an end tag *)
Definition opens_one (t : token) : nat := match t with TElementEnd EndOpen | TElementEnd EndEmpty => 1 | _ => 0 end.
Definition closes_one (t : token) : nat := match t with TElementEnd (EndClose _ _) | TElementEnd EndEmpty => 1 | _ => 0 end.
Fixpoint total (f : token -> nat) (l : list token) : nat := match l with [] => 0 | t :: l' => f t + total f l' end.

(** [fits seen t]: after [seen], token [t] can come next in some document. *)
Record fits (seen : list token) (t : token) : Prop := Fits {
  (* an end tag needs an open element *)
  fits_end : forall p l, t = TElementEnd (EndClose p l) -> total closes_one seen < total opens_one seen;
  (* a start tag needs an open element, or to be the first one *)
  fits_start : opens_one t = 1 -> total closes_one seen < total opens_one seen \/ total opens_one seen = 0;
  (* outside the root element, only white space *)
  fits_cdata : forall s, t = TCdata s -> total closes_one seen = total opens_one seen -> blank s;
  fits_text : forall i s, t = TText i s -> ~ In 38%N s -> total closes_one seen = total opens_one seen -> blank s }.

