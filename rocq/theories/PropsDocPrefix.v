(** * PropsDocPrefix: the prefixes a document uses (C95).  Only statements.

    At the top of DocPrefix.v: [pre_token pn], a token with every namespace prefix [p] replaced by [pn p], also where
    xmlns:p="..." declares it; [pre_verror], the same in an error; below, [same_verdict O defs start toks toks'], one of
    the two is accepted, rejected, or over the limit of patterns just when the other is. *)
From Coq Require Import String.
From Verif Require Import Base Datatype Store Deriv Events Lang Doc Compile Main Examples ViewExamples DocPrefix.

(** ** C95: every schema, every sequence of tokens, document or not.  The empty prefix and xmlns keep their own *)
Theorem C95_verdict : forall pn, (forall a b, pn a = pn b -> a = b) -> pn nil = nil -> pn xmlns = xmlns ->
  forall O defs start toks, same_verdict O defs start toks (map (pre_token pn) toks).
Proof. exact prefixed. Qed.
(** the error is the same, about the same token *)
Theorem C95_error : forall pn, (forall a b, pn a = pn b -> a = b) -> pn nil = nil -> pn xmlns = xmlns ->
  forall O defs start toks fuel v e, check O defs start toks fuel = Ok (v, Some e) ->
  exists v', check O defs start (map (pre_token pn) toks) fuel = Ok (v', Some (pre_verror pn e)).
Proof. exact prefixed_error. Qed.

(** <r xmlns="d" xmlns:p="u" x="1" p:y="2"><p:a xmlns:p="v"/><p:a/></r> with q for p *)
Example C95_instance O : let pn := exchange (L "p") (L "q") in pn nil = nil /\ pn xmlns = xmlns /\ (forall a b, pn a = pn b -> a = b) /\
  map (pre_token pn) (doc_tokens odd_doc) = doc_tokens (XDoc nil (XElem nil (L "r")
    ((nil, L "xmlns", L "d") :: (L "xmlns", L "q", L "u") :: (nil, L "x", L "1") :: (L "q", L "y", L "2") :: nil) false
    (XElem (L "q") (L "a") ((L "xmlns", L "q", L "v") :: nil) true nil :: XElem (L "q") (L "a") nil true nil :: nil)) nil) /\
  accepts O nil odd_schema (map (pre_token pn) (doc_tokens odd_doc)).
Proof.
  cbv zeta. split; [reflexivity|]. split; [reflexivity|]. split; [exact (exchange_inj (L "p") (L "q"))|]. split; [reflexivity|].
  apply (proj1 (C95_verdict (exchange (L "p") (L "q")) (exchange_inj (L "p") (L "q")) eq_refl eq_refl O nil odd_schema (doc_tokens odd_doc))). exact (odd_accepts O).
Qed.

Print Assumptions C95_verdict.
Print Assumptions C95_error.
