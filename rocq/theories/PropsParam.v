(** * PropsParam: which lists of parameters a type of the XML Schema library takes (C83, C25).  Only statements; the
    specification is ParamSpec.v ([Fault], [Clash], [type_family]), the proofs are in ParamProof.v. *)
From Coq Require Import QArith Qcanon String.
From Verif Require Import Base Datatype Facets DatatypeSpec ParamSpec ParamProof.
Local Open Scope N_scope.

(** ** C83: a list of parameters is accepted exactly if nothing is wrong with any of them, seen after those before it *)
Theorem C83_accepted : forall O C name F, type_family O C name F -> forall ps,
  accepted O C name ps <-> forall a p b, ps = a ++ p :: b -> forall o, ~ Fault C F a p o.
Proof. exact params_accepted. Qed.
Print Assumptions C83_accepted.
(** otherwise the first faulty one decides: which error is reported *)
Theorem C83_error : forall O C name F, type_family O C name F -> forall ps e,
  datatype_name O C (DnCName xsd_uri (lit name)) ps = Ok (inr (DFacet e)) <-> exists a p b, ps = a ++ p :: b /\ accepted O C name a /\ Fault C F a p (Wrong e).
Proof. exact params_wrong. Qed.
Print Assumptions C83_error.
(** or that the compiler panics *)
Theorem C83_panic : forall O C name F, type_family O C name F -> forall ps,
  (exists x, datatype_name O C (DnCName xsd_uri (lit name)) ps = Panic x) <-> exists a p b, ps = a ++ p :: b /\ accepted O C name a /\ Fault C F a p Crash.
Proof. exact params_crash. Qed.
Print Assumptions C83_panic.
Theorem C83_outcome : forall O C name F, type_family O C name F -> forall ps, accepted O C name ps \/
  (exists e, datatype_name O C (DnCName xsd_uri (lit name)) ps = Ok (inr (DFacet e))) \/ exists x, datatype_name O C (DnCName xsd_uri (lit name)) ps = Panic x.
Proof. exact params_outcome. Qed.
Print Assumptions C83_outcome.
(** the types are the 24 of [type_family]; any other name is refused *)
Theorem C83_types : forall O C n ps, datatype_name O C (DnCName xsd_uri n) ps = Ok (inr (DUnsupportedDatatype n)) <-> forall name F, type_family O C name F -> n <> lit name.
Proof. exact types_known. Qed.
Print Assumptions C83_types.

(** the order decides between acceptance and an error: 5 <= x < 5 written in the two orders *)
Example C83_order O C : accepted O C "int" [(lit "minInclusive", lit "5"); (lit "maxExclusive", lit "5")] /\
  ~ accepted O C "int" [(lit "maxExclusive", lit "5"); (lit "minInclusive", lit "5")].
Proof.
  split; [eexists; reflexivity|]. intros H. rewrite (C83_accepted O C "int" _ (Tf_int O C _ _ _ _ Ik_int)) in H.
  assert (R : whole (fun v z => Int_lit v z /\ (-2147483648 <= z <= 2147483647)%Z) (lit "5") (Q2Qc (inject_Z 5))).
  { exists 5%Z. split; [|reflexivity]. split; [|lia]. apply Il_unsigned. apply (Ul_plain (lit "5") 5). apply (Dg_one 53). unfold digit; lia. }
  apply (H [(lit "maxExclusive", lit "5")] (lit "minInclusive", lit "5") [] eq_refl (Wrong FConflict)).
  eapply Fa_clash; [left; reflexivity | exact R | left; reflexivity | exact R |]. apply Cl_up_e; [left; reflexivity | apply Qcle_refl].
Qed.
(** a number of digits has 16 bits *)
Example C83_digits O C : accepted O C "decimal" [(lit "totalDigits", lit "65535"); (lit "fractionDigits", lit "300")] /\
  datatype_name O C (DnCName xsd_uri (lit "decimal")) [(lit "totalDigits", lit "65536")] = Ok (inr (DFacet FInvalidInt)).
Proof. split; [eexists; reflexivity | reflexivity]. Qed.
Example C83_panic_instance O C : exists x, datatype_name O C (DnCName xsd_uri (lit "token")) [(lit "maxLength", lit "5"); (lit "minLength", lit "2")] = Panic x.
Proof.
  apply (C83_panic O C "token" (Lengths false) ltac:(apply Tf_token; cbn; tauto)). exists [(lit "maxLength", lit "5")], (lit "minLength", lit "2"), []. split; [reflexivity|].
  split; [eexists; reflexivity|]. apply (Fa_again C false _ _ _ 2%Z).
  - cbn; tauto.
  - split; [|lia]. apply (Ul_plain (lit "2") 2). apply (Dg_one 50). unfold digit; lia.
  - exists (lit "maxLength"), (lit "5"). split; [left; reflexivity | left; reflexivity].
Qed.
