(** * PropsError: C16 (references that stand for nothing) and C37 (positions of entity errors).
    [rejects_with O defs start toks e]: with enough stack, validating [toks] stops with error [e].
    [BadRef ents s f] (RefSpec.v): [s] begins with a reference that cannot be replaced. *)
From Coq Require Import String.
From Verif Require Import Base Datatype Store Deriv Events Lang Doc Accept Compile Schema Spec SpecFacts Scope Infoset InfosetProof Main Words Verdicts Examples RefSpec RefProof RefExamples.

(** ** C16: the text up to the faulty reference decodes, then an error is reported.
    Missing: entities declared twice ([C16_twice_refuted]), entities of the byte length of the token ([C16_refuted]),
    and the faulty references of [C16_faulty_refuted]. *)
Theorem C16_bad_reference_reported_partial : forall O defs start pre n good s bad f post,
  accepts O defs start pre -> NoDup (map fst (entities pre)) ->
  (forall k v, In (k, v) (entities pre) -> utf8_len v <> utf8_len (good ++ bad)) ->
  Decodes (entities pre) good s -> BadRef (entities pre) bad f ->
  exists e, rejects_with O defs start (pre ++ TText n (good ++ bad) :: post) e /\
    match f with
    | Some name => exists lo hi, e = EUndefinedEntity name lo hi
    | None => exists lo hi, e = EInvalidEntity lo hi
    end.
Proof. exact bad_reference_reported. Qed.

(** ** C37: the range is that of the name, or of the '&', in the document.
    Missing: ranges of faulty numeric references, see [C37_refuted]. *)
Theorem C37_undefined_entity_position : forall O defs start pre n good s name r post,
  accepts O defs start pre -> NoDup (map fst (entities pre)) ->
  (forall k v, In (k, v) (entities pre) -> utf8_len v <> utf8_len (good ++ (38%N :: name ++ 59%N :: r))) ->
  Decodes (entities pre) good s -> ~ In 59%N name -> (forall t, name <> 35%N :: t) -> first_binding name (entities pre) = None ->
  rejects_with O defs start (pre ++ TText n (good ++ 38%N :: name ++ 59%N :: r) :: post)
    (EUndefinedEntity name (n + utf8_len good + 1) (n + utf8_len good + 1 + utf8_len name)).
Proof. exact undefined_position. Qed.
Theorem C37_unclosed_position_partial : forall O defs start pre n good s b post,
  accepts O defs start pre -> NoDup (map fst (entities pre)) ->
  (forall k v, In (k, v) (entities pre) -> utf8_len v <> utf8_len (good ++ 38%N :: b)) ->
  Decodes (entities pre) good s -> b <> [] -> ~ In 59%N b ->
  rejects_with O defs start (pre ++ TText n (good ++ 38%N :: b) :: post) (EInvalidEntity (n + utf8_len good) (n + utf8_len good + 1)).
Proof. exact unclosed_position. Qed.

(** an instance: [<!DOCTYPE e [<!ENTITY who "World">]><e>Hi &who; é&foo;!</e>], with the text at byte 46 *)
Example C37_instance O : rejects_with O [] (string_el (L "e") (L "x")) (err_pre ++ TText 46 (err_good ++ err_bad) :: [])
    (EUndefinedEntity (L "foo") 58 61).
Proof.
  refine (C37_undefined_entity_position O [] _ err_pre 46 err_good _ (L "foo") (L "!") [] (err_accepts O) err_nodup (err_len _ _) err_decodes _ _ _).
  - vm_compute; lia.
  - vm_compute; intuition discriminate.
  - intros t; discriminate.
  - reflexivity.
Qed.
Example C16_bad_instance O : exists e, rejects_with O [] (string_el (L "e") (L "x")) (err_pre ++ TText 46 (err_good ++ L "&#xD800;") :: []) e /\
  exists lo hi, e = EInvalidEntity lo hi.
Proof.
  apply (C16_bad_reference_reported_partial O [] _ err_pre 46 err_good _ (L "&#xD800;") None [] (err_accepts O) err_nodup (err_len (L "&#xD800;") ltac:(vm_compute; lia)) err_decodes).
  apply (B_hex_range _ (L "D800") []).
  - repeat (constructor; [unfold hex_digit; vm_compute; intuition congruence|]). constructor.
  - vm_compute. intuition congruence.
Qed.

(** ** Counterexamples *)
(** faulty references that are not reported: [&#+65;] is read as "A", [&#0;] as U+0000, and a lone '&' at the end is dropped.
    (The documents are not well formed: no [Decodes] derivation exists for their text.) *)
Theorem C16_faulty_refuted : forall O raw, raw = plus_text \/ raw = lone_text \/ raw = zero_text ->
  (forall ents s, ~ Decodes ents raw s) /\
  accepts O [] (MElement (NNamed [] (L "e")) MText) ([TElementStart [] (L "e"); TElementEnd EndOpen] ++ TText 3 raw :: [TElementEnd (EndClose [] (L "e"))]).
Proof.
  intros O raw H. split; [intros ents; apply no_decode; exact H|].
  destruct H as [ -> | [ -> | -> ] ]; eexists; settle_with 40.
Qed.
(** [<e>&#x;</e>]: the text is bytes 3 to 7 of the document, the reported range is at byte 2 *)
Theorem C37_refuted : forall O, exists lo hi, lo < 3 /\
  rejects_with O [] (MElement (NNamed [] (L "e")) MText)
    ([TElementStart [] (L "e"); TElementEnd EndOpen] ++ TText 3 (L "&#x;") :: [TElementEnd (EndClose [] (L "e"))]) (EInvalidEntity lo hi).
Proof. intros O. exists 2, 2. split; [lia|]. eexists. settle_with 40. Qed.

Print Assumptions C16_bad_reference_reported_partial.
Print Assumptions C37_undefined_entity_position.
Print Assumptions C37_unclosed_position_partial.
Print Assumptions C16_faulty_refuted.
Print Assumptions C37_refuted.
