(** * Property theorems about validation (C01-C13, C38).  Only statements; proofs are in the files named.

    Vocabulary: [accepts/rejects/overflows O defs start toks] (Main.v): a fresh validator for the
    schema, fed the tokens until the first error, ends without error / reports an error / panics
    because it needs more than 2^16 patterns.  [Document d root] (Infoset.v): by XML and Namespaces,
    [root] is the content of [d].  [rng_valid] (Spec.v): validity by the RELAX NG specification.
    [rng_schema], [in_limits] (Scope.v), [doc_fits] (Main.v, with [doc_reads], [SplitIn] of Infoset.v):
    schemas and documents in scope. *)
From Coq Require Import Permutation String.
From Verif Require Import Base Datatype Store Deriv Events Lang Doc Accept Compile Schema Spec SpecFacts Scope Infoset InfosetProof Main Steps Perm Reach Words Runs Verdicts Examples BalanceSpec Balance.

(** ** C01.  Full statement: also for documents outside [doc_fits] and schemas outside [in_limits];
    that is false of the code, see Refuted.v. *)
Theorem C01_accepted_is_valid_partial : forall O defs start, rng_schema defs start -> in_limits defs start ->
  forall d root, doc_fits defs start d -> Document d root -> plain_for defs start root ->
  accepts O defs start (doc_tokens d) -> rng_valid O defs start root.
Proof. exact accepted_valid. Qed.
Example C01_instance O : rng_valid O ex_defs ex_start ex_root.
Proof. exact (C01_accepted_is_valid_partial O ex_defs ex_start ex_rng ex_limits ex_doc ex_root (scope_fits _ _ _ ex_scope) ex_document (fun _ => ex_plain) (ex_accepts O)). Qed.

(** ** C02.  Missing: documents relying on weak match 3 (an empty element matched by data accepting
    the empty string), which the code rejects: see [C17_refuted]. *)
Theorem C02_valid_is_accepted_partial : forall O defs start, rng_schema defs start -> in_limits defs start ->
  forall d root, doc_fits defs start d -> Document d root -> plain_for defs start root -> harmless O defs [root] start ->
  rng_valid O defs start root -> accepts O defs start (doc_tokens d) \/ overflows O defs start (doc_tokens d).
Proof. exact valid_accepted. Qed.
Example C02_instance O : accepts O ex_defs ex_start (doc_tokens ex_doc) \/ overflows O ex_defs ex_start (doc_tokens ex_doc).
Proof. exact (C02_valid_is_accepted_partial O ex_defs ex_start ex_rng ex_limits ex_doc ex_root (scope_fits _ _ _ ex_scope) ex_document (fun _ => ex_plain) (ex_harmless O) (C01_instance O)). Qed.

(** both directions in one statement, for the relation [M false], i.e. validity without weak match 3 *)
Theorem C02_decides_partial : forall O defs start, rng_schema defs start -> in_limits defs start ->
  forall d root, doc_fits defs start d -> Document d root -> plain_for defs start root -> ~ overflows O defs start (doc_tokens d) ->
  (accepts O defs start (doc_tokens d) <-> M O defs false [] [root] start).
Proof. exact accepts_iff. Qed.
(** the same with no condition on the white space of the document.  [Mg is_uni_ws]: the relation of the
    specification, except that the tokens of a list are separated by the characters of Unicode's
    White_Space property; [C02_no_lists] : the two agree where no list is used. *)
Theorem C02_decides_any_white_space_partial : forall O defs start, rng_schema defs start -> in_limits defs start ->
  forall d root, doc_fits defs start d -> Document d root -> ~ overflows O defs start (doc_tokens d) ->
  (accepts O defs start (doc_tokens d) <-> Mg is_uni_ws O defs false [] [root] start).
Proof. exact accepts_iff_uni. Qed.
Theorem C02_no_lists : forall sp sp' O defs w3 a m X, uses_lists defs X = false -> (Mg sp O defs w3 a m X <-> Mg sp' O defs w3 a m X).
Proof. exact lists_same. Qed.
Example C02_any_white_space_instance O : Mg is_uni_ws O [] false [] [nbsp_root] nbsp_schema.
Proof. exact (proj1 (C02_decides_any_white_space_partial O [] nbsp_schema nbsp_rng nbsp_lim nbsp_doc nbsp_root (scope_fits _ _ _ nbsp_scope) nbsp_document (nbsp_no_overflow O)) (nbsp_accepts O)). Qed.
Example C02_decides_instance O : M O ex_defs false [] [ex_root] ex_start.
Proof. exact (proj1 (C02_decides_partial O ex_defs ex_start ex_rng ex_limits ex_doc ex_root (scope_fits _ _ _ ex_scope) ex_document (fun _ => ex_plain) (ex_no_overflow O)) (ex_accepts O)). Qed.

(** ** C03 *)
Theorem C03_rejected_prefix_is_hopeless_partial : forall O defs start, rng_schema defs start -> in_limits defs start ->
  forall seen rest d root, rejects O defs start seen -> doc_tokens d = seen ++ rest ->
  doc_fits defs start d -> Document d root -> plain_for defs start root -> harmless O defs [root] start -> ~ rng_valid O defs start root.
Proof. exact rejected_hopeless. Qed.
Example C03_instance O : ~ rng_valid O ex_defs ex_start ex_bad_root.
Proof.
  exact (C03_rejected_prefix_is_hopeless_partial O ex_defs ex_start ex_rng ex_limits ex_bad_seen (skipn 10 (doc_tokens ex_bad)) ex_bad ex_bad_root
    (ex_bad_rejected O) (eq_sym (firstn_skipn 10 _)) (scope_fits _ _ _ ex_bad_scope) ex_bad_document (fun _ => ex_bad_plain) (ex_bad_harmless O)).
Qed.

(** ** C04.  Missing: schemas outside [in_limits]; a legal one panics, see [C04_refuted].  [feed]: a caller that keeps calling validate_next, whatever the results; [stream_ok]:
    attributes and tag ends come after an element start.  The streams are arbitrary otherwise. *)
Theorem C04_total_partial : forall O defs start, rng_schema defs start -> in_limits defs start ->
  exists r, settles (fun fuel => new_validator defs fuel (Some start)) r /\
  match r with
  | Ok v => forall toks, stream_ok false toks -> exists r', settles (fun fuel => feed O fuel v toks) r' /\
      match r' with Ok (v', es) => List.length es = List.length toks | Panic p => p = PTooManyPatterns | OutOfFuel => False end
  | Panic p => p = PTooManyPatterns
  | OutOfFuel => False
  end.
Proof. exact builds_total. Qed.
Example C04_instance O : exists r, settles (fun fuel => new_validator ex_defs fuel (Some ex_start)) r /\
  match r with Ok v => exists r', settles (fun fuel => feed O fuel v
    [TElementStart [] (L "x"); TAttribute [] (L "y") (L "z"); TElementEnd EndOpen; TElementEnd (EndClose [] (L "q")); TText 0 (L "&;")]) r'
  | Panic p => p = PTooManyPatterns | OutOfFuel => False end.
Proof.
  destruct (C04_total_partial O ex_defs ex_start ex_rng ex_limits) as ([v|p|] & S & H); [|exists (Panic p); auto | destruct H].
  exists (Ok v). split; [exact S|]. destruct (H _ ex_stream) as (r' & S' & _). exists r'; exact S'.
Qed.

(** ** C05 *)
Theorem C05_name_class : forall nc q, contains nc q = true <-> in_class nc q.
Proof. exact contains_in_class. Qed.
Example C05_instance : contains (NAnyName (Some (NAlt (NNsName (L "u") (Some (NNamed (L "u") (L "a")))) (NNamed [] (L "b"))))) (QName (Some (L "u")) (L "a")) = true
  /\ ~ in_class (NAnyName (Some (NAlt (NNsName (L "u") (Some (NNamed (L "u") (L "a")))) (NNamed [] (L "b"))))) (QName (Some (L "u")) (L "z")).
Proof. split; [reflexivity|]. intros H. apply C05_name_class in H. discriminate H. Qed.

(** ** C06 *)
Theorem C06_attribute_order_partial : forall O defs start d d' root, rng_schema defs start -> in_limits defs start ->
  doc_fits defs start d -> Document d root -> reordered d d' ->
  (accepts O defs start (doc_tokens d) -> accepts O defs start (doc_tokens d') \/ overflows O defs start (doc_tokens d')) /\
  (rejects O defs start (doc_tokens d) -> rejects O defs start (doc_tokens d') \/ overflows O defs start (doc_tokens d')).
Proof. exact order_irrelevant. Qed.
Example C06_instance O : accepts O [] two_atts (doc_tokens (XDoc [] (XElem [] (L "e") [([], L "b", L "2"); ([], L "a", L "1")] false []) []))
   \/ overflows O [] two_atts (doc_tokens (XDoc [] (XElem [] (L "e") [([], L "b", L "2"); ([], L "a", L "1")] false []) [])).
Proof. exact (proj1 (C06_attribute_order_partial O [] two_atts _ _ _ two_rng two_lim (scope_fits _ _ _ ab_scope) ab_document ab_reordered) (ab_accepts O)). Qed.

(** ** C07.  From any state a caller can reach, for any schema and any token stream. *)
Theorem C07_invisible_tokens : forall O defs start v, reachable O defs start v -> forall fuel,
  (forall t, invisible_token t = true -> validate O fuel v t = Ok (v, None)) /\
  (forall toks, run O fuel v toks = run O fuel v (filter (fun t => negb (invisible_token t)) toks)).
Proof. exact reachable_invisible. Qed.
(** [ex_reachable]: a state inside a start tag, with an element stack of depth 4, is reachable; used here and below *)
Example C07_instance O : exists v, reachable O ex_defs ex_start v /\ validate O 9 v (TComment (L "c")) = Ok (v, None).
Proof. destruct (ex_reachable O) as (v & R & _). exists v. split; [exact R|]. apply (proj1 (C07_invisible_tokens O ex_defs ex_start v R 9)). reflexivity. Qed.

(** ** C08 *)
Theorem C08_empty_element_tag : forall O defs start v, reachable O defs start v -> forall fuel p l,
  match run O fuel v [TElementEnd EndEmpty], run O fuel v [TElementEnd EndOpen; TElementEnd (EndClose p l)] with
  | Ok (v1, None), Ok (v2, None) => v1 = v2
  | Ok (_, Some _), Ok (_, Some _) => True
  | Panic x, Panic y => x = y
  | OutOfFuel, OutOfFuel => True
  | _, _ => False
  end.
Proof. exact reachable_empty. Qed.
Example C08_instance O : exists v v1 fuel, reachable O ex_defs ex_start v /\ List.length (v_stack v) = 4 /\
  run O fuel v [TElementEnd EndEmpty] = Ok (v1, None) /\ run O fuel v [TElementEnd EndOpen; TElementEnd (EndClose [] (L "name"))] = Ok (v1, None).
Proof. exact (ex_empty O). Qed.

(** ** C09.  The expectation is the pattern under the current handle. *)
Theorem C09_rejected_token : forall O defs start v, reachable O defs start v -> forall fuel t v' e,
  validate O fuel v t = Ok (v', Some e) ->
  v_cur v' = v_cur v /\ nth_error (pats (v_store v')) (v_cur v') = nth_error (pats (v_store v)) (v_cur v).
Proof. exact reachable_rejected. Qed.
Example C09_instance O : exists v v' e, reachable O ex_defs ex_start v /\ List.length (v_stack v) = 4 /\
  validate O 40 v (TElementEnd EndOpen) = Ok (v', Some e) /\ v_cur v' = v_cur v.
Proof. exact (ex_rejected O). Qed.

(** ** C10 *)
(** handles issued earlier keep denoting the same pattern *)
Theorem C10_handles_stable : forall O v fuel t v' e i p,
  validate O fuel v t = Ok (v', e) -> nth_error (pats (v_store v)) i = Some p -> nth_error (pats (v_store v')) i = Some p.
Proof. exact reachable_stable. Qed.
(** pushing a pattern gives a handle of that pattern; pushing it again later gives the same handle *)
Theorem C10_handles_shared : forall O defs start v, reachable O defs start v -> forall p i st, is_placeholder p = false ->
  push p (v_store v) = Ok (i, st) ->
  nth_error (pats st) i = Some p /\ (forall j st2 st3, grows st st2 -> push p st2 = Ok (j, st3) -> j = i /\ st3 = st2).
Proof. exact reachable_shared. Qed.
(** never more than 2^16 patterns, so every handle fits 16 bits; beyond that, a panic *)
Theorem C10_limit : forall O defs start v, reachable O defs start v ->
  (N.of_nat (List.length (pats (v_store v))) <= 65536)%N /\ (N.of_nat (v_cur v) < 65536)%N /\
  (forall p, (65536 <= N.of_nat (List.length (pats (v_store v))))%N -> push p (v_store v) = Panic PTooManyPatterns).
Proof. exact reachable_limit. Qed.

(** ** C11 *)
Theorem C11_attribute_value : forall O defs l nc p x v,
  rng_schema defs (MElement (NNamed [] l) (MAttribute nc p)) -> in_limits defs (MElement (NNamed [] l) (MAttribute nc p)) ->
  ordinary_name x -> Forall plain_char v -> (uses_lists defs p = true -> plain v) ->
  ~ overflows O defs (MElement (NNamed [] l) (MAttribute nc p)) (doc_tokens (el l [([], x, v)] [])) ->
  (accepts O defs (MElement (NNamed [] l) (MAttribute nc p)) (doc_tokens (el l [([], x, v)] [])) <->
   in_class nc (QName None x) /\ (blank v /\ M O defs true [] [] p \/ M O defs true [] [Txt v] p)).
Proof. exact attribute_value. Qed.
Example C11_instance O : blank (L "  ") /\ M O [] true [] [] (MChoice [MValue (VToken (L "on")); MEmpty])
  \/ M O [] true [] [Txt (L "  ")] (MChoice [MValue (VToken (L "on")); MEmpty]).
Proof.
  refine (proj2 (proj1 (C11_attribute_value O [] (L "e") _ _ (L "yes") (L "  ") enum_rng enum_lim _ _ _ _) (proj1 (proj2 (enum_accepts O))))).
  - repeat split; discriminate.
  - repeat constructor; try discriminate.
  - discriminate.
  - intros H. exact (acc_over _ _ _ _ (proj1 (proj2 (enum_accepts O))) H).
Qed.
(** with no condition on the white space: lists are split at Unicode white space *)
Theorem C11_attribute_value_any_white_space : forall O defs l nc p x v,
  rng_schema defs (MElement (NNamed [] l) (MAttribute nc p)) -> in_limits defs (MElement (NNamed [] l) (MAttribute nc p)) ->
  ordinary_name x -> Forall plain_char v ->
  ~ overflows O defs (MElement (NNamed [] l) (MAttribute nc p)) (doc_tokens (el l [([], x, v)] [])) ->
  (accepts O defs (MElement (NNamed [] l) (MAttribute nc p)) (doc_tokens (el l [([], x, v)] [])) <->
   in_class nc (QName None x) /\ (blank v /\ Mg is_uni_ws O defs true [] [] p \/ Mg is_uni_ws O defs true [] [Txt v] p)).
Proof. exact attribute_value_uni. Qed.

(** ** C12.  [Words s ws]: the white space separated words of [s] are [ws]. *)
Theorem C12_list_partial : forall O defs l s, s <> [] -> ~ In 38%N s -> (forall c, In c s -> is_uni_ws c = true -> is_xml_ws c = true) ->
  forall p ws, rng_schema defs (MElement (NNamed [] l) (MList p)) -> in_limits defs (MElement (NNamed [] l) (MList p)) -> Words s ws ->
  ~ overflows O defs (MElement (NNamed [] l) (MList p)) (doc_tokens (el l [] [XText 0 s])) ->
  (accepts O defs (MElement (NNamed [] l) (MList p)) (doc_tokens (el l [] [XText 0 s])) <-> M O defs true [] (map Txt ws) p).
Proof. exact list_accepts. Qed.
Example C12_instance O : M O [] true [] (map Txt [L "12"; L "-3"]) (MOneOrMore (MData (DXsd (XInt unb None)) None)).
Proof.
  refine (proj1 (C12_list_partial O [] (L "e") (L " 12  -3") _ _ _ _ _ ints_rng ints_lim ints_words _) (proj1 (ints_accepts O))).
  - discriminate.
  - cbn; intuition discriminate.
  - intros c H Hw. cbn in H. repeat (destruct H as [<-|H]; [vm_compute in Hw |- *; congruence|]). destruct H.
  - intros H. exact (acc_over _ _ _ _ (proj1 (ints_accepts O)) H).
Qed.

(** exactly what the code does, whatever the white space: [Runs is_uni_ws s ws]: the runs of [s] between
    characters of Unicode's White_Space property are [ws]. *)
Theorem C12_list_exact : forall O defs l s, s <> [] -> ~ In 38%N s ->
  forall p ws, rng_schema defs (MElement (NNamed [] l) (MList p)) -> in_limits defs (MElement (NNamed [] l) (MList p)) -> Runs is_uni_ws s ws ->
  ~ overflows O defs (MElement (NNamed [] l) (MList p)) (doc_tokens (el l [] [XText 0 s])) ->
  (accepts O defs (MElement (NNamed [] l) (MList p)) (doc_tokens (el l [] [XText 0 s])) <-> Mg is_uni_ws O defs true [] (map Txt ws) p).
Proof. exact list_accepts_uni. Qed.
Example C12_exact_instance O : Mg is_uni_ws O [] true [] (map Txt [[49%N]; [50%N]]) (MGroup [MData DToken None; MData DToken None]).
Proof.
  refine (proj1 (C12_list_exact O [] (L "e") [49%N; 160%N; 50%N] _ _ _ _ nbsp_rng nbsp_lim nbsp_runs _) (nbsp_accepts O)).
  - discriminate.
  - cbn; intuition discriminate.
  - exact (nbsp_no_overflow O).
Qed.

(** ** C13 *)
Theorem C13_except : forall O defs l s, s <> [] -> ~ In 38%N s ->
  forall d e, rng_schema defs (MElement (NNamed [] l) (MData d (Some e))) -> in_limits defs (MElement (NNamed [] l) (MData d (Some e))) ->
  ~ overflows O defs (MElement (NNamed [] l) (MData d (Some e))) (doc_tokens (el l [] [XText 0 s])) ->
  (accepts O defs (MElement (NNamed [] l) (MData d (Some e))) (doc_tokens (el l [] [XText 0 s])) <->
   dt_valid O d s = Ok true /\ ~ M O defs true [] [Txt s] e).
Proof. exact except_accepts. Qed.
Example C13_instance O : dt_valid O DString (L " x") = Ok true /\ ~ M O [] true [] [Txt (L " x")] (MChoice [MValue (VString (L "x")); MValue (VToken (L "y"))]).
Proof.
  refine (proj1 (C13_except O [] (L "e") (L " x") _ _ _ _ but_rng but_lim _) (proj1 (but_accepts O))).
  - discriminate.
  - cbn; intuition discriminate.
  - intros H. exact (acc_over _ _ _ _ (proj1 (but_accepts O)) H).
Qed.

(** ** C16.  The element only admits the string [x]: so the string matched for the text [raw] is the
    decoded one.  Missing: texts outside [doc_scope] (an entity of exactly the byte length of the
    token, empty or repeated entities), where the code differs, see [C16_refuted]; errors are in PropsError.v. *)
Theorem C16_references_decoded_partial : forall O prolog l n raw s x,
  doc_scope (text_in prolog l n raw) -> Decodes (entities prolog) raw s ->
  ~ overflows O [] (string_el l x) (doc_tokens (text_in prolog l n raw)) ->
  (accepts O [] (string_el l x) (doc_tokens (text_in prolog l n raw)) <-> s = x /\ s <> []).
Proof. exact references_decoded. Qed.
Example C16_instance O : accepts O [] (string_el (L "e") (L "Hi World!!")) (doc_tokens (text_in who_prolog (L "e") 0 who_raw)) <->
  L "Hi World!!" = L "Hi World!!" /\ L "Hi World!!" <> [].
Proof.
  refine (C16_references_decoded_partial O who_prolog (L "e") 0 who_raw (L "Hi World!!") (L "Hi World!!") who_scope who_decodes _).
  - intros H. exact (acc_over _ _ _ _ (who_accepts O) H).
Qed.

(** ** C18.  Missing: that the root element is there and is closed when the input ends, and that an
    end tag has the name of its start tag; both are false, see [C18_refuted].  [fits] (BalanceSpec.v). *)
Theorem C18_next_token_fits_partial : forall O defs start, rng_schema defs start -> in_limits defs start ->
  forall toks, accepts O defs start toks ->
  (forall seen t rest, toks = seen ++ t :: rest -> fits seen t) /\ total closes_one toks <= total opens_one toks.
Proof. exact accepted_fits. Qed.
(** when the tags balance, the stream is one element [t :: content] (from the end of its start tag to
    its end tag), with no tags before and after it *)
Theorem C18_balanced_is_complete_partial : forall O defs start, rng_schema defs start -> in_limits defs start ->
  forall toks, accepts O defs start toks -> total closes_one toks = total opens_one toks -> 1 <= total opens_one toks ->
  exists before t content after, toks = before ++ (t :: content) ++ after /\ opens_one t = 1 /\
    Forall (fun x => opens_one x = 0 /\ closes_one x = 0) (before ++ after) /\
    total closes_one (t :: content) = total opens_one (t :: content) /\
    forall a b, t :: content = a ++ b -> a <> [] -> b <> [] -> total closes_one a < total opens_one a.
Proof. exact balanced_complete. Qed.
Example C18_instance (O : oracles) : total closes_one (doc_tokens ex_doc) = total opens_one (doc_tokens ex_doc) /\ 1 < total opens_one (doc_tokens ex_doc) /\
  (forall seen t rest, doc_tokens ex_doc = seen ++ t :: rest -> fits seen t).
Proof.
  split; [reflexivity|]. split; [vm_compute; repeat constructor|].
  exact (proj1 (C18_next_token_fits_partial O ex_defs ex_start ex_rng ex_limits (doc_tokens ex_doc) (ex_accepts O))).
Qed.

(** ** C38 *)
Theorem C38_content_decides_partial : forall O defs start, rng_schema defs start -> in_limits defs start ->
  forall d d' root, doc_fits defs start d -> doc_fits defs start d' -> Document d root -> Document d' root ->
  ~ overflows O defs start (doc_tokens d) -> ~ overflows O defs start (doc_tokens d') ->
  (accepts O defs start (doc_tokens d) <-> accepts O defs start (doc_tokens d')).
Proof. exact same_content. Qed.

Print Assumptions C01_accepted_is_valid_partial.
Print Assumptions C02_valid_is_accepted_partial.
Print Assumptions C02_decides_partial.
Print Assumptions C03_rejected_prefix_is_hopeless_partial.
Print Assumptions C04_total_partial.
Print Assumptions C05_name_class.
Print Assumptions C06_attribute_order_partial.
Print Assumptions C07_invisible_tokens.
Print Assumptions C08_empty_element_tag.
Print Assumptions C09_rejected_token.
Print Assumptions C10_handles_stable.
Print Assumptions C10_handles_shared.
Print Assumptions C10_limit.
Print Assumptions C11_attribute_value.
Print Assumptions C12_list_partial.
Print Assumptions C12_list_exact.
Print Assumptions C02_decides_any_white_space_partial.
Print Assumptions C02_no_lists.
Print Assumptions C11_attribute_value_any_white_space.
Print Assumptions C13_except.
Print Assumptions C16_references_decoded_partial.
Print Assumptions C18_next_token_fits_partial.
Print Assumptions C18_balanced_is_complete_partial.
Print Assumptions C38_content_decides_partial.
