(** * RefProof: bad references are reported (C16, error side, and C37). *)
From Verif Require Import Base Datatype Store Deriv Events Lang Doc DocProof Accept Compile Schema Infoset InfosetProof Main Steps Reach Examples RefSpec.
Open Scope nat_scope.

Section Refs.
Variables ents ce : list (str * str).
Hypothesis Hce : forall k, lookup_str k ce = first_binding k ents.
Variable textlen : nat.
Hypothesis Hlen : forall k v, first_binding k ents = Some v -> utf8_len v <> textlen.

(** a decodable text followed by '&' *)
Lemma fill_prefix raw s : Decodes ents raw s -> forall pos off cur buf rest, utf8_len cur + utf8_len raw < textlen ->
  exists buf', fill_buffer ce textlen buf (parse_entities pos off false cur (raw ++ 38%N :: rest)) =
    fill_buffer ce textlen buf' (parse_entities pos (off + utf8_len cur + utf8_len raw + 1) true [] rest).
Proof.
  induction 1 as [|c r s Hc HD IH|h name v r s Hh Hn Hb HD IH|d ds r s Hd Hx HD IH|d ds r s Hd Hx HD IH]; intros pos off cur buf rest Hlt.
  - cbn [app]. rewrite parse_amp. cbn [fill_buffer]. rewrite utf8_len_rev. cbn [utf8_len] in *.
    rewrite (proj2 (Nat.eqb_neq _ _)) by lia. eexists. do 2 f_equal. lia.
  - cbn [app parse_entities]. destruct (N.eqb_spec c 38); [contradiction|].
    destruct (IH pos off (c :: cur) buf rest) as [b E]; [cbn [utf8_len] in *; lia|]. exists b. rewrite E. do 2 f_equal. cbn [utf8_len]. lia.
  - change ((38%N :: (h :: name) ++ 59%N :: r) ++ 38%N :: rest) with (38%N :: (h :: name ++ 59%N :: r) ++ 38%N :: rest).
    rewrite parse_amp. cbn [fill_buffer]. rewrite utf8_len_rev. cbn [utf8_len] in Hlt. change (utf8_width 38) with 1 in Hlt.
    rewrite (proj2 (Nat.eqb_neq _ _)) by lia. change (h :: name ++ 59%N :: r) with ((h :: name) ++ 59%N :: r) in *. rewrite <- app_assoc. cbn [app] in Hlt. change ((59%N :: r) ++ 38%N :: rest) with (59%N :: r ++ 38%N :: rest).
    rewrite scan_ref by exact Hn. cbn [rev app ref_item].
    destruct (N.eqb_spec h 35); [contradiction|]. cbn [fill_buffer]. rewrite Hce, Hb. rewrite (proj2 (Nat.eqb_neq _ _)) by (eapply Hlen; exact Hb).
    destruct (IH pos (off + utf8_len cur + 1 + utf8_len (h :: name) + 1) [] ((buf ++ rev cur) ++ v) rest) as [b E].
    + cbn [utf8_len] in *. rewrite utf8_len_app in Hlt. cbn [utf8_len] in Hlt. lia.
    + exists b. rewrite E. do 2 f_equal. cbn [utf8_len app]. rewrite utf8_len_app. cbn [utf8_len]. change (utf8_width 38) with 1. change (utf8_width 59) with 1. lia.
  - change ((38%N :: 35%N :: (d :: ds) ++ 59%N :: r) ++ 38%N :: rest) with (38%N :: (35%N :: (d :: ds) ++ 59%N :: r) ++ 38%N :: rest).
    rewrite parse_amp. cbn [fill_buffer]. rewrite utf8_len_rev. cbn [utf8_len] in Hlt. change (utf8_width 38) with 1 in Hlt.
    rewrite (proj2 (Nat.eqb_neq _ _)) by lia.
    change (35%N :: (d :: ds) ++ 59%N :: r) with ((35%N :: d :: ds) ++ 59%N :: r). rewrite <- app_assoc. cbn [app] in Hlt. change ((59%N :: r) ++ 38%N :: rest) with (59%N :: r ++ 38%N :: rest).
    rewrite scan_ref by (intros [E|Hi]; [discriminate E | revert Hi; eapply digits_no_semi; [|exact Hd]; unfold dec_digit; intros; lia]).
    cbn [rev app ref_item]. rewrite N.eqb_refl, (numeric_dec _ _ _ Hd Hx). cbn [fill_buffer].
    destruct (IH pos (off + utf8_len cur + 1 + utf8_len (35%N :: d :: ds) + 1) [] ((buf ++ rev cur) ++ [dec_number (d :: ds)]) rest) as [b E].
    + cbn [utf8_len] in *. rewrite utf8_len_app in Hlt. cbn [utf8_len] in Hlt. lia.
    + exists b. rewrite E. do 2 f_equal. cbn [utf8_len app]. rewrite utf8_len_app. cbn [utf8_len]. change (utf8_width 38) with 1. change (utf8_width 59) with 1. lia.
  - change ((38%N :: 35%N :: 120%N :: (d :: ds) ++ 59%N :: r) ++ 38%N :: rest) with (38%N :: (35%N :: 120%N :: (d :: ds) ++ 59%N :: r) ++ 38%N :: rest).
    rewrite parse_amp. cbn [fill_buffer]. rewrite utf8_len_rev. cbn [utf8_len] in Hlt. change (utf8_width 38) with 1 in Hlt.
    rewrite (proj2 (Nat.eqb_neq _ _)) by lia.
    change (35%N :: 120%N :: (d :: ds) ++ 59%N :: r) with ((35%N :: 120%N :: d :: ds) ++ 59%N :: r). rewrite <- app_assoc. cbn [app] in Hlt. change ((59%N :: r) ++ 38%N :: rest) with (59%N :: r ++ 38%N :: rest).
    rewrite scan_ref by (intros [E|[E|Hi]]; [discriminate E | discriminate E | revert Hi; eapply digits_no_semi; [|exact Hd]; unfold hex_digit; intros; lia]).
    cbn [rev app ref_item]. rewrite N.eqb_refl, (numeric_hex _ _ _ Hd Hx). cbn [fill_buffer].
    destruct (IH pos (off + utf8_len cur + 1 + utf8_len (35%N :: 120%N :: d :: ds) + 1) [] ((buf ++ rev cur) ++ [hex_number (d :: ds)]) rest) as [b E].
    + cbn [utf8_len] in *. rewrite utf8_len_app in Hlt. cbn [utf8_len] in Hlt. lia.
    + exists b. rewrite E. do 2 f_equal. cbn [utf8_len app]. rewrite utf8_len_app. cbn [utf8_len]. change (utf8_width 38) with 1. change (utf8_width 59) with 1. lia.
Qed.
End Refs.

(** ** numerals that are no numerals *)
Lemma digit_val_dec c : ~ dec_digit c -> digit_val 10 c = None.
Proof.
  unfold dec_digit, digit_val. intros H. destruct (N.leb_spec 48 c), (N.leb_spec c 57); cbn [andb]; [lia| | |];
    (destruct (N.leb_spec 97 c), (N.leb_spec c 122); cbn [andb]; destruct (N.leb_spec 65 c), (N.leb_spec c 90); cbn [andb]; try reflexivity;
     match goal with |- context [(?x <? 10)%N] => destruct (N.ltb_spec x 10); [lia | reflexivity] end).
Qed.
Lemma digit_val_hex c : ~ hex_digit c -> digit_val 16 c = None.
Proof.
  unfold hex_digit, digit_val. intros H. destruct (N.leb_spec 48 c), (N.leb_spec c 57); cbn [andb]; [lia| | |];
    (destruct (N.leb_spec 97 c), (N.leb_spec c 122); cbn [andb]; destruct (N.leb_spec 65 c), (N.leb_spec c 90); cbn [andb]; try reflexivity;
     match goal with |- context [(?x <? 16)%N] => destruct (N.ltb_spec x 16); [lia | reflexivity] end).
Qed.
Lemma digits_val_none radix (P : N -> Prop) : (forall c, P c \/ ~ P c) -> (forall c, ~ P c -> digit_val radix c = None) ->
  forall s acc, ~ Forall P s -> digits_val radix acc s = None.
Proof.
  intros Hd HP. induction s as [|c s IH]; intros acc Hn; [destruct Hn; constructor|]. cbn [digits_val].
  destruct (digit_val radix c) eqn:E; [|reflexivity]. apply IH. intros Hf. apply Hn. constructor; [|exact Hf].
  destruct (Hd c) as [|Hc]; [assumption|]. rewrite (HP c Hc) in E. discriminate E.
Qed.
Lemma dec_digit_dec c : dec_digit c \/ ~ dec_digit c. Proof. unfold dec_digit. lia. Qed.
Lemma hex_digit_dec c : hex_digit c \/ ~ hex_digit c. Proof. unfold hex_digit. lia. Qed.
Lemma not_scalar n : ~ scalar n -> char_from_u32 n = None.
Proof.
  unfold scalar, char_from_u32. intros H. destruct (N.ltb_spec n 55296); [lia|]. cbn [orb].
  destruct (N.leb_spec 57344 n); [|reflexivity]. destruct (N.ltb_spec n 1114112); [lia | reflexivity].
Qed.
Lemma numeric_dec_range off d ds : Forall dec_digit (d :: ds) -> ~ scalar (dec_number (d :: ds)) ->
  numeric_entity off (d :: ds) = inr (EInvalidEntity off off).
Proof.
  intros Hd Hx. unfold numeric_entity. inversion Hd as [|? ? H0 _]; subst. unfold dec_digit in H0.
  destruct (N.eqb_spec d 120); [lia|]. unfold parse_u32. destruct (N.eqb_spec d 43); [lia|].
  rewrite (dec_digits_val _ Hd). fold (dec_number (d :: ds)). destruct (_ <? _)%N; [|reflexivity]. rewrite not_scalar by exact Hx. reflexivity.
Qed.
Lemma numeric_hex_range off d ds : Forall hex_digit (d :: ds) -> ~ scalar (hex_number (d :: ds)) ->
  exists lo, numeric_entity off (120%N :: d :: ds) = inr (EInvalidEntity lo lo).
Proof.
  intros Hd Hx. unfold numeric_entity. rewrite N.eqb_refl. inversion Hd as [|? ? H0 _]; subst. unfold hex_digit in H0.
  unfold parse_u32. destruct (N.eqb_spec d 43); [lia|].
  rewrite (hex_digits_val _ Hd). fold (hex_number (d :: ds)). destruct (_ <? _)%N; [|eexists; reflexivity]. rewrite not_scalar by exact Hx. eexists; reflexivity.
Qed.
Lemma numeric_dec_bad off c b : c <> 43%N -> c <> 120%N -> ~ Forall dec_digit (c :: b) -> numeric_entity off (c :: b) = inr (EInvalidEntity off off).
Proof.
  intros H1 H2 H3. unfold numeric_entity. destruct (N.eqb_spec c 120); [contradiction|]. unfold parse_u32. destruct (N.eqb_spec c 43); [contradiction|].
  rewrite (digits_val_none 10 dec_digit dec_digit_dec digit_val_dec _ _ H3). reflexivity.
Qed.
Lemma numeric_hex_bad off c b : c <> 43%N -> ~ Forall hex_digit (c :: b) -> numeric_entity off (120%N :: c :: b) = inr (EInvalidEntity (off + 1) (off + 1)).
Proof.
  intros H1 H3. unfold numeric_entity. rewrite N.eqb_refl. unfold parse_u32. destruct (N.eqb_spec c 43); [contradiction|].
  rewrite (digits_val_none 16 hex_digit hex_digit_dec digit_val_hex _ _ H3). reflexivity.
Qed.
Lemma scan_open pos off w : ~ In 59%N w -> forall cur, w <> [] \/ cur <> [] ->
  parse_entities pos off true cur w = [inr (EInvalidEntity (pos + off - 1) (pos + off))].
Proof.
  induction w as [|c w IH]; intros Hn cur Hc; cbn [parse_entities].
  - destruct cur; [destruct Hc as [H|H]; congruence | reflexivity].
  - destruct (N.eqb_spec c 59) as [->|]; [destruct Hn; left; reflexivity|]. apply IH; [intros H; apply Hn; right; exact H | right; discriminate].
Qed.

(** ** one text token *)
Definition reported (n : nat) (good : str) (f : option str) (e : verror) : Prop :=
  match f with
  | Some name => e = EUndefinedEntity name (n + utf8_len good + 1) (n + utf8_len good + 1 + utf8_len name)
  | None => exists lo hi, e = EInvalidEntity lo hi
  end.
Section Text.
Variables ents ce : list (str * str).
Hypothesis Hce : forall k, lookup_str k ce = first_binding k ents.
Theorem bad_text n good s bad f : (forall k v, first_binding k ents = Some v -> utf8_len v <> utf8_len (good ++ bad)) ->
  Decodes ents good s -> BadRef ents bad f -> exists e, text_data ce n (good ++ bad) = inr e /\ reported n good f e /\
    (forall b, bad = 38%N :: b -> ~ In 59%N b -> e = EInvalidEntity (n + utf8_len good) (n + utf8_len good + 1)).
Proof.
  intros Hlen HD HB. unfold text_data.
  assert (Hb0 : exists rest, bad = 38%N :: rest) by (destruct HB; eexists; reflexivity). destruct Hb0 as [rest Er].
  assert (Hlt : utf8_len (@nil N) + utf8_len good < utf8_len (good ++ bad)).
  { rewrite utf8_len_app, Er. cbn [utf8_len]. change (utf8_width 38) with 1. lia. }
  destruct (fill_prefix ents ce Hce (utf8_len (good ++ bad)) Hlen good s HD n 0 [] [] rest Hlt) as [b E].
  set (tl := utf8_len (good ++ bad)) in *. clearbody tl. rewrite Er. rewrite E. clear E Hlt Hlen. set (off := 0 + utf8_len [] + utf8_len good + 1).
  assert (Hoff : off = utf8_len good + 1) by reflexivity. clearbody off.
  assert (Hclosed : forall w r, ~ In 59%N w -> rest = w ++ 59%N :: r ->
    fill_buffer ce tl b (parse_entities n off true [] rest) = fill_buffer ce tl b (ref_item n off w :: parse_entities n (off + utf8_len w + 1) false [] r)).
  { intros w r Hw ->. rewrite scan_ref by exact Hw. reflexivity. }
  assert (Hnum : forall w t r e, ~ In 59%N w -> w = 35%N :: t -> rest = w ++ 59%N :: r -> numeric_entity off t = inr e ->
    fill_buffer ce tl b (parse_entities n off true [] rest) = inr e).
  { intros w t r e Hw -> Er' Ee. rewrite (Hclosed _ _ Hw Er'). cbn [ref_item]. rewrite N.eqb_refl, Ee. reflexivity. }
  assert (Hsem : forall A, ~ In 59%N rest -> (exists w r, rest = w ++ 59%N :: r) -> A : Prop).
  { intros A H (w & r & E). destruct H. rewrite E. apply in_or_app. right; left; reflexivity. }
  destruct HB as [name r Hn Hh Hf|r|r|ds r Hd Hx|ds r Hd Hx|c b0 r H1 H2 Hn Hd|c b0 r H1 Hn Hd|b0 Hb Hn]; injection Er as Er; subst rest.
  - eexists; split; [|split; [reflexivity|]].
    + rewrite (Hclosed _ _ Hn eq_refl). unfold ref_item. destruct name as [|h t].
      * cbn [fill_buffer]. rewrite Hce, Hf. cbn [utf8_len]. do 2 f_equal; lia.
      * destruct (N.eqb_spec h 35) as [->|_]; [exfalso; exact (Hh t eq_refl)|]. cbn [fill_buffer]. rewrite Hce, Hf. do 2 f_equal; lia.
    + intros b1 [= <-] H. apply Hsem; [exact H | eauto].
  - eexists; split; [|split; [do 2 eexists; reflexivity|]].
    + rewrite (Hnum [35%N] [] r (EInvalidEntity off off)); [reflexivity | cbn; intuition discriminate | reflexivity | reflexivity | reflexivity].
    + intros b1 [= <-] H. destruct H. right; left; reflexivity.
  - eexists; split; [|split; [do 2 eexists; reflexivity|]].
    + rewrite (Hnum [35%N; 120%N] [120%N] r (EInvalidEntity (off + 1) (off + 1))); [reflexivity | cbn; intuition discriminate | reflexivity | reflexivity | reflexivity].
    + intros b1 [= <-] H. destruct H. right; right; left; reflexivity.
  - destruct ds as [|d ds]; [destruct Hx; cbn; left; lia|].
    eexists; split; [|split; [do 2 eexists; reflexivity|]].
    + rewrite (Hnum (35%N :: d :: ds) (d :: ds) r (EInvalidEntity off off)); [reflexivity | | reflexivity | reflexivity | apply numeric_dec_range; assumption].
      intros [E|Hi]; [discriminate E|]. revert Hi. eapply digits_no_semi; [|exact Hd]. unfold dec_digit; intros; lia.
    + intros b1 [= <-] H. apply Hsem; [exact H | exists (35%N :: d :: ds), r; reflexivity].
  - destruct ds as [|d ds]; [destruct Hx; cbn; left; lia|].
    destruct (numeric_hex_range off d ds Hd Hx) as [lo El].
    eexists; split; [|split; [do 2 eexists; reflexivity|]].
    + rewrite (Hnum (35%N :: 120%N :: d :: ds) (120%N :: d :: ds) r (EInvalidEntity lo lo)); [reflexivity | | reflexivity | reflexivity | exact El].
      intros [E|[E|Hi]]; [discriminate E | discriminate E|]. revert Hi. eapply digits_no_semi; [|exact Hd]. unfold hex_digit; intros; lia.
    + intros b1 [= <-] H. apply Hsem; [exact H | exists (35%N :: 120%N :: d :: ds), r; reflexivity].
  - eexists; split; [|split; [do 2 eexists; reflexivity|]].
    + rewrite (Hnum (35%N :: c :: b0) (c :: b0) r (EInvalidEntity off off)); [reflexivity | | reflexivity | reflexivity | apply numeric_dec_bad; assumption].
      intros [E|Hi]; [discriminate E | exact (Hn Hi)].
    + intros b1 [= <-] H. apply Hsem; [exact H | exists (35%N :: c :: b0), r; reflexivity].
  - eexists; split; [|split; [do 2 eexists; reflexivity|]].
    + rewrite (Hnum (35%N :: 120%N :: c :: b0) (120%N :: c :: b0) r (EInvalidEntity (off + 1) (off + 1))); [reflexivity | | reflexivity | reflexivity | apply numeric_hex_bad; assumption].
      intros [E|[E|Hi]]; [discriminate E | discriminate E | exact (Hn Hi)].
    + intros b1 [= <-] H. apply Hsem; [exact H | exists (35%N :: 120%N :: c :: b0), r; reflexivity].
  - rewrite scan_open; [|exact Hn | left; exact Hb]. cbn [fill_buffer]. eexists; split; [reflexivity|].
    assert (E1 : n + off - 1 = n + utf8_len good) by lia. assert (E2 : n + off = n + utf8_len good + 1) by lia. rewrite E1, E2.
    split; [do 2 eexists; reflexivity|]. reflexivity.
Qed.
End Text.

(** ** token streams *)
Definition rejects_with O defs start toks e : Prop := exists v, settles (check O defs start toks) (Ok (v, Some e)).
Lemma validate_ents O fuel v t v' e : validate O fuel v t = Ok (v', e) ->
  v_ents v' = ents_after (v_ents v) [t].
Proof.
  unfold validate. destruct (validate_step O fuel v t (v_store v)) as [[r st]|p|] eqn:Es; cbn [rbind]; try discriminate.
  assert (Hse : forall w, stack_effect v t = Ok w -> v_ents w = ents_after (v_ents v) [t]).
  { intros w. unfold stack_effect. destruct t as [| | | | | |nn [d|]| | | | |]; cbn [ents_after];
      try (intros [= <-]; reflexivity). destruct (add_attr _ _ _ _) as [s|p|]; cbn [rbind]; try discriminate. intros [= <-]; reflexivity. }
  destruct (stack_effect v t) as [w|p|]; cbn [rbind]; try discriminate. specialize (Hse w eq_refl).
  destruct r as [[new|]|er].
  - destruct (patt new st) as [[x st2]|p|]; cbn [rbind]; try discriminate. destruct (is_not_allowed x); intros [= <- <-]; exact Hse.
  - intros [= <- <-]; exact Hse.
  - intros [= <- <-]; exact Hse.
Qed.
Lemma ents_after_app a b : forall e, ents_after e (a ++ b) = ents_after (ents_after e a) b.
Proof. induction a as [|t a IH]; intros e; cbn [app]; [reflexivity|]. destruct t as [| | | | | |nn [d|]| | | | |]; cbn [ents_after]; apply IH. Qed.
Lemma run_ents O fuel toks : forall v v', run O fuel v toks = Ok (v', None) -> v_ents v' = ents_after (v_ents v) toks.
Proof.
  induction toks as [|t toks IH]; intros v v'; cbn [run]; [intros [= <-]; reflexivity|].
  destruct (validate O fuel v t) as [[w e]|p|] eqn:E; cbn [rbind]; try discriminate. destruct e; [discriminate|]. intros H.
  rewrite (IH _ _ H), (validate_ents _ _ _ _ _ _ E). change (t :: toks) with ([t] ++ toks). rewrite ents_after_app. reflexivity.
Qed.
Lemma table_first pre : NoDup (map fst (entities pre)) -> forall k, lookup_str k (ents_after initial_entities pre) = first_binding k (entities pre).
Proof.
  intros HN k.
  assert (HI : forall x, In x (ents_after initial_entities pre) <-> In x (entities pre)).
  { intros x. rewrite ents_after_In, initial_predefined. unfold entities. rewrite in_app_iff. tauto. }
  destruct (first_binding k (entities pre)) as [v|] eqn:E.
  - eapply lookup_first; [exact HN | intros x; apply HI | intros x; apply HI | exact E].
  - destruct (lookup_str k _) as [v|] eqn:E2; [|reflexivity]. exfalso. apply lookup_str_In, HI in E2.
    clear -E E2. induction (entities pre) as [|[k' v'] l IH]; [destruct E2|]. cbn in E, E2. destruct (str_eqb k k') eqn:Ek; [discriminate E|].
    destruct E2 as [[= -> ->]|E2]; [|exact (IH E E2)]. rewrite (proj2 (str_eqb_eq k k) eq_refl) in Ek. discriminate Ek.
Qed.
Theorem bad_reference O defs start pre n good s bad f post :
  accepts O defs start pre -> NoDup (map fst (entities pre)) ->
  (forall k v, In (k, v) (entities pre) -> utf8_len v <> utf8_len (good ++ bad)) ->
  Decodes (entities pre) good s -> BadRef (entities pre) bad f ->
  exists e, rejects_with O defs start (pre ++ TText n (good ++ bad) :: post) e /\ reported n good f e /\
    (forall b, bad = 38%N :: b -> ~ In 59%N b -> e = EInvalidEntity (n + utf8_len good) (n + utf8_len good + 1)).
Proof.
  intros [v [m Hm]] HN Hlen HD HB.
  destruct (bad_text (entities pre) (ents_after initial_entities pre) (table_first pre HN) n good s bad f) as (e & He & Hr & Hu); [|exact HD | exact HB|].
  { intros k w Hw. exact (Hlen k w (first_binding_In _ _ _ Hw)). }
  exists e; split; [|split; [exact Hr | exact Hu]].
  assert (Hv : v_ents v = ents_after initial_entities pre /\ nth_error (pats (v_store v)) (v_cur v) <> None).
  { specialize (Hm m (le_n m)). split.
    - unfold check in Hm. destruct (new_validator defs m (Some start)) as [v0|p|] eqn:E0; cbn [rbind] in Hm; try discriminate Hm.
      rewrite (run_ents _ _ _ _ _ Hm). f_equal. unfold new_validator in E0. destruct (compile defs m start empty_store) as [[i st]|p|]; cbn [rbind] in E0; try discriminate E0.
      injection E0 as <-. reflexivity.
    - destruct (reachable_facts O defs start v (check_reachable _ _ _ _ _ _ _ Hm)) as (H1 & _). exact H1. }
  destruct Hv as [Hv Hl].
  exists v. exists m. intros k Hk. specialize (Hm k Hk). unfold check in *.
  destruct (new_validator defs k (Some start)) as [v0|p|]; cbn [rbind] in *; try discriminate Hm.
  rewrite run_app, Hm. cbn [rbind run]. unfold validate, validate_step, bind, patt.
  destruct (nth_error (pats (v_store v)) (v_cur v)) as [x|] eqn:Ex; [|congruence]. rewrite Hv, He. cbn [rbind ret stack_effect]. destruct v; reflexivity.
Qed.

Lemma bad_reference_reported : forall O defs start pre n good s bad f post,
  accepts O defs start pre -> NoDup (map fst (entities pre)) ->
  (forall k v, In (k, v) (entities pre) -> utf8_len v <> utf8_len (good ++ bad)) ->
  Decodes (entities pre) good s -> BadRef (entities pre) bad f ->
  exists e, rejects_with O defs start (pre ++ TText n (good ++ bad) :: post) e /\
    match f with
    | Some name => exists lo hi, e = EUndefinedEntity name lo hi
    | None => exists lo hi, e = EInvalidEntity lo hi
    end.
Proof. intros. edestruct bad_reference as (e & K1 & K2 & _); try eassumption. exists e; split; [exact K1|]. destruct f; [do 2 eexists|]; exact K2. Qed.
Lemma undefined_position : forall O defs start pre n good s name r post,
  accepts O defs start pre -> NoDup (map fst (entities pre)) ->
  (forall k v, In (k, v) (entities pre) -> utf8_len v <> utf8_len (good ++ (38%N :: name ++ 59%N :: r))) ->
  Decodes (entities pre) good s -> ~ In 59%N name -> (forall t, name <> 35%N :: t) -> first_binding name (entities pre) = None ->
  rejects_with O defs start (pre ++ TText n (good ++ 38%N :: name ++ 59%N :: r) :: post)
    (EUndefinedEntity name (n + utf8_len good + 1) (n + utf8_len good + 1 + utf8_len name)).
Proof. intros. edestruct bad_reference as (e & K7 & K8 & _); [eassumption..| | ]; [apply B_undefined; eassumption|]. cbn in K8. subst e. exact K7. Qed.
Lemma unclosed_position : forall O defs start pre n good s b post,
  accepts O defs start pre -> NoDup (map fst (entities pre)) ->
  (forall k v, In (k, v) (entities pre) -> utf8_len v <> utf8_len (good ++ 38%N :: b)) ->
  Decodes (entities pre) good s -> b <> [] -> ~ In 59%N b ->
  rejects_with O defs start (pre ++ TText n (good ++ 38%N :: b) :: post) (EInvalidEntity (n + utf8_len good) (n + utf8_len good + 1)).
Proof. intros. edestruct bad_reference as (e & K7 & _ & K8); [eassumption..| | ]; [apply B_unclosed; eassumption|]. rewrite <- (K8 b eq_refl) by assumption. exact K7. Qed.
