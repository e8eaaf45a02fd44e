(** * Verdicts: consequences of the main theorem, in the form the property theorems use. *)
From Coq Require Import Permutation String.
From Verif Require Import Base Datatype Store Deriv Events Lang LangFacts Doc Accept Compile Schema CompileProof Final Spec SpecFacts Sound Scope Infoset InfosetProof Main Steps Perm Reach Words Runs.

Section V.
Variable O : oracles.
Variable defs : list mpat.
Variable start : mpat.
Hypothesis Hrng : rng_schema defs start.
Hypothesis Hlim : in_limits defs start.

Lemma accepted_valid d root : doc_fits defs start d -> Document d root -> plain_for defs start root ->
  accepts O defs start (doc_tokens d) -> rng_valid O defs start root.
Proof.
  intros Hs HD Hp HA. destruct (main_decides O defs start Hrng Hlim d root Hs HD Hp) as [[_ H]|[[H _]|H]].
  - apply (proj1 (M_false_true O defs)); exact H.
  - destruct (acc_rej _ _ _ _ HA H).
  - destruct (acc_over _ _ _ _ HA H).
Qed.
Lemma valid_accepted d root : doc_fits defs start d -> Document d root -> plain_for defs start root -> harmless O defs [root] start ->
  rng_valid O defs start root -> accepts O defs start (doc_tokens d) \/ overflows O defs start (doc_tokens d).
Proof.
  intros Hs HD Hp Hh HV. destruct (main_decides O defs start Hrng Hlim d root Hs HD Hp) as [[H _]|[[_ H]|H]]; auto.
  exfalso. apply H. apply weak3_harmless; assumption.
Qed.
(** exact characterisation, with the relation without weak match 3 *)
Lemma accepts_iff d root : doc_fits defs start d -> Document d root -> plain_for defs start root -> ~ overflows O defs start (doc_tokens d) ->
  (accepts O defs start (doc_tokens d) <-> M O defs false [] [root] start).
Proof.
  intros Hs HD Hp Ho. destruct (main_decides O defs start Hrng Hlim d root Hs HD Hp) as [[H1 H2]|[[H1 H2]|H]]; [tauto | |tauto].
  split; [intros HA; destruct (acc_rej _ _ _ _ HA H1) | tauto].
Qed.
(** whatever the white space in the document *)
Lemma accepts_iff_uni d root : doc_fits defs start d -> Document d root -> ~ overflows O defs start (doc_tokens d) ->
  (accepts O defs start (doc_tokens d) <-> Mg is_uni_ws O defs false [] [root] start).
Proof.
  intros Hs HD Ho. destruct (main_decides_uni O defs start Hrng Hlim d root Hs HD) as [[H1 H2]|[[H1 H2]|H]]; [tauto | |tauto].
  split; [intros HA; destruct (acc_rej _ _ _ _ HA H1) | tauto].
Qed.
Lemma pieces_decide d root : doc_reads d -> (forall q, SplitIn initial_env (d_root d) q -> no_data defs start q) ->
  Document d root -> plain_for defs start root -> ~ overflows O defs start (doc_tokens d) ->
  (accepts O defs start (doc_tokens d) <-> M O defs false [] [root] start).
Proof. intros H1 H2. apply accepts_iff. constructor; assumption. Qed.
Lemma run_app fuel a b : forall v, run O fuel v (a ++ b) =
  rbind (run O fuel v a) (fun '(v', e) => match e with Some er => Ok (v', Some er) | None => run O fuel v' b end).
Proof.
  induction a as [|t a IH]; intros v; [reflexivity|]. cbn [run app]. destruct (validate O fuel v t) as [[v' [e|]]| |]; cbn [rbind]; auto.
Qed.
Lemma rejects_app a b : rejects O defs start a -> rejects O defs start (a ++ b).
Proof.
  intros (v & e & n & H). exists v, e, n. intros m Hm. specialize (H m Hm). unfold check in *.
  destruct (new_validator defs m (Some start)) as [v0| |]; cbn [rbind] in *; try discriminate.
  rewrite run_app, H. reflexivity.
Qed.
Lemma rejected_hopeless seen rest d root : rejects O defs start seen -> doc_tokens d = seen ++ rest ->
  doc_fits defs start d -> Document d root -> plain_for defs start root -> harmless O defs [root] start -> ~ rng_valid O defs start root.
Proof.
  intros HR HE Hs HD Hp Hh HV. pose proof (rejects_app _ rest HR) as H. rewrite <- HE in H.
  destruct (valid_accepted d root Hs HD Hp Hh HV) as [HA|HA]; [exact (acc_rej _ _ _ _ HA H) | exact (rej_over _ _ _ _ H HA)].
Qed.

(** ** Totality *)
Lemma builds_total : exists r, settles (fun fuel => new_validator defs fuel (Some start)) r /\
  match r with
  | Ok v => forall toks, stream_ok false toks -> exists r', settles (fun fuel => feed O fuel v toks) r' /\
      match r' with Ok (v', es) => List.length es = List.length toks | Panic p => p = PTooManyPatterns | OutOfFuel => False end
  | Panic p => p = PTooManyPatterns
  | OutOfFuel => False
  end.
Proof.
  pose proof (scope_ok defs O start Hrng Hlim) as Hok.
  destruct (new_validator_ok O lim defs any_type start Hok) as (n & r & Hn & Hr).
  exists r. split; [exists n; exact Hn|]. destruct Hr as [->|(st & id & -> & HI & HR & HSE & HG & HK)]; [reflexivity|].
  intros toks Hst.
  destruct (feed_total O lim any_type eq_refl toks (Validator st id false [] initial_entities) false) as (n2 & r2 & Hn2 & Hr2).
  - split; [exact HG|]. split; [reflexivity|]. exists 0, TN, []. exact HK.
  - discriminate.
  - exact Hst.
  - exists r2. split; [exists n2; exact Hn2|]. destruct r2 as [[v' es]|p|]; [apply Hr2 | exact Hr2 | exact Hr2].
Qed.

(** ** Documents with the same content *)
Lemma same_content d d' root : doc_fits defs start d -> doc_fits defs start d' -> Document d root -> Document d' root ->
  ~ overflows O defs start (doc_tokens d) -> ~ overflows O defs start (doc_tokens d') ->
  (accepts O defs start (doc_tokens d) <-> accepts O defs start (doc_tokens d')).
Proof.
  intros Hs Hs' HD HD' Ho Ho'. rewrite (accepts_iff_uni d root), (accepts_iff_uni d' root) by assumption. reflexivity.
Qed.
End V.

(** ** Small documents *)
Definition el (l : str) (a : list (str * str * str)) (k : list xnode) : xdoc := XDoc [] (XElem [] l a false k) [].
Definition plain_char (c : N) : Prop := c <> 38%N /\ c <> 60%N /\ c <> 9%N /\ c <> 10%N /\ c <> 13%N.
Definition ordinary_name (l : str) : Prop := l <> lit "xmlns"%string.

Lemma Decodes_plain ents s : ~ In 38%N s -> Decodes ents s s.
Proof. induction s as [|c s IH]; intros H; [constructor|]. constructor; [intros ->; apply H; left; reflexivity | apply IH; intros Hc; apply H; right; exact Hc]. Qed.
Lemma NoDup_predefined : NoDup (map fst predefined).
Proof. cbn. repeat constructor; cbn; intuition discriminate. Qed.

(** [<l>s</l>] *)
Lemma text_doc l s : s <> [] -> ~ In 38%N s ->
  doc_scope (el l [] [XText 0 s]) /\ Document (el l [] [XText 0 s]) (Elm (QName None l) [] [Txt s]).
Proof.
  intros Hs Ha. split.
  - constructor; cbn.
    + split; [constructor | split; [constructor | exact I]].
    + intros p u u' [].
    + intros u [].
    + exact NoDup_predefined.
    + intros n v [].
    + split; [discriminate|]. split; [constructor|]. split; [split; [reflexivity | exact I]|]. split; [|exact I]. split; [exact Hs | left; exact Ha].
  - unfold Document, el; cbn [d_prolog d_root].
    assert (E : [Elm (QName None l) [] [Txt s]] = [Elm (QName None l) [] (joined [Txt s])]) by (destruct s; [congruence | reflexivity]).
    rewrite E. apply N_elem.
    + apply En_none. reflexivity.
    + constructor.
    + apply (Ns_cons _ _ _ _ [Txt s] []); [|constructor]. constructor. apply Decodes_plain; exact Ha.
Qed.
(** [<l x="v"></l>] *)
Lemma att_doc l x v : ordinary_name x -> Forall plain_char v ->
  doc_scope (el l [([], x, v)] []) /\ Document (el l [([], x, v)] []) (Elm (QName None l) [Attr (QName None x) v] []).
Proof.
  intros Hx Hv.
  assert (En : ns_decl ([], x, v) = None).
  { unfold ns_decl. rewrite (proj2 (str_eqb_neq x (lit "xmlns"%string)) Hx). reflexivity. }
  assert (E1 : ns_declared [([], x, v)] = []) by (unfold ns_declared, flat_map; rewrite En; reflexivity).
  assert (E2 : ordinary [([], x, v)] = [([], x, v)]) by (unfold ordinary, filter; rewrite En; reflexivity).
  split.
  - assert (E3 : all_decls (XElem [] l [([], x, v)] false []) = []) by (unfold all_decls; rewrite E1; reflexivity).
    constructor; unfold el; cbn [d_prolog d_root d_epilog declared entities].
    + split; [constructor | split; [constructor | exact I]].
    + rewrite E3. intros p u u' [].
    + rewrite E3. intros u [].
    + unfold entities; rewrite app_nil_r; exact NoDup_predefined.
    + intros n w [].
    + cbn [clean]. rewrite E2. split; [discriminate|]. split; [constructor; [|constructor]|].
      * split; [discriminate|]. unfold clean_value. eapply Forall_impl; [|exact Hv]. unfold plain_char; intros c (H1 & H2 & H3 & H4 & H5); auto.
      * repeat split.
  - unfold Document, el; cbn [d_prolog d_root].
    change [Elm (QName None l) [Attr (QName None x) v] []] with [Elm (QName None l) [Attr (QName None x) v] (joined [])]. apply N_elem.
    + rewrite E1. apply En_none. reflexivity.
    + rewrite E2. constructor; [|constructor]. constructor; [constructor|]. unfold AttValue.
      assert (Es : space_out v = v).
      { clear -Hv. unfold space_out. induction Hv as [|c v H Hv IH]; [reflexivity|]. cbn [map]. rewrite IH. f_equal. destruct H as (H1 & H2 & H3 & H4 & H5).
        apply N.eqb_neq in H3, H4, H5. rewrite H3, H4, H5. reflexivity. }
      rewrite Es. apply Decodes_plain. intros Hi. rewrite Forall_forall in Hv. destruct (Hv _ Hi) as [H _]; congruence.
    + constructor.
Qed.

Section Inv.
Variable O : oracles.
Variable defs : list mpat.
Variable sp : N -> bool.
Lemma M_elem_inv w nc p nm a k b : Mg sp O defs w b [Elm nm a k] (MElement nc p) -> b = [] /\ in_class nc nm /\ Wg sp O defs w a k p.
Proof.
  intros H. inversion H as [| | | | | | | | | | | | |? ? nm' a' k' w1 w2 Hc Hk Hw H1 H2 Eb Em| | | | |]; subst.
  destruct H1 as [->|(s & -> & _)]; [|discriminate Em]. cbn in Em. injection Em as -> -> -> ->. auto.
Qed.
Lemma noelem_texts s : Forall (fun i => exists s', i = Txt s') [Txt s].
Proof. constructor; [eauto | constructor]. Qed.
Lemma M_flags m X a : Forall (fun i => exists s, i = Txt s) m -> (Mg sp O defs false a m X <-> Mg sp O defs true a m X).
Proof. intros Hm. split; [apply (proj1 (M_false_true O defs)) | intros H; apply (proj1 (M_noelem O defs)); assumption]. Qed.
Lemma W_one w s p : Wg sp O defs w [] [Txt s] p <-> (blank s /\ Mg sp O defs w [] [] p) \/ Mg sp O defs w [] [Txt s] p.
Proof.
  split; [intros H; inversion H; subst; auto|]. intros [[H1 H2]|H]; [apply W_2 | apply W_1]; assumption.
Qed.
Lemma list_text w s p a : Mg sp O defs w a [Txt s] (MList p) <-> a = [] /\ Mg sp O defs w [] (map Txt (split_on sp [] s)) p.
Proof. split; [intros H; inversion H; subst; auto | intros [-> H]; apply M_list; exact H]. Qed.
(** except patterns *)
Lemma XM_matches e : EXC defs e -> forall s b, XM O defs e s b -> (b = true <-> Mg sp O defs true [] [Txt s] e).
Proof.
  induction 1 as [|x Hx IH|x l Hx IH Hl IHl|d|d e He IH|v|r X Hb HX IH]; intros s b HXM.
  - inversion HXM; subst. split; [discriminate | intros H; inversion H].
  - inversion HXM as [|? ? ? H1|? y0 l0 ? b1 b2 H1 H2| | | |]; subst.
    + rewrite (IH _ _ H1). split; [intros H; eapply M_choice; [left; reflexivity | exact H]|].
      intros H. inversion H as [x0 ? ? ? Hin Hm| | | | | | | | | | | | | | | | | |]; subst. destruct Hin as [->|[]]; exact Hm.
  - inversion HXM as [|? ? ? H1|? y0 l0 ? b1 b2 H1 H2| | | |]; subst.
    + rewrite (IH _ _ H1). split; [intros H; eapply M_choice; [left; reflexivity | exact H]|].
      intros H. inversion H as [x0 ? ? ? Hin Hm| | | | | | | | | | | | | | | | | |]; subst. destruct Hin as [->|[]]; exact Hm.
    + rewrite orb_true_iff, (IH _ _ H1), (IHl _ _ H2). split.
      * intros [H|H]; [eapply M_choice; [left; reflexivity | exact H]|]. inversion H as [x0 ? ? ? Hin Hm| | | | | | | | | | | | | | | | | |]; subst. eapply M_choice; [right; exact Hin | exact Hm].
      * intros H. inversion H as [x0 ? ? ? Hin Hm| | | | | | | | | | | | | | | | | |]; subst. destruct Hin as [->|Hin]; [left; exact Hm | right; eapply M_choice; eassumption].
  - inversion HXM; subst. split; [intros ->; apply M_data; assumption | intros H'; inversion H'; subst; congruence].
  - inversion HXM as [| | | | |? ? ? b1 b2 H1 H2|]; subst. split.
    + intros Hb. apply andb_prop in Hb as [-> Hb]. destruct b2; [discriminate Hb|]. apply M_except; assumption.
    + intros H'. inversion H' as [| | | | | | | | | | | | | | | |? ? ? H3 H4| |]; subst. rewrite H1 in H3. injection H3 as ->.
      destruct b2; [|reflexivity]. exfalso.
      assert (Hf : forall e s b b', XM O defs e s b -> XM O defs e s b' -> b = b').
      { clear. intros e s b b' H. revert b'. induction H; intros b' H'; inversion H'; subst; auto; try congruence.
        - f_equal; auto.
        - f_equal; [congruence | f_equal; auto].
        - apply IHXM. congruence. }
      discriminate (Hf _ _ _ _ H2 H4).
  - inversion HXM; subst. split; [intros ->; apply M_value; assumption | intros H'; inversion H'; subst; congruence].
  - inversion HXM as [| | | | | |? X' ? ? Hd Hx]; subst. unfold deref in Hd. unfold body in Hb. rewrite Hb in Hd. injection Hd as <-. rewrite (IH _ _ Hx).
    split; [intros H; eapply M_ref; eassumption|]. intros H. inversion H as [| | | | | | | | | | | | | |? X' ? ? Hd' Hm| | | |]; subst. unfold deref in Hd'. rewrite Hb in Hd'. injection Hd' as <-. exact Hm.
Qed.
Lemma supported_Ok d s : supported_dt d -> exists b, dt_valid O d s = Ok b.
Proof. intros H. destruct d as [| |[]]; cbn in *; eauto; contradiction. Qed.
Lemma supported_vOk v s : supported_value v -> exists b, dt_value_valid v s = Ok b.
Proof. intros H. destruct v as [| |[]]; cbn in *; eauto; contradiction. Qed.
Hypothesis Hdefs : forall r X, deref defs r = Some X -> limits defs X.
Lemma XM_total e : EXC defs e -> limits defs e -> forall s, exists b, XM O defs e s b.
Proof.
  induction 1 as [|x Hx IH|x l Hx IH Hl IHl|d|d e He IH|v|r X Hb HX IH]; intros HL s; cbn in HL.
  - exists false; constructor.
  - destruct HL as [HL _]. destruct (IH HL s) as [b Hb]. exists b; constructor; exact Hb.
  - destruct HL as [H1 H2]. destruct (IH H1 s) as [b Hb]. destruct l as [|y l]; [exists b; constructor; exact Hb|].
    destruct (IHl H2 s) as [b' Hb']. exists (b || b'); constructor; assumption.
  - destruct (supported_Ok d s) as [b Hb]; [apply HL|]. exists b; constructor; exact Hb.
  - destruct HL as (H1 & H2 & _). destruct (supported_Ok d s H1) as [b Hb]. destruct (IH H2 s) as [b' Hb']. exists (b && negb b'); constructor; assumption.
  - destruct (supported_vOk v s HL) as [b Hb]. exists b; constructor; exact Hb.
  - destruct (IH (Hdefs _ _ Hb) s) as [b Hb']. exists b. econstructor; eassumption.
Qed.
End Inv.

Section Small.
Variable O : oracles.
Variable defs : list mpat.
Variable l : str.
Notation root_el p := (MElement (NNamed [] l) p).
Notation U := (Mg is_uni_ws O defs).

(** an attribute value: lists split at Unicode white space, so no condition on the value *)
Lemma attribute_value_uni nc p x v : rng_schema defs (root_el (MAttribute nc p)) -> in_limits defs (root_el (MAttribute nc p)) ->
  ordinary_name x -> Forall plain_char v ->
  ~ overflows O defs (root_el (MAttribute nc p)) (doc_tokens (el l [([], x, v)] [])) ->
  (accepts O defs (root_el (MAttribute nc p)) (doc_tokens (el l [([], x, v)] [])) <->
   in_class nc (QName None x) /\ (blank v /\ U true [] [] p \/ U true [] [Txt v] p)).
Proof.
  intros HR HL Hx Hv Ho. destruct (att_doc l x v Hx Hv) as (Hs & HD).
  rewrite (accepts_iff_uni O defs _ HR HL _ _ (scope_fits _ _ _ Hs) HD Ho). split.
  - intros H. apply M_elem_inv in H as (_ & _ & H). inversion H as [? ? ? Hm| |? ? Hf]; subst; [|discriminate Hf].
    inversion Hm as [| | | | | | | | | | | |? ? ? Hc Hw| | | | | |]; subst. split; [exact Hc|]. apply W_one in Hw. cbn in Hw.
    destruct Hw as [[H1 H2]|H2]; [left; split; [exact H1|] | right]; (apply M_flags; [|exact H2]); [constructor | apply noelem_texts].
  - intros [Hc H]. change [Elm (QName None l) [Attr (QName None x) v] []] with ([] ++ Elm (QName None l) [Attr (QName None x) v] [] :: []).
    apply M_element; [cbn; auto | split; [intros [] | exact I] | | left; reflexivity | left; reflexivity].
    apply W_1, M_attribute; [exact Hc|]. apply W_one. cbn.
    destruct H as [[H1 H2]|H2]; [left; split; [exact H1|] | right]; (apply M_flags; [|exact H2]); [constructor | apply noelem_texts].
Qed.
Lemma attribute_value nc p x v : rng_schema defs (root_el (MAttribute nc p)) -> in_limits defs (root_el (MAttribute nc p)) ->
  ordinary_name x -> Forall plain_char v -> (uses_lists defs p = true -> plain v) ->
  ~ overflows O defs (root_el (MAttribute nc p)) (doc_tokens (el l [([], x, v)] [])) ->
  (accepts O defs (root_el (MAttribute nc p)) (doc_tokens (el l [([], x, v)] [])) <->
   in_class nc (QName None x) /\ (blank v /\ M O defs true [] [] p \/ M O defs true [] [Txt v] p)).
Proof.
  intros HR HL Hx Hv Hp Ho. destruct (att_doc l x v Hx Hv) as (Hs & HD).
  assert (Hpl : plain_for defs (root_el (MAttribute nc p)) (Elm (QName None l) [Attr (QName None x) v] [])).
  { intros E. apply plain_elm. split; [|exact I]. constructor; [|constructor]. apply Hp, E. }
  rewrite (accepts_iff O defs _ HR HL _ _ (scope_fits _ _ _ Hs) HD Hpl Ho). split.
  - intros H. apply M_elem_inv in H as (_ & _ & H). inversion H as [? ? ? Hm| |? ? Hf]; subst; [|discriminate Hf].
    inversion Hm as [| | | | | | | | | | | |? ? ? Hc Hw| | | | | |]; subst. split; [exact Hc|]. apply W_one in Hw. cbn in Hw.
    destruct Hw as [[H1 H2]|H2]; [left; split; [exact H1|] | right]; (apply M_flags; [|exact H2]); [constructor | apply noelem_texts].
  - intros [Hc H]. change [Elm (QName None l) [Attr (QName None x) v] []] with ([] ++ Elm (QName None l) [Attr (QName None x) v] [] :: []).
    apply M_element; [cbn; auto | split; [intros [] | exact I] | | left; reflexivity | left; reflexivity].
    apply W_1, M_attribute; [exact Hc|]. apply W_one. cbn.
    destruct H as [[H1 H2]|H2]; [left; split; [exact H1|] | right]; (apply M_flags; [|exact H2]); [constructor | apply noelem_texts].
Qed.
Section Text.
Variable s : str.
Hypothesis Hs : s <> [].
Hypothesis Ha : ~ In 38%N s.
Lemma children_one : children_ok [Txt s].
Proof. split; [|exact I]. intros [E|[]]. injection E as E. congruence. Qed.
Lemma text_accepts p : rng_schema defs (root_el p) -> in_limits defs (root_el p) ->
  ~ overflows O defs (root_el p) (doc_tokens (el l [] [XText 0 s])) ->
  (accepts O defs (root_el p) (doc_tokens (el l [] [XText 0 s])) <-> blank s /\ U true [] [] p \/ U true [] [Txt s] p).
Proof.
  intros HR HL Ho. destruct (text_doc l s Hs Ha) as (Hsc & HD).
  rewrite (accepts_iff_uni O defs _ HR HL _ _ (scope_fits _ _ _ Hsc) HD Ho). split.
  - intros H. apply M_elem_inv in H as (_ & _ & H). apply W_one in H.
    destruct H as [[H1 H2]|H2]; [left; split; [exact H1|] | right]; (apply M_flags; [|exact H2]); [constructor | apply noelem_texts].
  - intros H. change [Elm (QName None l) [] [Txt s]] with ([] ++ Elm (QName None l) [] [Txt s] :: []).
    apply M_element; [cbn; auto | exact children_one | | left; reflexivity | left; reflexivity]. apply W_one.
    destruct H as [[H1 H2]|H2]; [left; split; [exact H1|] | right]; (apply M_flags; [|exact H2]); [constructor | apply noelem_texts].
Qed.
(** a list: the tokens are the runs between Unicode white space *)
Lemma list_accepts_uni p ws : rng_schema defs (root_el (MList p)) -> in_limits defs (root_el (MList p)) -> Runs is_uni_ws s ws ->
  ~ overflows O defs (root_el (MList p)) (doc_tokens (el l [] [XText 0 s])) ->
  (accepts O defs (root_el (MList p)) (doc_tokens (el l [] [XText 0 s])) <-> U true [] (map Txt ws) p).
Proof.
  intros HR HL HW Ho. rewrite (text_accepts (MList p) HR HL Ho). rewrite list_text, (Runs_split _ _ _ HW). split; [|auto].
  intros [[_ H]|[_ H]]; [inversion H | exact H].
Qed.
Lemma except_accepts d e : rng_schema defs (root_el (MData d (Some e))) -> in_limits defs (root_el (MData d (Some e))) ->
  ~ overflows O defs (root_el (MData d (Some e))) (doc_tokens (el l [] [XText 0 s])) ->
  (accepts O defs (root_el (MData d (Some e))) (doc_tokens (el l [] [XText 0 s])) <-> dt_valid O d s = Ok true /\ ~ M O defs true [] [Txt s] e).
Proof.
  intros HR HL Ho. rewrite (text_accepts _ HR HL Ho).
  destruct (il_start _ _ HL) as (H1 & H2 & H3).
  destruct (XM_total O defs (il_defs _ _ HL) e H3 H2 s) as [b Hb].
  pose proof (XM_matches O defs is_xml_ws e H3 s b Hb) as HM. split.
  - intros [[_ H]|H]; [inversion H|]. inversion H as [| | | | | | | | | | | | | | | |? ? ? Hd He| |]; subst. split; [exact Hd|].
    intros Hx. rewrite <- (XM_matches O defs is_xml_ws e H3 s false He) in Hx. discriminate Hx.
  - intros [Hd Hx]. right. apply M_except; [exact Hd|]. destruct b; [|exact Hb]. exfalso. apply Hx, HM; reflexivity.
Qed.
Hypothesis Hu : forall c, In c s -> is_uni_ws c = true -> is_xml_ws c = true.
Lemma list_accepts p ws : rng_schema defs (root_el (MList p)) -> in_limits defs (root_el (MList p)) -> Words s ws ->
  ~ overflows O defs (root_el (MList p)) (doc_tokens (el l [] [XText 0 s])) ->
  (accepts O defs (root_el (MList p)) (doc_tokens (el l [] [XText 0 s])) <-> M O defs true [] (map Txt ws) p).
Proof.
  intros HR HL HW Ho. destruct (text_doc l s Hs Ha) as (Hsc & HD).
  assert (Hp : plain_item (Elm (QName None l) [] [Txt s])) by (apply plain_elm; split; [constructor|]; split; [|exact I]; apply Forall_forall; exact Hu).
  rewrite (accepts_iff O defs _ HR HL _ _ (scope_fits _ _ _ Hsc) HD (plain_plain_for _ _ _ Hp) Ho). rewrite <- (Words_split _ _ HW). split.
  - intros H. apply M_elem_inv in H as (_ & _ & H). apply W_one in H. destruct H as [[_ H]|H]; [inversion H|]. apply list_text in H. destruct H as [_ H].
    apply M_flags; [|exact H]. clear. apply Forall_map, Forall_forall. eauto.
  - intros H. change [Elm (QName None l) [] [Txt s]] with ([] ++ Elm (QName None l) [] [Txt s] :: []).
    apply M_element; [cbn; auto | exact children_one | | left; reflexivity | left; reflexivity]. apply W_one. right. apply list_text. split; [reflexivity|].
    apply M_flags; [|exact H]. clear. apply Forall_map, Forall_forall. eauto.
Qed.
End Text.
End Small.

(** ** References in text *)
Section Refs.
Variable O : oracles.
Definition string_el (l x : str) : mpat := MElement (NNamed [] l) (MValue (VString x)).
Definition text_in (prolog : list token) (l : str) (n : nat) (raw : str) : xdoc := XDoc prolog (XElem [] l [] false [XText n raw]) [].
Lemma no_refs_rng l x : rng_schema [] (string_el l x).
Proof. constructor; [intros [|r] X E; discriminate E | cbn; split; [exact I | apply CT_value] | apply St_elem]. Qed.
Lemma no_refs_lim l x : in_limits [] (string_el l x).
Proof. constructor; [intros [|r] X E; discriminate E | exact I | intros [|r] m X E; discriminate E]. Qed.
Lemma references_decoded prolog l n raw s x : doc_scope (text_in prolog l n raw) -> Decodes (entities prolog) raw s ->
  ~ overflows O [] (string_el l x) (doc_tokens (text_in prolog l n raw)) ->
  (accepts O [] (string_el l x) (doc_tokens (text_in prolog l n raw)) <-> s = x /\ s <> []).
Proof.
  intros Hs HDc Ho.
  assert (HD : Document (text_in prolog l n raw) (Elm (QName None l) [] (joined ([Txt s] ++ [])))).
  { unfold Document, text_in; cbn [d_prolog d_root]. apply N_elem; [apply En_none; reflexivity | constructor | constructor; [constructor; exact HDc | constructor]]. }
  destruct s as [|c s].
  - cbn in HD. rewrite (accepts_iff_uni O [] _ (no_refs_rng l x) (no_refs_lim l x) _ _ (scope_fits _ _ _ Hs) HD Ho).
    split; [|intros [_ H]; congruence]. intros H. apply M_elem_inv in H as (_ & _ & H). inversion H as [? ? ? Hm| |? ? Hf]; subst; [inversion Hm | discriminate Hf].
  - cbn in HD. rewrite (accepts_iff_uni O [] _ (no_refs_rng l x) (no_refs_lim l x) _ _ (scope_fits _ _ _ Hs) HD Ho).
    split.
    + intros H. apply M_elem_inv in H as (_ & _ & H). apply W_one in H. destruct H as [[_ H]|H]; inversion H as [| | | | | | | | | | | | | | | | |? ? Hd|]; subst.
      cbn in Hd. injection Hd as Hd. apply str_eqb_eq in Hd. subst x. split; [reflexivity | discriminate].
    + intros [<- _]. change [Elm (QName None l) [] [Txt (c :: s)]] with ([] ++ Elm (QName None l) [] [Txt (c :: s)] :: []).
      apply M_element; [cbn; auto | split; [intros [E|[]]; discriminate E | exact I] | | left; reflexivity | left; reflexivity].
      apply W_1, M_value. cbn. rewrite str_eqb_refl. reflexivity.
Qed.
End Refs.
