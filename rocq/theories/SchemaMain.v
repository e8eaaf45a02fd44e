(** * SchemaMain: proofs of the schema properties C28-C33 (statements in PropsSchema.v). *)
From Coq Require Import Permutation String.
From Verif Require Import Base Datatype Facets Store Deriv Events Lang Compile Syntax SchemaCompile Spec SpecFacts SourceSpec SourceScope SourceTr SourceSem SourceCompile SchemaOrder SchemaSpec.
From Verif Require Doc Scope Infoset Main Verdicts.

(** What the validator is given: the pattern of the start cell. *)
Definition start_of (r : nat) (st : cst) : mpat := nth r (cell_defs st) MNotAllowed.

Section Main.
Variable O : oracles.
Variable C : coracles.
Variable fs : filesys.
Hypothesis Hfs : files_ok fs.

Lemma deref_cell st r R : r < List.length (cells st) -> snd (nth r (cells st) ([], None)) = Some R ->
  deref (cell_defs st) r = Some (rule_pattern R) /\ start_of r st = rule_pattern R.
Proof.
  intros Hr HR. unfold start_of, deref, cell_defs. rewrite nth_error_map, (nth_error_nth' (cells st) ([], None) Hr). cbn. rewrite HR. split; [reflexivity|].
  apply nth_error_nth. rewrite nth_error_map, (nth_error_nth' (cells st) ([], None) Hr). cbn. rewrite HR. reflexivity.
Qed.
Lemma start_deref d name r st : compile_grammar O C fs d name = fok (r, st) -> deref (cell_defs st) r = Some (start_of r st).
Proof.
  intros H. apply (compile_facts O C fs Hfs) in H. destruct H as (dx & seen & Hg & El & [W _] & Ho & _ & _ & K1 & K2).
  destruct (K2 _ K1) as (R & HR & _). destruct (deref_cell st r R) as [E1 E2]; [eapply W; exact El | exact HR|]. rewrite E1, E2. reflexivity.
Qed.
Lemma start_ref defs w3 r X a m : deref defs r = Some X -> Spec.M O defs w3 a m (MRef r) <-> Spec.M O defs w3 a m X.
Proof. intros H. split; [intros K; inversion K; subst; congruence | intros K; econstructor; eassumption]. Qed.

(** C28 *)
Theorem compiled_meaning d name r st : compile_grammar O C fs d name = fok (r, st) ->
  forall root, rng_valid O (cell_defs st) (start_of r st) root <-> schema_valid fs O C name root.
Proof.
  intros H root. pose proof (start_deref _ _ _ _ H) as E. apply (compile_correct O C fs Hfs) in H. destruct H as (g & Hg & El & HM).
  unfold rng_valid, schema_valid. rewrite <- (start_ref _ _ _ _ _ _ E), HM. split.
  - intros K. exists g. split; [apply Hg; reflexivity | exact K].
  - intros (g' & K1 & K2). apply Hg in K1. subst g'. exact K2.
Qed.

(** C29 *)
Lemma combinable_snoc hs h : combinable (hs ++ [h]) <-> combinable hs /\
  match h with MAssign => ~ In MAssign hs | MChoiceC => ~ In MInterleaveC hs | MInterleaveC => ~ In MChoiceC hs end.
Proof.
  unfold combinable. rewrite count_occ_app. pose proof (count_occ_In method_eq_dec hs MAssign) as HI.
  assert (Hin : forall x, In x (hs ++ [h]) <-> In x hs \/ h = x) by (intros x; rewrite in_app_iff; cbn; tauto).
  destruct h; cbn [count_occ]; destruct (method_eq_dec _ _) as [E|E]; try discriminate E; try (destruct E; reflexivity); rewrite !Hin; intuition (try congruence; try lia; auto).
  destruct (count_occ method_eq_dec hs MAssign); [lia | exfalso; apply H3, H0; lia].
Qed.
Inductive status : list method -> drule -> Prop :=
| St_assign p : status [MAssign] (AssignCombine None p)
| St_choice hs l : In MChoiceC hs -> ~ In MInterleaveC hs -> In MAssign hs -> status hs (AssignCombine (Some CrChoice) (MChoice l))
| St_choice_only hs l : In MChoiceC hs -> ~ In MInterleaveC hs -> ~ In MAssign hs -> status hs (CombineOnly CrChoice (MChoice l))
| St_inter hs l : In MInterleaveC hs -> ~ In MChoiceC hs -> In MAssign hs -> status hs (AssignCombine (Some CrInterleave) (MInterleave l))
| St_inter_only hs l : In MInterleaveC hs -> ~ In MChoiceC hs -> ~ In MAssign hs -> status hs (CombineOnly CrInterleave (MInterleave l)).
Lemma add_choice pa pb : exists l, match pa with
  | MChoice _ => fbind (append_choice pa pb) (fun p => fok (AssignCombine (Some CrChoice) p))
  | _ => fok (AssignCombine (Some CrChoice) (MChoice [pa; pb])) end = fok (AssignCombine (Some CrChoice) (MChoice l)).
Proof. destruct pa; eexists; reflexivity. Qed.
Lemma add_inter pa pb : exists l, match pa with
  | MInterleave _ => fbind (append_interleave pa pb) (fun p => fok (AssignCombine (Some CrInterleave) p))
  | _ => fok (AssignCombine (Some CrInterleave) (MInterleave [pa; pb])) end = fok (AssignCombine (Some CrInterleave) (MInterleave l)).
Proof. destruct pa; eexists; reflexivity. Qed.
Lemma status_step n hs R h X : status hs R ->
  (exists R', merge1 n R (rule_of h X) = fok R' /\ status (hs ++ [h]) R') /\ (combinable hs -> combinable (hs ++ [h])) \/
  (merge1 n R (rule_of h X) = ferr (EDuplicateDefinition n) \/ merge1 n R (rule_of h X) = ferr EMixesChoiceAndInterleave) /\ ~ combinable (hs ++ [h]).
Proof.
  intros HS. rewrite combinable_snoc.
  destruct HS as [p|hs l H1 H2 H3|hs l H1 H2 H3|hs l H1 H2 H3|hs l H1 H2 H3]; destruct h; cbn [rule_of merge1];
    try (right; split; [left; reflexivity|]; cbn; tauto);
    try (right; split; [right; reflexivity|]; tauto); left;
    (split; [|cbn; intuition discriminate]).
  all: try (destruct (add_choice p (MChoice [X])) as [l0 ->]); try (destruct (add_inter p (MInterleave [X])) as [l0 ->]).
  all: eexists; (split; [reflexivity|]).
  all: try (apply St_choice; rewrite ?in_app_iff; cbn; intuition congruence).
  all: try (apply St_inter; rewrite ?in_app_iff; cbn; intuition congruence).
  all: try (apply St_choice_only; rewrite ?in_app_iff; cbn; intuition congruence).
  all: try (apply St_inter_only; rewrite ?in_app_iff; cbn; intuition congruence).
Qed.
Lemma merge_status n hx :
  (exists o, merge_all n None (map hrule hx) = fok o /\ combinable (map fst hx) /\ match o with None => hx = [] | Some R => status (map fst hx) R end) \/
  (merge_all n None (map hrule hx) = ferr (EDuplicateDefinition n) \/ merge_all n None (map hrule hx) = ferr EMixesChoiceAndInterleave) /\ ~ combinable (map fst hx).
Proof.
  induction hx as [|[h X] hx IH] using rev_ind.
  - left. exists None. split; [reflexivity|]. split; [|reflexivity]. split; cbn; [lia | tauto].
  - rewrite !map_app, merge_all_app. cbn [map fst]. destruct IH as [(o & E & HC & HS)|[HE HN]].
    + rewrite E. cbn [fbind rbind fok]. destruct o as [R|].
      * cbn [merge_all SchemaCompile.merge hrule fst snd]. change (hrule (h, X)) with (rule_of h X). destruct (status_step n _ _ h X HS) as [[(R' & K1 & K2) K3]|[K1 K2]].
        -- left. exists (Some R'). rewrite K1. auto.
        -- right. split; [|exact K2]. destruct K1 as [K1|K1]; rewrite K1; [left | right]; reflexivity.
      * subst hx. left. exists (Some (rule_of h X)). split; [reflexivity|]. split; [split; destruct h; cbn; intuition (try lia; discriminate)|].
        destruct h; cbn; constructor; cbn; intuition discriminate.
    + right. split; [destruct HE as [HE|HE]; rewrite HE; [left | right]; reflexivity|]. rewrite combinable_snoc. tauto.
Qed.
Theorem merge_iff n hx : ((exists o, merge_all n None (map hrule hx) = fok o) <-> combinable (map fst hx)) /\
  (~ combinable (map fst hx) -> merge_all n None (map hrule hx) = ferr (EDuplicateDefinition n) \/ merge_all n None (map hrule hx) = ferr EMixesChoiceAndInterleave).
Proof.
  destruct (merge_status n hx) as [(o & E & HC & _)|[HE HN]]; (split; [|tauto]); split; try tauto.
  - intros _. exists o. exact E.
  - intros (o & E). destruct HE as [HE|HE]; rewrite E in HE; discriminate HE.
Qed.
Theorem compiled_combinable d name r st : compile_grammar O C fs d name = fok (r, st) ->
  forall g n, file_grammar fs name g -> combinable (map d_how (defs_named n g)).
Proof.
  intros H g n Hg. apply (compile_facts O C fs Hfs) in H. destruct H as (dx & seen & Hg' & _ & _ & _ & HM & _). apply Hg' in Hg. subst g.
  specialize (HM n). destruct (merge_iff n (hx_of n dx)) as [[K _] _].
  replace (map d_how (defs_named n (map fst dx))) with (map fst (hx_of n dx)); [apply K; eexists; exact HM|].
  unfold hx_of. rewrite map_map, defs_named_map, map_map. reflexivity.
Qed.
Theorem order_irrelevant f f' ds l l' d d' r r' st st' :
  fs f = inl (Schema ds (TGrammar l)) -> fs f' = inl (Schema ds (TGrammar l')) -> same_dir f f' -> Permutation l l' ->
  compile_grammar O C fs d f = fok (r, st) -> compile_grammar O C fs d' f' = fok (r', st') ->
  forall root, rng_valid O (cell_defs st) (start_of r st) root <-> rng_valid O (cell_defs st') (start_of r' st') root.
Proof.
  intros E E' Hd HP Hc Hc' root. rewrite (compiled_meaning _ _ _ _ Hc), (compiled_meaning _ _ _ _ Hc').
  apply (compile_correct O C fs Hfs) in Hc. destruct Hc as (g & Hg & _). apply (compile_correct O C fs Hfs) in Hc'. destruct Hc' as (g' & Hg' & _).
  assert (HS : same_gram g g').
  { pose proof (proj2 (Hg g) eq_refl) as K. inversion K as [ds0 l0 es H1 H2|ds0 p H1]; [|congruence]. rewrite E in H1. injection H1 as <- <-. subst es.
    destruct (Expand_perm fs _ _ _ HP _ H2) as (g1 & K1 & K2). destruct (Expand_same fs _ _ _ K1 (FEnv f' ds [])) as (g2 & K3 & K4); [constructor; [exact Hd | reflexivity..]|].
    assert (g2 = g') by (apply Hg'; eapply Fg_grammar; eassumption). subst g2. exists g1. auto. }
  unfold schema_valid. split; intros (x & K1 & K2).
  - apply Hg in K1. subst x. exists g'. split; [apply Hg'; reflexivity|]. eapply (proj1 (proj2 (proj2 (SM_same fs O C true)))); [exact K2|]. constructor; [exact HS | constructor].
  - apply Hg' in K1. subst x. exists g. split; [apply Hg; reflexivity|]. eapply (proj1 (proj2 (proj2 (SM_same fs O C true)))); [exact K2|]. constructor; [apply same_gram_sym; exact HS | constructor].
Qed.

(** C30 *)
Section Refs.
Variable st : cst.
Variable S : nat -> Prop.
Hypothesis S_def : forall r, S r -> exists R, snd (nth r (cells st) ([], None)) = Some R /\ refs_in S (rule_pattern R).
Definition Inv (G : grams) (n : str) : Prop :=
  exists dx G' t ts R, G = map fst dx :: G' /\ Holds fs O C st G (t :: ts) /\ Trs fs O C st t ts dx /\ merged n None dx = fok (Some R) /\ refs_in S (rule_pattern R).
Lemma Inv_look G n t ts r : Holds fs O C st G (t :: ts) -> look st t n = Some r -> S r -> Inv G n.
Proof.
  intros HG Hl Hr. destruct (S_def r Hr) as (R & HR & HI). inversion HG as [|g G' t' ts' dx HG' E HF HCt]; subst.
  exists dx, G', t, ts, R. split; [reflexivity|]. split; [exact HG|]. split; [exact HF|]. split; [|exact HI].
  specialize (HCt n). unfold content in HCt. rewrite Hl, HR in HCt. destruct HCt as [HCt|HCt]; [discriminate | exact HCt].
Qed.
Lemma Tr_child e ts p X q : Tr fs O C st e ts p X -> refs_in S X -> child q p -> exists Y, Tr fs O C st e ts q Y /\ refs_in S Y.
Proof.
  intros HT HR Hc. inversion Hc; subst; inversion HT; subst; try (eexists; split; [eassumption | exact HR]).
  - apply refs_seq in HR. eexists; split; [eassumption | apply HR].
  - apply refs_seq in HR. eexists; split; [eassumption | apply HR].
  - apply refs_inter in HR. eexists; split; [eassumption | apply HR].
  - apply refs_inter in HR. eexists; split; [eassumption | apply HR].
  - apply refs_choice in HR. eexists; split; [eassumption | apply HR].
  - apply refs_choice in HR. eexists; split; [eassumption | apply HR].
Qed.
Lemma Refers_Inv e G p G' n : Refers fs e G p G' n -> forall ts X, Tr fs O C st e ts p X -> Holds fs O C st G ts -> refs_in S X -> Inv G' n.
Proof.
  induction 1 as [e G i|e g G i|e G l ds HE|e G p q G' n Hc Hr IH|e e' G h i p G' n HE Hr IH]; intros ts X HT HG HR.
  - inversion HT; subst. eapply Inv_look; [exact HG | eassumption | apply HR; left; reflexivity].
  - inversion HT; subst. inversion HG; subst. eapply Inv_look; [eassumption | eassumption | apply HR; left; reflexivity].
  - inversion HT; subst. match goal with H : forall ds', Expand _ _ _ ds' <-> _ |- _ => apply H in HE end. subst ds.
    exists dx, G, t, ts, R. split; [reflexivity|]. split; [econstructor; eauto|]. split; [assumption|]. split; assumption.
  - destruct (Tr_child _ _ _ _ _ HT HR Hc) as (Y & K1 & K2). eapply IH; eassumption.
  - inversion HT; subst. match goal with H : forall e1 p1, External _ _ _ _ e1 p1 <-> _ |- _ => apply H in HE; destruct HE as [-> ->] end.
    eapply IH; eassumption.
Qed.
End Refs.
Theorem references_defined d name r st : compile_grammar O C fs d name = fok (r, st) ->
  forall G n, Reached fs name G n -> exists g G', G = g :: G' /\ defs_named n g <> [].
Proof.
  intros H. apply (compile_facts O C fs Hfs) in H. destruct H as (dx & seen & Hg & El & W & Ho & HM & _ & K1 & K2).
  assert (HI : forall G n, Reached fs name G n -> Inv st (fun x => In x seen) G n).
  { induction 1 as [g Hg0|g G n d0 G' n' _ IH Hd HR].
    - apply Hg in Hg0. subst g. eapply Inv_look; eauto.
    - destruct IH as (dx' & G0 & t & ts & R & E & HG & HF & HMd & HRf). injection E as -> ->.
      destruct (hx_of_in _ _ _ Hd) as (X & Hx & Hh). unfold Trs in HF. rewrite Forall_forall in HF. pose proof (HF _ Hx) as HT.
      pose proof (combined_refs_in _ _ _ (merged_combined _ _ _ HMd) HRf) as Hr. rewrite Forall_forall in Hr. specialize (Hr _ Hh).
      eapply Refers_Inv; [exact K2 | exact HR | exact HT | exact HG | exact Hr]. }
  intros G n HR. destruct (HI _ _ HR) as (dx' & G0 & t & ts & R & E & _ & _ & HMd & _). exists (map fst dx'), G0. split; [exact E|].
  intros K. rewrite defs_named_map in K. apply map_eq_nil in K. unfold merged, hx_of in HMd. rewrite K in HMd. discriminate HMd.
Qed.
End Main.
