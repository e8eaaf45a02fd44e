(** * Wp: store extension, a weakest-precondition calculus for the fuelled store monad, and the
    specifications of the smart constructors (validator lib.rs:88-196). *)
From Verif Require Import Base Datatype Store Deriv Lang LangFacts.
Open Scope monad_scope.

Section Wp.
Variable O : oracles.
Variable allowed : panic -> Prop.
Variable T : nameclass -> ctype.
Hypothesis allowed_push : allowed PTooManyPatterns.
Notation KM := (KM O allowed).
Notation K st j t ts id := (Lang.KM O allowed st true j t ts id) (only parsing).
Notation KS := (KS O allowed).
Notation G := (G O allowed T).
Notation L := (L O).
Notation LF := (LF O).
Notation SM := (SM O).

Definition inr_ (st : store) (id : pid) : Prop := id < length (pats st).

(** ** ext *)
Lemma ext_refl st : ext st st.
Proof. exists []; rewrite app_nil_r; reflexivity. Qed.
Lemma ext_trans a b c : ext a b -> ext b c -> ext a c.
Proof. intros [x Hx] [y Hy]; exists (x ++ y); rewrite Hy, Hx, app_assoc; reflexivity. Qed.
Lemma ext_nth st st' i p : ext st st' -> nth_error (pats st) i = Some p -> nth_error (pats st') i = Some p.
Proof.
  intros [x Hx] H. rewrite Hx, nth_error_app1; [exact H|]. apply nth_error_Some; congruence.
Qed.
Lemma ext_nth_inv st st' i p : ext st st' -> inr_ st i -> nth_error (pats st') i = Some p ->
  nth_error (pats st) i = Some p.
Proof. intros [x Hx] H E. rewrite Hx, nth_error_app1 in E; assumption. Qed.
Lemma ext_inr st st' i : ext st st' -> inr_ st i -> inr_ st' i.
Proof. intros [x Hx] H. unfold inr_ in *; rewrite Hx, app_length; lia. Qed.
Lemma nth_inr st i p : nth_error (pats st) i = Some p -> inr_ st i.
Proof. intros H; apply nth_error_Some; congruence. Qed.
Lemma inr_nth st i : inr_ st i -> exists p, nth_error (pats st) i = Some p.
Proof. intros H. destruct (nth_error (pats st) i) eqn:E; eauto. apply nth_error_None in E. unfold inr_ in H; lia. Qed.
Lemma ext_nul st st' i : ext st st' -> inr_ st i -> nul st' i = nul st i.
Proof.
  intros E H. destruct (inr_nth _ _ H) as [p Hp]. unfold nul. rewrite (ext_nth _ _ _ _ E Hp), Hp; reflexivity.
Qed.
Lemma K_inr {m} st j t ts id : KM st m j t ts id -> inr_ st id.
Proof. intros H; inversion H; subst; eapply nth_inr; eassumption. Qed.
Lemma KS_inr st id : KS st id -> inr_ st id.
Proof. intros H; inversion H; subst; eapply nth_inr; eassumption. Qed.
Lemma KS_ext st st' id : ext st st' -> KS st id -> KS st' id.
Proof.
  intros E H; induction H.
  - eapply KS_choice; eauto using ext_nth.
  - eapply KS_na; eauto using ext_nth.
  - eapply KS_data; eauto using ext_nth.
  - eapply KS_value; eauto using ext_nth.
  - eapply KS_except; eauto using ext_nth.
Qed.
Lemma K_ext {m} st st' j t ts id : ext st st' -> KM st m j t ts id -> KM st' m j t ts id.
Proof.
  intros E; revert m j t ts id. fix IH 6; intros m j t ts id H.
  destruct H as [m j t ts id l r n Hn H1 H2 Hf|m j t ts id Hn|m j t t' ts id p1 p2 Hn H1 H2
    |m j t id l r n Hn H1 H2 Hf|m j t id l r n Hn H1 H2 Hf Hc|m j t id p n Hn H1 Hf|m j t id Hn|m j t id Hn Ht
    |m j j' t id nc p Hn H1|m j t id nc p Hn Ht|m j id d Hn Hd|m j id v Hn Hd|m j id d e Hn Hd He|m j id p Hn H1].
  - eapply K_choice; [eapply ext_nth; eassumption | apply IH, H1 | apply IH, H2 |].
    intros Em; specialize (Hf Em). rewrite !(ext_nul st st') by (try exact E; eapply K_inr; eassumption); exact Hf.
  - eapply K_na; eapply ext_nth; eassumption.
  - eapply K_after; [eapply ext_nth; eassumption | apply IH, H1 | apply IH, H2].
  - eapply K_group; [eapply ext_nth; eassumption | apply IH, H1 | apply IH, H2 |].
    intros Em; specialize (Hf Em). rewrite !(ext_nul st st') by (try exact E; eapply K_inr; eassumption); exact Hf.
  - eapply K_inter; [eapply ext_nth; eassumption | apply IH, H1 | apply IH, H2 | |].
    + intros Em; specialize (Hf Em). rewrite !(ext_nul st st') by (try exact E; eapply K_inr; eassumption); exact Hf.
    + intros Et; destruct (Hc Et) as [[Ha Hb]|[Ha|Ha]].
      * left; split; apply IH; assumption.
      * right; left; apply IH; assumption.
      * right; right; apply IH; assumption.
  - eapply K_more; [eapply ext_nth; eassumption | apply IH, H1 |].
    intros Em; specialize (Hf Em). rewrite !(ext_nul st st') by (try exact E; eapply K_inr; eassumption); exact Hf.
  - eapply K_empty; eapply ext_nth; eassumption.
  - eapply K_text; [eapply ext_nth; eassumption | exact Ht].
  - eapply K_attr; [eapply ext_nth; eassumption | apply IH, H1].
  - eapply K_elem; [eapply ext_nth; eassumption | exact Ht].
  - eapply K_data; [eapply ext_nth; eassumption | exact Hd].
  - eapply K_value; [eapply ext_nth; eassumption | exact Hd].
  - eapply K_except; [eapply ext_nth; eassumption | exact Hd | eapply KS_ext; eassumption].
  - eapply K_list; [eapply ext_nth; eassumption | apply IH, H1].
Qed.
Lemma child_inr st id p c : G st -> nth_error (pats st) id = Some p -> In c (children p) -> inr_ st c.
Proof. intros HG H Hc. eapply (G_closed _ _ _ _ HG); eassumption. Qed.
Ltac chi := eapply child_inr; [eassumption | eassumption | cbn; tauto].

Lemma KS_ext_inv st st' id : G st -> ext st st' -> inr_ st id -> KS st' id -> KS st id.
Proof.
  intros HG E Hi H; revert Hi; induction H; intros Hi;
    match goal with Hn : nth_error _ _ = _ |- _ => apply (ext_nth_inv _ _ _ _ E Hi) in Hn end.
  - eapply KS_choice; [eassumption | apply IHKS1; chi | apply IHKS2; chi].
  - eapply KS_na; eassumption.
  - eapply KS_data; eassumption.
  - eapply KS_value; eassumption.
  - eapply KS_except; [eassumption | eassumption | apply IHKS; chi].
Qed.
Lemma K_ext_inv {m} st st' j t ts id : G st -> ext st st' -> inr_ st id -> KM st' m j t ts id -> KM st m j t ts id.
Proof.
  intros HG E; revert m j t ts id. fix IH 7; intros m j t ts id Hi H.
  destruct H as [m j t ts id l r n Hn H1 H2 Hf|m j t ts id Hn|m j t t' ts id p1 p2 Hn H1 H2
    |m j t id l r n Hn H1 H2 Hf|m j t id l r n Hn H1 H2 Hf Hc|m j t id p n Hn H1 Hf|m j t id Hn|m j t id Hn Ht
    |m j j' t id nc p Hn H1|m j t id nc p Hn Ht|m j id d Hn Hd|m j id v Hn Hd|m j id d e Hn Hd He|m j id p Hn H1];
    apply (ext_nth_inv _ _ _ _ E Hi) in Hn.
  - assert (Hl : inr_ st l) by chi; assert (Hr : inr_ st r) by chi.
    eapply K_choice; [eassumption | apply IH; [chi | exact H1] | apply IH; [chi | exact H2] |].
    intros Em; specialize (Hf Em). rewrite !(ext_nul st st') in Hf by assumption; exact Hf.
  - eapply K_na; eassumption.
  - eapply K_after; [eassumption | apply IH; [chi | exact H1] | apply IH; [chi | exact H2]].
  - assert (Hl : inr_ st l) by chi; assert (Hr : inr_ st r) by chi.
    eapply K_group; [eassumption | apply IH; [chi | exact H1] | apply IH; [chi | exact H2] |].
    intros Em; specialize (Hf Em). rewrite !(ext_nul st st') in Hf by assumption; exact Hf.
  - assert (Hl : inr_ st l) by chi; assert (Hr : inr_ st r) by chi.
    eapply K_inter; [eassumption | apply IH; [chi | exact H1] | apply IH; [chi | exact H2] | |].
    + intros Em; specialize (Hf Em). rewrite !(ext_nul st st') in Hf by assumption; exact Hf.
    + intros Et; destruct (Hc Et) as [[Ha Hb]|[Ha|Ha]].
      * left; split; apply IH; assumption.
      * right; left; apply IH; assumption.
      * right; right; apply IH; assumption.
  - assert (Hl : inr_ st p) by chi.
    eapply K_more; [eassumption | apply IH; [chi | exact H1] |].
    intros Em; specialize (Hf Em). rewrite !(ext_nul st st') in Hf by assumption; exact Hf.
  - eapply K_empty; eassumption.
  - eapply K_text; eassumption.
  - eapply K_attr; [eassumption | apply IH; [chi | exact H1]].
  - eapply K_elem; eassumption.
  - eapply K_data; eassumption.
  - eapply K_value; eassumption.
  - eapply K_except; [eassumption | exact Hd | eapply KS_ext_inv; [exact HG | exact E | chi | exact He]].
  - eapply K_list; [eassumption | apply IH; [chi | exact H1]].
Qed.
Lemma SM_ext st st' id s b : ext st st' -> SM st id s b -> SM st' id s b.
Proof.
  intros E H; induction H.
  - eapply SM_na; eauto using ext_nth.
  - eapply SM_choice; eauto using ext_nth.
  - eapply SM_data; eauto using ext_nth.
  - eapply SM_value; eauto using ext_nth.
  - eapply SM_except; eauto using ext_nth.
Qed.
Lemma SM_ext_inv st st' id s b : G st -> ext st st' -> inr_ st id -> SM st' id s b -> SM st id s b.
Proof.
  intros HG E Hi H; revert Hi; induction H; intros Hi;
    match goal with Hn : nth_error _ _ = _ |- _ => apply (ext_nth_inv _ _ _ _ E Hi) in Hn end.
  - eapply SM_na; eassumption.
  - eapply SM_choice; [eassumption | apply IHSM1; chi | apply IHSM2; chi].
  - eapply SM_data; eassumption.
  - eapply SM_value; eassumption.
  - eapply SM_except; [eassumption | eassumption | apply IHSM; chi].
Qed.
Lemma L_ext st st' id a w : ext st st' -> L st id a w -> L st' id a w.
Proof.
  intros E H; induction H;
    match goal with Hn : nth_error _ _ = _ |- _ => apply (ext_nth _ _ _ _ E) in Hn end;
    try match goal with Hn : Lang.SM _ _ _ _ _ |- _ => apply (SM_ext _ _ _ _ _ E) in Hn end;
    [eapply L_choice_l|eapply L_choice_r|eapply L_group|eapply L_interleave|eapply L_one|eapply L_more_nil
    |eapply L_more_cons|eapply L_empty|eapply L_text|eapply L_attr_val|eapply L_attr_blank|eapply L_element
    |eapply L_data|eapply L_value|eapply L_except|eapply L_list]; eassumption.
Qed.
Lemma L_ext_inv st st' id a w : G st -> ext st st' -> inr_ st id -> L st' id a w -> L st id a w.
Proof.
  intros HG E Hi H; revert Hi; induction H; intros Hi;
    match goal with Hn : nth_error _ _ = _ |- _ => apply (ext_nth_inv _ _ _ _ E Hi) in Hn end;
    try (match goal with Hn : Lang.SM _ _ ?e _ _ |- _ =>
       assert (inr_ st e) by chi; apply (SM_ext_inv _ _ _ _ _ HG E) in Hn; [|assumption] end).
  - eapply L_choice_l; [eassumption | apply IHL; chi].
  - eapply L_choice_r; [eassumption | apply IHL; chi].
  - eapply L_group; [eassumption | eassumption | apply IHL1; chi | apply IHL2; chi].
  - eapply L_interleave; [eassumption | eassumption | eassumption | apply IHL1; chi | apply IHL2; chi].
  - eapply L_one; [eassumption | apply IHL; chi].
  - eapply L_more_nil; [eassumption | apply IHL1; chi | apply IHL2; exact Hi].
  - eapply L_more_cons; [eassumption | apply IHL1; chi | apply IHL2; exact Hi | assumption].
  - eapply L_empty; eassumption.
  - eapply L_text; eassumption.
  - eapply L_attr_val; [eassumption | eassumption | apply IHL; chi | eassumption].
  - eapply L_attr_blank; [eassumption | eassumption | eassumption | apply IHL; chi | eassumption].
  - eapply L_element; [eassumption | eassumption | apply IHL; chi | eassumption | eassumption].
  - eapply L_data; eassumption.
  - eapply L_value; eassumption.
  - eapply L_except; eassumption.
  - eapply L_list; [eassumption | eassumption | apply IHL; chi].
Qed.
Lemma LF_ext st st' id a w ks : ext st st' -> LF st id a w ks -> LF st' id a w ks.
Proof.
  intros E H; induction H.
  - apply LF_base; eapply L_ext; eassumption.
  - eapply LF_choice_l; [eapply ext_nth; eassumption | assumption].
  - eapply LF_choice_r; [eapply ext_nth; eassumption | assumption].
  - eapply LF_after; [eapply ext_nth; eassumption | eapply L_ext; eassumption | assumption].
Qed.
Lemma LF_ext_inv st st' id a w ks : G st -> ext st st' -> inr_ st id -> LF st' id a w ks -> LF st id a w ks.
Proof.
  intros HG E Hi H; revert Hi; induction H; intros Hi.
  - apply LF_base; eapply L_ext_inv; eassumption.
  - apply (ext_nth_inv _ _ _ _ E Hi) in H. eapply LF_choice_l; [eassumption | apply IHLF; chi].
  - apply (ext_nth_inv _ _ _ _ E Hi) in H. eapply LF_choice_r; [eassumption | apply IHLF; chi].
  - apply (ext_nth_inv _ _ _ _ E Hi) in H.
    eapply LF_after; [eassumption | eapply L_ext_inv; [eassumption | eassumption | chi | eassumption] | apply IHLF; chi].
Qed.
Lemma LF_ext_iff st st' id a w ks : G st -> ext st st' -> inr_ st id -> (LF st' id a w ks <-> LF st id a w ks).
Proof. intros HG E Hi; split; [apply LF_ext_inv; assumption | apply LF_ext; assumption]. Qed.
Lemma L_ext_iff st st' id a w : G st -> ext st st' -> inr_ st id -> (L st' id a w <-> L st id a w).
Proof. intros HG E Hi; split; [apply L_ext_inv; assumption | apply L_ext; assumption]. Qed.
Lemma K_ext_iff {m} st st' j t ts id : G st -> ext st st' -> inr_ st id -> (KM st' m j t ts id <-> KM st m j t ts id).
Proof. intros HG E Hi; split; [apply K_ext_inv; assumption | apply K_ext; assumption]. Qed.

(** ** monotonicity *)
Definition tle (t t' : ctype) : Prop :=
  match t, t' with TE, _ | TN, TN | TN, TA | TA, TA => True | _, _ => False end.
Lemma tle_refl t : tle t t. Proof. destruct t; exact I. Qed.
Lemma tle_TA t : tle t TA. Proof. destruct t; exact I. Qed.
Lemma tle_trans a b c : tle a b -> tle b c -> tle a c.
Proof. destruct a, b, c; cbn; tauto. Qed.
Lemma K_mono {m} st j j' t t' ts id : j <= j' -> tle t t' -> KM st m j t ts id -> KM st m j' t' ts id.
Proof.
  revert m j j' t t' ts id. fix IH 10; intros m j j' t t' ts id Hj Ht H.
  destruct H as [m j t ts id l r n Hn H1 H2 Hf|m j t ts id Hn|m j t t0 ts id p1 p2 Hn H1 H2
    |m j t id l r n Hn H1 H2 Hf|m j t id l r n Hn H1 H2 Hf Hc|m j t id p n Hn H1 Hf|m j t id Hn|m j t id Hn Hte
    |m j j0 t id nc p Hn H1|m j t id nc p Hn Hte|m j id d Hn Hd|m j id v Hn Hd|m j id d e Hn Hd He|m j id p Hn H1].
  - eapply K_choice; [eassumption | eapply IH; [exact Hj|exact Ht|exact H1] | eapply IH; [exact Hj|exact Ht|exact H2] | exact Hf].
  - eapply K_na; eassumption.
  - eapply K_after; [eassumption | eapply IH; [exact Hj|exact Ht|exact H1] | eapply IH; [exact Hj|apply tle_refl|exact H2]].
  - eapply K_group; [eassumption | eapply IH; [exact Hj|exact Ht|exact H1] | eapply IH; [exact Hj|exact Ht|exact H2] | exact Hf].
  - eapply K_inter; [eassumption | eapply IH; [exact Hj|exact Ht|exact H1] | eapply IH; [exact Hj|exact Ht|exact H2] | exact Hf |].
    intros ->. destruct t.
    + right; left. eapply IH; [exact Hj | apply tle_refl | exact H1].
    + left; split; [eapply IH; [exact Hj | apply tle_refl | exact H1] | eapply IH; [exact Hj | apply tle_refl | exact H2]].
    + destruct (Hc eq_refl) as [[Ha Hb]|[Ha|Ha]].
      * left; split; [eapply IH; [exact Hj | apply tle_refl | exact Ha] | eapply IH; [exact Hj | apply tle_refl | exact Hb]].
      * right; left; eapply IH; [exact Hj | apply tle_refl | exact Ha].
      * right; right; eapply IH; [exact Hj | apply tle_refl | exact Ha].
  - eapply K_more; [eassumption | eapply IH; [exact Hj|exact Ht|exact H1] | exact Hf].
  - eapply K_empty; eassumption.
  - eapply K_text; [eassumption|]. destruct t, t'; cbn in *; congruence || tauto.
  - eapply K_attr; eassumption.
  - eapply K_elem; [eassumption|]. destruct t, t'; cbn in *; congruence || tauto.
  - destruct t'; try contradiction; eapply K_data; eassumption.
  - destruct t'; try contradiction; eapply K_value; eassumption.
  - destruct t'; try contradiction; eapply K_except; eassumption.
  - destruct t'; try contradiction. destruct j' as [|j']; [lia|]. apply le_S_n in Hj.
    eapply K_list; [eassumption | eapply IH; [exact Hj | apply tle_refl | exact H1]].
Qed.

(** ** semantic facts from [K] *)
Lemma K_LF_nil {m} st j t id a w ks : KM st m j t [] id -> (LF st id a w ks <-> ks = [] /\ L st id a w).
Proof.
  intros HK; split; [|intros [-> H]; apply LF_base; exact H].
  intros H; revert HK; induction H; intros HK.
  - auto.
  - inversion HK; subst; try congruence. inv_nth. destruct IHLF as [-> HL]; [assumption|].
    split; [reflexivity|]. eapply L_choice_l; eassumption.
  - inversion HK; subst; try congruence. inv_nth. destruct IHLF as [-> HL]; [assumption|].
    split; [reflexivity|]. eapply L_choice_r; eassumption.
  - inversion HK; subst; congruence.
Qed.
Lemma nul_at st id p : nth_error (pats st) id = Some p -> nul st id = is_nullable p.
Proof. unfold nul; intros ->; reflexivity. Qed.
(** induction at exact mode *)
Lemma K_ind_t (st : store) (P : nat -> ctype -> list ctype -> pid -> Prop) :
  (forall j t ts id l r n, nth_error (pats st) id = Some (PChoice l r n) ->
     K st j t ts l -> P j t ts l -> K st j t ts r -> P j t ts r -> n = nul st l || nul st r -> P j t ts id) ->
  (forall j t ts id, nth_error (pats st) id = Some PNotAllowed -> P j t ts id) ->
  (forall j t t' ts id p1 p2, nth_error (pats st) id = Some (PAfter p1 p2) ->
     K st j t [] p1 -> P j t [] p1 -> K st j t' ts p2 -> P j t' ts p2 -> P j t (t' :: ts) id) ->
  (forall j t id l r n, nth_error (pats st) id = Some (PGroup l r n) ->
     K st j t [] l -> P j t [] l -> K st j t [] r -> P j t [] r -> n = nul st l && nul st r -> P j t [] id) ->
  (forall j t id l r n, nth_error (pats st) id = Some (PInterleave l r n) ->
     K st j t [] l -> P j t [] l -> K st j t [] r -> P j t [] r -> n = nul st l && nul st r ->
     (t = TA -> K st j TN [] l /\ K st j TN [] r \/ K st j TE [] l \/ K st j TE [] r) -> P j t [] id) ->
  (forall j t id p n, nth_error (pats st) id = Some (POneOrMore p n) ->
     K st j t [] p -> P j t [] p -> n = nul st p -> P j t [] id) ->
  (forall j t id, nth_error (pats st) id = Some PEmpty -> P j t [] id) ->
  (forall j t id, nth_error (pats st) id = Some PText -> t <> TE -> P j t [] id) ->
  (forall j j' t id nc p, nth_error (pats st) id = Some (PAttribute nc p) -> K st j' TA [] p -> P j' TA [] p -> P j t [] id) ->
  (forall j t id nc p, nth_error (pats st) id = Some (PElement nc p) -> t <> TE -> P j t [] id) ->
  (forall j id d, nth_error (pats st) id = Some (PDatatype d) -> dt_fine O allowed d -> P j TA [] id) ->
  (forall j id v, nth_error (pats st) id = Some (PDatatypeValue v) -> value_fine allowed v -> P j TA [] id) ->
  (forall j id d e, nth_error (pats st) id = Some (PDatatypeExcept d e) -> dt_fine O allowed d -> KS st e -> P j TA [] id) ->
  (forall j id p, nth_error (pats st) id = Some (PList p) -> K st j TA [] p -> P j TA [] p -> P (S j) TA [] id) ->
  forall j t ts id, K st j t ts id -> P j t ts id.
Proof.
  intros C1 C2 C3 C4 C5 C6 C7 C8 C9 C10 C11 C12 C13 C14 j t ts id H.
  remember true as m eqn:Em; revert Em; induction H; intros Em; subst.
  - eapply C1; eauto.
  - eapply C2; eauto.
  - eapply C3; eauto.
  - eapply C4; eauto.
  - eapply C5; eauto.
  - eapply C6; eauto.
  - eapply C7; eauto.
  - eapply C8; eauto.
  - eapply C9; eauto.
  - eapply C10; eauto.
  - eapply C11; eauto.
  - eapply C12; eauto.
  - eapply C13; eauto.
  - eapply C14; eauto.
Qed.
Lemma K_nul st j t ts id : K st j t ts id -> ts = [] -> (nul st id = true <-> L st id [] []).
Proof.
  intros HK; revert j t ts id HK; refine (K_ind_t st _ _ _ _ _ _ _ _ _ _ _ _ _ _ _);
    [intros j t ts id l r n Hn H1 IH1 H2 IH2 Hf
    |intros j t ts id Hn
    |intros j t t' ts id p1 p2 Hn H1 IH1 H2 IH2
    |intros j t id l r n Hn H1 IH1 H2 IH2 Hf
    |intros j t id l r n Hn H1 IH1 H2 IH2 Hf Hc
    |intros j t id p n Hn H1 IH1 Hf
    |intros j t id Hn
    |intros j t id Hn Ht
    |intros j j' t id nc p Hn H1 IH1
    |intros j t id nc p Hn Ht
    |intros j id d Hn Hd
    |intros j id v Hn Hd
    |intros j id d e Hn Hd He
    |intros j id p Hn H1 IH1];
    intros Ets; try discriminate Ets; rewrite (nul_at _ _ _ Hn); cbn [is_nullable].
  - rewrite (L_choice_inv _ _ _ _ _ _ _ _ Hn), <- IH1, <- IH2, Hf, orb_true_iff by assumption; tauto.
  - rewrite (L_na_inv _ _ _ _ _ Hn); split; [discriminate | tauto].
  - rewrite (L_group_inv _ _ _ _ _ _ _ _ Hn), Hf, andb_true_iff, IH1, IH2 by assumption. split.
    + intros [Ha Hb]; exists [], [], [], []; repeat split; auto; constructor.
    + intros (a1 & a2 & w1 & w2 & Ew & Hm & Ha & Hb). symmetry in Ew; apply app_eq_nil in Ew.
      destruct Ew as [-> ->]. apply merge_nil_inv in Hm; destruct Hm as [-> ->]; auto.
  - rewrite (L_interleave_inv _ _ _ _ _ _ _ _ Hn), Hf, andb_true_iff, IH1, IH2 by assumption. split.
    + intros [Ha Hb]; exists [], [], [], []; repeat split; auto; constructor.
    + intros (a1 & a2 & w1 & w2 & Ew & Hm & Ha & Hb). apply merge_nil_inv in Ew.
      destruct Ew as [-> ->]. apply merge_nil_inv in Hm; destruct Hm as [-> ->]; auto.
  - rewrite (L_more_null _ _ _ _ _ Hn), Hf; auto.
  - rewrite (L_empty_inv _ _ _ _ _ Hn); cbn; tauto.
  - rewrite (L_text_inv _ _ _ _ _ Hn); cbn; tauto.
  - rewrite (L_attr_inv _ _ _ _ _ _ _ Hn); split; [discriminate|]. intros (x & E & _); discriminate E.
  - rewrite (L_element_inv _ _ _ _ _ _ _ Hn); split; [discriminate|].
    intros (_ & nm & b & k & w1 & w2 & E & _). destruct w1; discriminate E.
  - rewrite (L_data_inv _ _ _ _ _ _ Hn); split; [discriminate|].
    intros (_ & s & w1 & w2 & E & _). destruct w1; discriminate E.
  - rewrite (L_value_inv _ _ _ _ _ _ Hn); split; [discriminate|].
    intros (_ & s & w1 & w2 & E & _). destruct w1; discriminate E.
  - rewrite (L_except_inv _ _ _ _ _ _ _ Hn); split; [discriminate|].
    intros (_ & s & w1 & w2 & E & _). destruct w1; discriminate E.
  - rewrite (L_list_inv _ _ _ _ _ _ Hn); split; [discriminate|].
    intros (_ & ss & E & Hne & _). destruct ss; [congruence | discriminate E].
Qed.
Lemma K_TE_ws {m} st j id a w : KM st m j TE [] id -> L st id a w -> all_ws w = true.
Proof.
  intros HK H; revert m HK; induction H; intros m HK; inversion HK; subst; try congruence;
    try inv_nth; try assumption; rewrite ?all_ws_app; eauto.
  - erewrite IHL1, IHL2; eauto.
  - rewrite (merge_all_ws _ _ _ H1). erewrite IHL1, IHL2; eauto.
  - erewrite IHL1, IHL2; eauto.
  - erewrite IHL1, IHL2; eauto.
Qed.

Lemma K_raw {m} st j t ts id : KM st m j t ts id -> KM st false j t ts id.
Proof.
  revert m j t ts id. fix IH 6; intros m j t ts id H.
  destruct H as [m j t ts id l r n Hn H1 H2 Hf|m j t ts id Hn|m j t t' ts id p1 p2 Hn H1 H2
    |m j t id l r n Hn H1 H2 Hf|m j t id l r n Hn H1 H2 Hf Hc|m j t id p n Hn H1 Hf|m j t id Hn|m j t id Hn Ht
    |m j j' t id nc p Hn H1|m j t id nc p Hn Ht|m j id d Hn Hd|m j id v Hn Hd|m j id d e Hn Hd He|m j id p Hn H1].
  - eapply K_choice; [exact Hn | exact (IH _ _ _ _ _ H1) | exact (IH _ _ _ _ _ H2) | discriminate].
  - eapply K_na; exact Hn.
  - eapply K_after; [exact Hn | exact (IH _ _ _ _ _ H1) | exact H2].
  - eapply K_group; [exact Hn | exact (IH _ _ _ _ _ H1) | exact (IH _ _ _ _ _ H2) | discriminate].
  - eapply K_inter; [exact Hn | exact (IH _ _ _ _ _ H1) | exact (IH _ _ _ _ _ H2) | discriminate |].
    intros Et; destruct (Hc Et) as [[Ha Hb]|[Ha|Ha]].
    + left; split; [exact (IH _ _ _ _ _ Ha) | exact (IH _ _ _ _ _ Hb)].
    + right; left; exact (IH _ _ _ _ _ Ha).
    + right; right; exact (IH _ _ _ _ _ Ha).
  - eapply K_more; [exact Hn | exact H1 | discriminate].
  - eapply K_empty; exact Hn.
  - eapply K_text; [exact Hn | exact Ht].
  - eapply K_attr; [exact Hn | exact H1].
  - eapply K_elem; [exact Hn | exact Ht].
  - eapply K_data; [exact Hn | exact Hd].
  - eapply K_value; [exact Hn | exact Hd].
  - eapply K_except; [exact Hn | exact Hd | exact He].
  - eapply K_list; [exact Hn | exact H1].
Qed.
Lemma K_any m st j t ts id : K st j t ts id -> KM st m j t ts id.
Proof. destruct m; [auto | apply K_raw]. Qed.

(** ** Weakest preconditions *)
Definition wp {A} (f : nat -> M A) (st : store) (Q : A -> store -> Prop) : Prop :=
  exists n r, (forall m, n <= m -> f m st = r) /\
    match r with
    | Ok (a, st') => ext st st' /\ G st' /\ Q a st'
    | Panic p => allowed p
    | OutOfFuel => False
    end.

Lemma wp_ret {A} (a : A) st (Q : A -> store -> Prop) : G st -> Q a st -> wp (fun _ => ret a) st Q.
Proof. intros HG H; exists 0, (Ok (a, st)); split; [reflexivity|]. auto using ext_refl. Qed.
Lemma wp_mono {A} (f : nat -> M A) st (Q Q' : A -> store -> Prop) :
  wp f st Q -> (forall a st', ext st st' -> G st' -> Q a st' -> Q' a st') -> wp f st Q'.
Proof.
  intros (n & r & Hr & H) Himp; exists n, r; split; [exact Hr|].
  destruct r as [[a st']| |]; auto. destruct H as (E & HG & H); auto.
Qed.
Lemma wp_bind {A B} (f : nat -> M A) (g : nat -> A -> M B) st Q (Q' : B -> store -> Prop) :
  wp f st Q -> (forall a st', ext st st' -> G st' -> Q a st' -> wp (fun m => g m a) st' Q') ->
  wp (fun m => bind (f m) (g m)) st Q'.
Proof.
  intros (n & r & Hr & H) Hg. destruct r as [[a st']|p|]; [|exists n, (Panic p)|contradiction].
  - destruct H as (E & HG & H). destruct (Hg a st' E HG H) as (n' & r' & Hr' & H').
    exists (max n n'), r'; split.
    + intros m Hm. unfold bind. rewrite Hr by lia. apply Hr'; lia.
    + destruct r' as [[b st'']| |]; auto. destruct H' as (E' & HG' & H'). eauto using ext_trans.
  - split; [|exact H]. intros m Hm. unfold bind. rewrite Hr by exact Hm. reflexivity.
Qed.
Lemma wp_S {A} (f : nat -> M A) st Q : wp (fun m => f (S m)) st Q -> wp f st Q.
Proof.
  intros (n & r & Hr & H); exists (S n), r; split; [|exact H].
  intros m Hm; destruct m as [|m]; [lia|]. apply Hr; lia.
Qed.
Lemma wp_patt i p st (Q : pat -> store -> Prop) : G st -> nth_error (pats st) i = Some p -> Q p st ->
  wp (fun _ => patt i) st Q.
Proof.
  intros HG E H; exists 0, (Ok (p, st)); split; [intros m _; unfold patt; rewrite E; reflexivity|].
  auto using ext_refl.
Qed.
Lemma wp_pattb {B} i p (g : nat -> pat -> M B) st Q : nth_error (pats st) i = Some p ->
  wp (fun m => g m p) st Q -> wp (fun m => bind (patt i) (g m)) st Q.
Proof.
  intros E (n & r & Hr & H); exists n, r; split; [|exact H].
  intros m Hm. unfold bind, patt. rewrite E. apply Hr; exact Hm.
Qed.
Lemma wp_lift {A} (x : res A) st (Q : A -> store -> Prop) : G st -> x <> OutOfFuel ->
  (forall p, x = Panic p -> allowed p) -> (forall a, x = Ok a -> Q a st) -> wp (fun _ => lift x) st Q.
Proof.
  intros HG Ho Hp Ha. unfold lift. destruct x as [a|p|]; [| |congruence].
  - exists 0, (Ok (a, st)); split; [reflexivity|]. auto using ext_refl.
  - exists 0, (Panic p); split; [reflexivity|]; auto.
Qed.

(** ** push *)
Lemma G_push st p : G st -> (forall c, In c (children p) -> inr_ st c) ->
  (forall nc c, p = PElement nc c -> exists j, KM st false j (T nc) [] c) ->
  G (Store (pats st ++ [p]) ((p, length (pats st)) :: memo st) (refs st)).
Proof.
  intros HG Hc He.
  set (st' := Store (pats st ++ [p]) ((p, length (pats st)) :: memo st) (refs st)).
  assert (E : ext st st') by (exists [p]; reflexivity).
  assert (Hnew : nth_error (pats st') (length (pats st)) = Some p).
  { unfold st'; cbn. rewrite nth_error_app2, Nat.sub_diag by lia. reflexivity. }
  assert (Hcase : forall id q, nth_error (pats st') id = Some q ->
            nth_error (pats st) id = Some q \/ id = length (pats st) /\ q = p).
  { intros id q Hq. destruct (Nat.lt_ge_cases id (length (pats st))) as [Hlt|Hge].
    - left; eapply ext_nth_inv; eassumption.
    - right. assert (id < length (pats st')) by (apply nth_error_Some; congruence).
      unfold st' in H; cbn in H; rewrite app_length in H; cbn in H.
      assert (id = length (pats st)) by lia; subst id. split; [reflexivity | congruence]. }
  constructor.
  - intros id q c Hq Hin. assert (Hi : inr_ st' c); [|exact Hi]. eapply ext_inr; [exact E|].
    destruct (Hcase _ _ Hq) as [Hq'|[-> ->]]; [eapply child_inr; eassumption | apply Hc; exact Hin].
  - intros q id Hl. unfold st' in Hl; cbn in Hl. destruct (pat_eq_dec p q) as [->|Hne].
    + injection Hl as <-; left; exact Hnew.
    + destruct (G_memo _ _ _ _ HG _ _ Hl) as [Hq|Hp]; [left; eapply ext_nth; eassumption | right; exact Hp].
  - intros id nc c Hq. destruct (Hcase _ _ Hq) as [Hq'|[-> Ep]].
    + destruct (G_elem _ _ _ _ HG _ _ _ Hq') as [j Hj]; exists j; eapply K_ext; eassumption.
    + destruct (He nc c) as [j Hj]; [congruence|]. exists j; eapply K_ext; eassumption.
Qed.
Lemma wp_push p st : G st -> is_placeholder p = false -> (forall c, In c (children p) -> inr_ st c) ->
  (forall nc c, p = PElement nc c -> exists j, KM st false j (T nc) [] c) ->
  wp (fun _ => push p) st (fun i st' => nth_error (pats st') i = Some p).
Proof.
  intros HG Hp Hc He. unfold push.
  destruct (max_patterns <? N.of_nat (length (pats st)))%N eqn:Emax.
  { exists 0, (Panic PTooManyPatterns); split; [intros; rewrite Emax; reflexivity | exact allowed_push]. }
  destruct (lookup_pat p (memo st)) as [i|] eqn:El.
  - exists 0, (Ok (i, st)); split; [intros; rewrite Emax, El; reflexivity|].
    split; [apply ext_refl|]. split; [exact HG|].
    destruct (G_memo _ _ _ _ HG _ _ El) as [H|H]; congruence.
  - eexists 0, (Ok (_, _)); split; [intros; rewrite Emax, El; reflexivity|].
    split; [exists [p]; reflexivity|]. split; [apply G_push; assumption|].
    cbn. rewrite nth_error_app2, Nat.sub_diag by lia. reflexivity.
Qed.
Lemma wp_push0 p st : G st -> children p = [] -> is_placeholder p = false ->
  wp (fun _ => push p) st (fun i st' => nth_error (pats st') i = Some p).
Proof.
  intros HG Hc Hp; apply wp_push; auto.
  - rewrite Hc; intros c [].
  - intros nc c ->; discriminate Hc.
Qed.

(** ** Smart constructors *)
Definition is_choice (st : store) (i l r : pid) : Prop :=
  inr_ st i /\ nul st i = nul st l || nul st r /\
  (forall m j t ts, KM st m j t ts l -> KM st m j t ts r -> KM st m j t ts i) /\
  (forall a w ks, LF st i a w ks <-> LF st l a w ks \/ LF st r a w ks).
Definition is_group (st : store) (i l r : pid) : Prop :=
  inr_ st i /\
  (forall m j t, KM st m j t [] l -> KM st m j t [] r -> KM st m j t [] i) /\
  (forall a w, L st i a w <-> exists a1 a2 w1 w2, w = w1 ++ w2 /\ merge a1 a2 a /\ L st l a1 w1 /\ L st r a2 w2).
Definition is_inter (st : store) (i l r : pid) : Prop :=
  inr_ st i /\
  (forall m j t, KM st m j t [] l -> KM st m j t [] r ->
     (t = TA -> KM st m j TN [] l /\ KM st m j TN [] r \/ KM st m j TE [] l \/ KM st m j TE [] r) -> KM st m j t [] i) /\
  (forall a w, L st i a w <-> exists a1 a2 w1 w2, merge w1 w2 w /\ merge a1 a2 a /\ L st l a1 w1 /\ L st r a2 w2).
Definition is_after (st : store) (i p1 p2 : pid) : Prop :=
  inr_ st i /\
  (forall m j t t' ts, KM st m j t [] p1 -> K st j t' ts p2 -> KM st m j t (t' :: ts) i) /\
  (forall j t m a w ks, KM st m j t [] p1 ->
     (LF st i a w ks <-> exists k ks', ks = k :: ks' /\ L st p1 a w /\ LF st p2 [] k ks')).

Lemma is_na_true p : is_not_allowed p = true -> p = PNotAllowed.
Proof. destruct p; cbn; congruence. Qed.
Lemma is_empty_true p : is_empty p = true -> p = PEmpty.
Proof. destruct p; cbn; congruence. Qed.

Lemma wp_choice l r st : G st -> inr_ st l -> inr_ st r ->
  wp (fun _ => choice l r) st (fun i st' => is_choice st' i l r).
Proof.
  intros HG Hl Hr. destruct (inr_nth _ _ Hl) as [pl Hpl]. destruct (inr_nth _ _ Hr) as [pr Hpr].
  unfold choice. eapply wp_pattb; [exact Hpl|]. eapply wp_pattb; [exact Hpr|].
  clear Hl Hr. rename st into st2, HG into HG2.
  destruct (is_not_allowed pl) eqn:E1; [|destruct (is_not_allowed pr) eqn:E2; [|destruct (Nat.eqb l r) eqn:E3]].
  - apply is_na_true in E1; subst pl. apply wp_ret; [exact HG2|].
    repeat split; eauto using nth_inr.
    + rewrite (nul_at _ _ _ Hpl); reflexivity.
    + intros [H|H]; [apply (LF_na_inv _ _ _ _ _ _ Hpl) in H; contradiction | exact H].
  - apply is_na_true in E2; subst pr. apply wp_ret; [exact HG2|].
    repeat split; eauto using nth_inr.
    + rewrite (nul_at _ _ _ Hpr), orb_false_r; reflexivity.
    + intros [H|H]; [exact H | apply (LF_na_inv _ _ _ _ _ _ Hpr) in H; contradiction].
  - apply Nat.eqb_eq in E3; subst r. apply wp_ret; [exact HG2|].
    repeat split; eauto using nth_inr; [rewrite orb_diag; reflexivity | tauto].
  - eapply wp_mono; [apply wp_push; [exact HG2 | reflexivity | | intros ? ? HH; discriminate HH]|].
    { cbn; intros c [<-|[<-|[]]]; eapply nth_inr; eassumption. }
    intros i st' E HG' Hi; cbn beta in Hi. split; [eapply nth_inr; eassumption|].
    apply (ext_nth _ _ _ _ E) in Hpl. apply (ext_nth _ _ _ _ E) in Hpr.
    split; [|split].
    + rewrite (nul_at _ _ _ Hi), (nul_at _ _ _ Hpl), (nul_at _ _ _ Hpr); reflexivity.
    + intros m j t ts H1 H2. eapply K_choice; [exact Hi | exact H1 | exact H2 | intros _].
      rewrite (nul_at _ _ _ Hpl), (nul_at _ _ _ Hpr); reflexivity.
    + intros a w ks; apply (LF_choice_inv _ _ _ _ _ _ _ _ _ Hi).
Qed.
Lemma L_group_empty_l st l r a w : nth_error (pats st) l = Some PEmpty ->
  (L st r a w <-> exists a1 a2 w1 w2, w = w1 ++ w2 /\ merge a1 a2 a /\ L st l a1 w1 /\ L st r a2 w2).
Proof.
  intros Hl; split.
  - intros H; exists [], a, [], w; repeat split; auto using merge_nil_l. apply L_empty; auto.
  - intros (a1 & a2 & w1 & w2 & -> & Hm & H1 & H2).
    apply (L_empty_inv _ _ _ _ _ Hl) in H1; destruct H1 as [-> H1].
    apply merge_nil_l_inv in Hm; subst a2. apply L_ws_app_l; assumption.
Qed.
Lemma L_group_empty_r st l r a w : nth_error (pats st) r = Some PEmpty ->
  (L st l a w <-> exists a1 a2 w1 w2, w = w1 ++ w2 /\ merge a1 a2 a /\ L st l a1 w1 /\ L st r a2 w2).
Proof.
  intros Hl; split.
  - intros H; exists a, [], w, []; repeat split; auto using merge_nil_r; [rewrite app_nil_r; reflexivity | apply L_empty; auto].
  - intros (a1 & a2 & w1 & w2 & -> & Hm & H1 & H2).
    apply (L_empty_inv _ _ _ _ _ Hl) in H2; destruct H2 as [-> H2].
    apply merge_nil_r_inv in Hm; subst a1. apply L_ws_app_r; assumption.
Qed.
Lemma wp_group l r st : G st -> inr_ st l -> inr_ st r ->
  wp (fun _ => group l r) st (fun i st' => is_group st' i l r).
Proof.
  intros HG Hl Hr. destruct (inr_nth _ _ Hl) as [pl Hpl]. destruct (inr_nth _ _ Hr) as [pr Hpr].
  unfold group. eapply wp_pattb; [exact Hpl|]. eapply wp_pattb; [exact Hpr|].
  clear Hl Hr. rename st into st2, HG into HG2.
  destruct (is_not_allowed pl) eqn:E1; [|destruct (is_not_allowed pr) eqn:E2;
    [|destruct (is_empty pl) eqn:E3; [|destruct (is_empty pr) eqn:E4]]].
  - apply is_na_true in E1; subst pl.
    eapply wp_mono; [apply wp_push0; [exact HG2 | reflexivity | reflexivity]|].
    intros i st' E HG' Hi; cbn beta in Hi. apply (ext_nth _ _ _ _ E) in Hpl. split; [eapply nth_inr; eassumption|].
    split; [intros; eapply K_na; eassumption|]. intros a w. rewrite (L_na_inv _ _ _ _ _ Hi).
    split; [tauto|]. intros (a1 & a2 & w1 & w2 & _ & _ & H1 & _). apply (L_na_inv _ _ _ _ _ Hpl) in H1; exact H1.
  - apply is_na_true in E2; subst pr.
    eapply wp_mono; [apply wp_push0; [exact HG2 | reflexivity | reflexivity]|].
    intros i st' E HG' Hi; cbn beta in Hi. apply (ext_nth _ _ _ _ E) in Hpr. split; [eapply nth_inr; eassumption|].
    split; [intros; eapply K_na; eassumption|]. intros a w. rewrite (L_na_inv _ _ _ _ _ Hi).
    split; [tauto|]. intros (a1 & a2 & w1 & w2 & _ & _ & _ & H1). apply (L_na_inv _ _ _ _ _ Hpr) in H1; exact H1.
  - apply is_empty_true in E3; subst pl. apply wp_ret; [exact HG2|].
    split; [eapply nth_inr; eassumption|]. split; [auto|]. intros a w; apply L_group_empty_l; exact Hpl.
  - apply is_empty_true in E4; subst pr. apply wp_ret; [exact HG2|].
    split; [eapply nth_inr; eassumption|]. split; [auto|]. intros a w; apply L_group_empty_r; exact Hpr.
  - eapply wp_mono; [apply wp_push; [exact HG2 | reflexivity | | intros ? ? HH; discriminate HH]|].
    { cbn; intros c [<-|[<-|[]]]; eapply nth_inr; eassumption. }
    intros i st' E HG' Hi; cbn beta in Hi. split; [eapply nth_inr; eassumption|].
    apply (ext_nth _ _ _ _ E) in Hpl. apply (ext_nth _ _ _ _ E) in Hpr. split.
    + intros m j t H1 H2. eapply K_group; [exact Hi | exact H1 | exact H2 | intros _].
      rewrite (nul_at _ _ _ Hpl), (nul_at _ _ _ Hpr); reflexivity.
    + intros a w; apply (L_group_inv _ _ _ _ _ _ _ _ Hi).
Qed.
Lemma L_inter_empty_l st l r a w : nth_error (pats st) l = Some PEmpty ->
  (L st r a w <-> exists a1 a2 w1 w2, merge w1 w2 w /\ merge a1 a2 a /\ L st l a1 w1 /\ L st r a2 w2).
Proof.
  intros Hl; split.
  - intros H; exists [], a, [], w; repeat split; auto using merge_nil_l. apply L_empty; auto.
  - intros (a1 & a2 & w1 & w2 & Hw & Hm & H1 & H2).
    apply (L_empty_inv _ _ _ _ _ Hl) in H1; destruct H1 as [-> H1].
    apply merge_nil_l_inv in Hm; subst a2. eapply L_ws_merge; eassumption.
Qed.
Lemma L_inter_empty_r st l r a w : nth_error (pats st) r = Some PEmpty ->
  (L st l a w <-> exists a1 a2 w1 w2, merge w1 w2 w /\ merge a1 a2 a /\ L st l a1 w1 /\ L st r a2 w2).
Proof.
  intros Hl; split.
  - intros H; exists a, [], w, []; repeat split; auto using merge_nil_r. apply L_empty; auto.
  - intros (a1 & a2 & w1 & w2 & Hw & Hm & H1 & H2).
    apply (L_empty_inv _ _ _ _ _ Hl) in H2; destruct H2 as [-> H2].
    apply merge_nil_r_inv in Hm; subst a1. eapply L_ws_merge; [exact H2 | apply merge_comm; exact Hw | exact H1].
Qed.
Lemma wp_interleave l r st : G st -> inr_ st l -> inr_ st r ->
  wp (fun _ => interleave l r) st (fun i st' => is_inter st' i l r).
Proof.
  intros HG Hl Hr. destruct (inr_nth _ _ Hl) as [pl Hpl]. destruct (inr_nth _ _ Hr) as [pr Hpr].
  unfold interleave. eapply wp_pattb; [exact Hpl|]. eapply wp_pattb; [exact Hpr|].
  clear Hl Hr. rename st into st2, HG into HG2.
  destruct (is_not_allowed pl) eqn:E1; [|destruct (is_not_allowed pr) eqn:E2;
    [|destruct (is_empty pl) eqn:E3; [|destruct (is_empty pr) eqn:E4]]].
  - apply is_na_true in E1; subst pl.
    eapply wp_mono; [apply wp_push0; [exact HG2 | reflexivity | reflexivity]|].
    intros i st' E HG' Hi; cbn beta in Hi. apply (ext_nth _ _ _ _ E) in Hpl. split; [eapply nth_inr; eassumption|].
    split; [intros; eapply K_na; eassumption|]. intros a w. rewrite (L_na_inv _ _ _ _ _ Hi).
    split; [tauto|]. intros (a1 & a2 & w1 & w2 & _ & _ & H1 & _). apply (L_na_inv _ _ _ _ _ Hpl) in H1; exact H1.
  - apply is_na_true in E2; subst pr.
    eapply wp_mono; [apply wp_push0; [exact HG2 | reflexivity | reflexivity]|].
    intros i st' E HG' Hi; cbn beta in Hi. apply (ext_nth _ _ _ _ E) in Hpr. split; [eapply nth_inr; eassumption|].
    split; [intros; eapply K_na; eassumption|]. intros a w. rewrite (L_na_inv _ _ _ _ _ Hi).
    split; [tauto|]. intros (a1 & a2 & w1 & w2 & _ & _ & _ & H1). apply (L_na_inv _ _ _ _ _ Hpr) in H1; exact H1.
  - apply is_empty_true in E3; subst pl. apply wp_ret; [exact HG2|].
    split; [eapply nth_inr; eassumption|]. split; [auto|]. intros a w; apply L_inter_empty_l; exact Hpl.
  - apply is_empty_true in E4; subst pr. apply wp_ret; [exact HG2|].
    split; [eapply nth_inr; eassumption|]. split; [auto|]. intros a w; apply L_inter_empty_r; exact Hpr.
  - eapply wp_mono; [apply wp_push; [exact HG2 | reflexivity | | intros ? ? HH; discriminate HH]|].
    { cbn; intros c [<-|[<-|[]]]; eapply nth_inr; eassumption. }
    intros i st' E HG' Hi; cbn beta in Hi. split; [eapply nth_inr; eassumption|].
    apply (ext_nth _ _ _ _ E) in Hpl. apply (ext_nth _ _ _ _ E) in Hpr. split.
    + intros m j t H1 H2 H3. eapply K_inter; [exact Hi | exact H1 | exact H2 | intros _ | exact H3].
      rewrite (nul_at _ _ _ Hpl), (nul_at _ _ _ Hpr); reflexivity.
    + intros a w; apply (L_interleave_inv _ _ _ _ _ _ _ _ Hi).
Qed.
Lemma wp_after p1 p2 st : G st -> inr_ st p1 -> inr_ st p2 ->
  wp (fun _ => after p1 p2) st (fun i st' => is_after st' i p1 p2).
Proof.
  intros HG Hl Hr. destruct (inr_nth _ _ Hl) as [pl Hpl]. destruct (inr_nth _ _ Hr) as [pr Hpr].
  unfold after. eapply wp_pattb; [exact Hpl|].
  clear Hl Hr. rename st into st2, HG into HG2.
  destruct (is_not_allowed pl) eqn:E1.
  - apply is_na_true in E1; subst pl.
    eapply wp_mono; [apply wp_push0; [exact HG2 | reflexivity | reflexivity]|].
    intros i st' E HG' Hi; cbn beta in Hi. apply (ext_nth _ _ _ _ E) in Hpl. split; [eapply nth_inr; eassumption|].
    split; [intros; eapply K_na; eassumption|]. intros j t m a w ks _. rewrite (LF_na_inv _ _ _ _ _ _ Hi).
    split; [tauto|]. intros (k & ks' & _ & H1 & _). apply (L_na_inv _ _ _ _ _ Hpl) in H1; exact H1.
  - eapply wp_mono; [apply wp_push; [exact HG2 | reflexivity | | intros ? ? HH; discriminate HH]|].
    { cbn; intros c [<-|[<-|[]]]; eapply nth_inr; eassumption. }
    intros i st' E HG' Hi; cbn beta in Hi. split; [eapply nth_inr; eassumption|]. split.
    + intros m j t t' ts H1 H2. eapply K_after; eassumption.
    + intros j t m a w ks _; apply (LF_after_inv _ _ _ _ _ _ _ _ Hi).
Qed.
Lemma wp_one_or_more p st : G st -> inr_ st p ->
  wp (fun _ => one_or_more p) st (fun i st' => nth_error (pats st') i = Some (POneOrMore p (nul st' p))).
Proof.
  intros HG Hl. destruct (inr_nth _ _ Hl) as [pl Hpl].
  unfold one_or_more. eapply wp_pattb; [exact Hpl|].
  clear Hl. rename st into st2, HG into HG2.
  eapply wp_mono; [apply wp_push; [exact HG2 | reflexivity | | intros ? ? HH; discriminate HH]|].
  { cbn; intros c [<-|[]]; eapply nth_inr; eassumption. }
  intros i st' E HG' Hi; cbn beta in Hi. cbn. apply (ext_nth _ _ _ _ E) in Hpl. rewrite (nul_at _ _ _ Hpl); exact Hi.
Qed.

(** ** the predicates are stable under extension *)
Lemma is_choice_ext st st' i l r : G st -> ext st st' -> inr_ st l -> inr_ st r ->
  is_choice st i l r -> is_choice st' i l r.
Proof.
  intros HG E Hl Hr (Hi & Hn & HK & HL). split; [eapply ext_inr; eassumption|]. split; [|split].
  - rewrite !(ext_nul st st') by assumption; exact Hn.
  - intros m j t ts H1 H2. eapply K_ext; [exact E|]. apply HK; eapply K_ext_inv; eassumption.
  - intros a w ks. rewrite !(LF_ext_iff st st') by assumption. apply HL.
Qed.
End Wp.
