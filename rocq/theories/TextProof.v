(** * TextProof: text_deriv (validator lib.rs:865-984) computes the text derivative. *)
From Verif Require Import Base Datatype Store Deriv Lang LangFacts Wp.
Open Scope monad_scope.

Section Text.
Variable O : oracles.
Variable allowed : panic -> Prop.
Variable T : nameclass -> ctype.
Hypothesis allowed_push : allowed PTooManyPatterns.
Notation KM := (KM O allowed).
Notation K st j t ts id := (Lang.KM O allowed st true j t ts id) (only parsing).
Notation KS := (KS O allowed).
Notation G := (G O allowed T).
Notation L := (L O).
Notation LF := (LF O).
Notation SM := (SM O).
Notation wp := (wp O allowed T).

(** in-range variants of the constructor predicates, stable under extension *)
Definition Choice (st : store) (i l r : pid) : Prop := inr_ st l /\ inr_ st r /\ is_choice O allowed st i l r.
Definition Group (st : store) (i l r : pid) : Prop := inr_ st l /\ inr_ st r /\ is_group O allowed st i l r.
Definition Inter (st : store) (i l r : pid) : Prop := inr_ st l /\ inr_ st r /\ is_inter O allowed st i l r.
Definition After (st : store) (i l r : pid) : Prop := inr_ st l /\ inr_ st r /\ is_after O allowed st i l r.

Lemma Choice_ext st st' i l r : G st -> ext st st' -> Choice st i l r -> Choice st' i l r.
Proof.
  intros HG E (Hl & Hr & H). do 2 (split; [eapply ext_inr; eassumption|]);
    eapply (is_choice_ext O allowed T st st'); eassumption.
Qed.
Lemma Group_ext st st' i l r : G st -> ext st st' -> Group st i l r -> Group st' i l r.
Proof.
  intros HG E (Hl & Hr & Hi & HK & HL). do 3 (split; [eapply ext_inr; eassumption|]). split.
  - intros m j t H1 H2. eapply K_ext; [exact E|]. apply HK; eapply K_ext_inv; eassumption.
  - intros a w. rewrite (L_ext_iff O allowed T st st' i) by assumption. rewrite HL.
    split; intros (a1 & a2 & w1 & w2 & Hw & Ha & H1 & H2); exists a1, a2, w1, w2;
      rewrite ?(L_ext_iff O allowed T st st') in * by assumption; auto.
Qed.
Lemma Inter_ext st st' i l r : G st -> ext st st' -> Inter st i l r -> Inter st' i l r.
Proof.
  intros HG E (Hl & Hr & Hi & HK & HL). do 3 (split; [eapply ext_inr; eassumption|]). split.
  - intros m j t H1 H2 H3. eapply K_ext; [exact E|]. apply HK; [eapply K_ext_inv; eassumption..|].
    intros Et. rewrite !(K_ext_iff O allowed T st st') in H3 by assumption. auto.
  - intros a w. rewrite (L_ext_iff O allowed T st st' i) by assumption. rewrite HL.
    split; intros (a1 & a2 & w1 & w2 & Hw & Ha & H1 & H2); exists a1, a2, w1, w2;
      rewrite ?(L_ext_iff O allowed T st st') in * by assumption; auto.
Qed.
Lemma After_ext st st' i l r : G st -> ext st st' -> After st i l r -> After st' i l r.
Proof.
  intros HG E (Hl & Hr & Hi & HK & HL). do 3 (split; [eapply ext_inr; eassumption|]). split.
  - intros m j t t' ts H1 H2. eapply K_ext; [exact E|]. apply HK; eapply K_ext_inv; eassumption.
  - intros j t m a w ks H1. rewrite (LF_ext_iff O allowed T st st' i) by assumption.
    rewrite (HL j t m) by (eapply K_ext_inv; eassumption).
    split; intros (k & ks' & Hk & Ha & H2); exists k, ks';
      rewrite ?(L_ext_iff O allowed T st st'), ?(LF_ext_iff O allowed T st st') in * by assumption; auto.
Qed.
Lemma wpc l r st : G st -> inr_ st l -> inr_ st r -> wp (fun _ => choice l r) st (fun i st' => Choice st' i l r).
Proof.
  intros HG Hl Hr; eapply wp_mono; [apply wp_choice; assumption|].
  intros i st' E HG' H; do 2 (split; [eapply ext_inr; eassumption|]); exact H.
Qed.
Lemma wpg l r st : G st -> inr_ st l -> inr_ st r -> wp (fun _ => group l r) st (fun i st' => Group st' i l r).
Proof.
  intros HG Hl Hr; eapply wp_mono; [apply wp_group; assumption|].
  intros i st' E HG' H; do 2 (split; [eapply ext_inr; eassumption|]); exact H.
Qed.
Lemma wpi l r st : G st -> inr_ st l -> inr_ st r -> wp (fun _ => interleave l r) st (fun i st' => Inter st' i l r).
Proof.
  intros HG Hl Hr; eapply wp_mono; [apply wp_interleave; assumption|].
  intros i st' E HG' H; do 2 (split; [eapply ext_inr; eassumption|]); exact H.
Qed.
Lemma wpa l r st : G st -> inr_ st l -> inr_ st r -> wp (fun _ => after l r) st (fun i st' => After st' i l r).
Proof.
  intros HG Hl Hr; eapply wp_mono; [apply wp_after; assumption|].
  intros i st' E HG' H; do 2 (split; [eapply ext_inr; eassumption|]); exact H.
Qed.
Lemma wpe st : G st -> wp (fun _ => empty) st (fun i st' => nth_error (pats st') i = Some PEmpty).
Proof. intros; apply wp_push0; auto. Qed.
Lemma wpn st : G st -> wp (fun _ => not_allowed) st (fun i st' => nth_error (pats st') i = Some PNotAllowed).
Proof. intros; apply wp_push0; auto. Qed.
Lemma wpt st : G st -> wp (fun _ => text) st (fun i st' => nth_error (pats st') i = Some PText).
Proof. intros; apply wp_push0; auto. Qed.

(** inversion of [K] by the pattern at [id] *)
Section KInv.
Variable st : store.
Notation at_ id p := (nth_error (pats st) id = Some p).
Ltac kk := let E := fresh in let H := fresh in intros E H; inversion H; subst; try congruence;
  match goal with E' : nth_error _ _ = Some _ |- _ => rewrite E in E'; injection E'; intros; subst end; eauto 10.
Lemma K_choice_inv {m} j t ts id l r n : at_ id (PChoice l r n) -> KM st m j t ts id ->
  KM st m j t ts l /\ KM st m j t ts r /\ (m = true -> n = nul st l || nul st r).
Proof. kk. Qed.
Lemma K_after_inv {m} j t ts id l r : at_ id (PAfter l r) -> KM st m j t ts id ->
  exists t' ts', ts = t' :: ts' /\ KM st m j t [] l /\ K st j t' ts' r.
Proof. kk. Qed.
Lemma K_group_inv {m} j t ts id l r n : at_ id (PGroup l r n) -> KM st m j t ts id ->
  ts = [] /\ KM st m j t [] l /\ KM st m j t [] r /\ (m = true -> n = nul st l && nul st r).
Proof. kk. Qed.
Lemma K_inter_inv {m} j t ts id l r n : at_ id (PInterleave l r n) -> KM st m j t ts id ->
  ts = [] /\ KM st m j t [] l /\ KM st m j t [] r /\ (m = true -> n = nul st l && nul st r) /\
  (t = TA -> KM st m j TN [] l /\ KM st m j TN [] r \/ KM st m j TE [] l \/ KM st m j TE [] r).
Proof. kk. Qed.
Lemma K_more_inv {m} j t ts id p n : at_ id (POneOrMore p n) -> KM st m j t ts id ->
  ts = [] /\ K st j t [] p /\ (m = true -> n = nul st p).
Proof. kk. Qed.
Lemma K_attr_inv {m} j t ts id nc p : at_ id (PAttribute nc p) -> KM st m j t ts id ->
  ts = [] /\ exists j', K st j' TA [] p.
Proof. kk. Qed.
Lemma K_elem_inv {m} j t ts id nc p : at_ id (PElement nc p) -> KM st m j t ts id -> ts = [] /\ t <> TE.
Proof. kk. Qed.
Lemma K_list_inv {m} j t ts id p : at_ id (PList p) -> KM st m j t ts id ->
  ts = [] /\ t = TA /\ exists j', j = S j' /\ K st j' TA [] p.
Proof. kk. Qed.
End KInv.
Ltac kinv Hn H :=
  let X := fresh "KX" in pose proof H as X;
  first [ apply (K_choice_inv _ _ _ _ _ _ _ _ Hn) in X; destruct X as (? & ? & ?)
        | apply (K_after_inv _ _ _ _ _ _ _ Hn) in X; destruct X as (? & ? & ? & ? & ?)
        | apply (K_group_inv _ _ _ _ _ _ _ _ Hn) in X; destruct X as (? & ? & ? & ?)
        | apply (K_inter_inv _ _ _ _ _ _ _ _ Hn) in X; destruct X as (? & ? & ? & ? & ?)
        | apply (K_more_inv _ _ _ _ _ _ _ Hn) in X; destruct X as (? & ? & ?)
        | apply (K_list_inv _ _ _ _ _ _ Hn) in X; destruct X as (? & ? & ? & ? & ?) ];
  repeat match goal with E : ?x = [] |- _ => subst x | E : ?x = _ :: _ |- _ => subst x
           | E : ?x = TA |- _ => subst x | E : ?x = S _ |- _ => subst x end.

(** ** Except patterns *)
Lemma dt_valid_fuel d s : dt_valid O d s <> OutOfFuel.
Proof. destruct d as [| |[]]; discriminate. Qed.
Lemma dt_value_valid_fuel d s : dt_value_valid d s <> OutOfFuel.
Proof.
  destruct d as [| |[]]; try discriminate. cbn. unfold qname_try.
  destruct (find_colon s) as [[? ?]|]; [destruct (_ && _); discriminate | destruct (is_valid_ncname s); discriminate].
Qed.
Lemma SM_fun st id s b1 : SM st id s b1 -> forall b2, SM st id s b2 -> b1 = b2.
Proof.
  intros H; induction H; intros b' H'; inversion H'; subst; try congruence; inv_nth; try congruence.
  - f_equal; auto.
  - f_equal; [congruence | f_equal; auto].
Qed.
Definition TS (st : store) (id : pid) (s : str) (i : pid) : Prop := inr_ st i /\ SM st id s (nul st i).

Lemma ks_text base id s : KS base id -> forall st p, ext base st -> G st ->
  nth_error (pats st) id = Some p ->
  wp (fun m => text_deriv O m p s) st (fun i st' => TS st' id s i).
Proof.
  intros HK; induction HK as [id l r n Hn HKl IHl HKr IHr|id Hn|id d Hn Hf|id v Hn Hf|id d e Hn Hf HKe IHe];
    intros st p E HG Hp; pose proof (ext_nth _ _ _ _ E Hn) as Hp'; rewrite Hp' in Hp; injection Hp as <-;
    apply wp_S; cbn [text_deriv].
  - pose proof (KS_inr _ _ _ _ (KS_ext _ _ _ _ _ E HKl)) as Hl.
    pose proof (KS_inr _ _ _ _ (KS_ext _ _ _ _ _ E HKr)) as Hr.
    destruct (inr_nth _ _ Hl) as [pl Hpl]. destruct (inr_nth _ _ Hr) as [pr Hpr].
    eapply wp_pattb; [exact Hpl|]. eapply wp_pattb; [exact Hpr|].
    eapply wp_bind; [apply IHl; assumption|]. intros a st1 E1 HG1 [Ha HSa].
    pose proof (ext_trans _ _ _ E E1) as E'.
    eapply wp_bind; [apply IHr; [exact E' | assumption | exact (ext_nth _ _ _ _ E1 Hpr)]|].
    intros b st2 E2 HG2 [Hb HSb].
    eapply wp_mono; [apply wpc; [assumption | eapply ext_inr; eassumption | assumption]|].
    intros i st3 E3 HG3 (Hai & Hbi & Hi & Hnul & _). split; [exact Hi|]. rewrite Hnul.
    pose proof (ext_trans _ _ _ E2 E3) as E23.
    eapply SM_choice.
    + eapply ext_nth; [eapply ext_trans; [exact E1 | exact E23] | exact Hp'].
    + rewrite (ext_nul _ _ _ E23 Ha). exact (SM_ext _ _ _ _ _ _ E23 HSa).
    + rewrite (ext_nul _ _ _ E3 Hb). exact (SM_ext _ _ _ _ _ _ E3 HSb).
  - eapply wp_mono; [apply wpn; assumption|]. intros i st1 E1 HG1 Hi.
    split; [eapply nth_inr; exact Hi|]. rewrite (nul_at _ _ _ Hi). cbn. apply SM_na. exact (ext_nth _ _ _ _ E1 Hp').
  - eapply wp_bind with (Q := fun v st' => dt_valid O d s = Ok v /\ st' = st).
    { apply wp_lift; [assumption | apply dt_valid_fuel | apply Hf | auto]. }
    intros v st1 E1 HG1 [Hv ->]. destruct v.
    + eapply wp_mono; [apply wpe; assumption|]. intros i st2 E2 HG2 Hi.
      split; [eapply nth_inr; exact Hi|]. rewrite (nul_at _ _ _ Hi). cbn.
      eapply SM_data; [exact (ext_nth _ _ _ _ E2 Hp') | exact Hv].
    + eapply wp_mono; [apply wpn; assumption|]. intros i st2 E2 HG2 Hi.
      split; [eapply nth_inr; exact Hi|]. rewrite (nul_at _ _ _ Hi). cbn.
      eapply SM_data; [exact (ext_nth _ _ _ _ E2 Hp') | exact Hv].
  - eapply wp_bind with (Q := fun b st' => dt_value_valid v s = Ok b /\ st' = st).
    { apply wp_lift; [assumption | apply dt_value_valid_fuel | apply Hf | auto]. }
    intros b st1 E1 HG1 [Hv ->]. destruct b.
    + eapply wp_mono; [apply wpe; assumption|]. intros i st2 E2 HG2 Hi.
      split; [eapply nth_inr; exact Hi|]. rewrite (nul_at _ _ _ Hi). cbn.
      eapply SM_value; [exact (ext_nth _ _ _ _ E2 Hp') | exact Hv].
    + eapply wp_mono; [apply wpn; assumption|]. intros i st2 E2 HG2 Hi.
      split; [eapply nth_inr; exact Hi|]. rewrite (nul_at _ _ _ Hi). cbn.
      eapply SM_value; [exact (ext_nth _ _ _ _ E2 Hp') | exact Hv].
  - pose proof (KS_inr _ _ _ _ (KS_ext _ _ _ _ _ E HKe)) as He.
    destruct (inr_nth _ _ He) as [pe Hpe].
    eapply wp_pattb; [exact Hpe|].
    eapply wp_bind; [apply IHe; assumption|]. intros x st1 E1 HG1 [Hx HSx].
    destruct (inr_nth _ _ Hx) as [px Hpx]. eapply wp_pattb; [exact Hpx|].
    eapply wp_bind with (Q := fun v st' => dt_valid O d s = Ok v /\ st' = st1).
    { apply wp_lift; [assumption | apply dt_valid_fuel | apply Hf | auto]. }
    intros v st2 E2 HG2 [Hv ->].
    assert (HS : SM st1 id s (v && negb (is_nullable px))).
    { rewrite <- (nul_at _ _ _ Hpx). eapply SM_except; [exact (ext_nth _ _ _ _ E1 Hp') | exact Hv | exact HSx]. }
    destruct (v && negb (is_nullable px)).
    + eapply wp_mono; [apply wpe; assumption|]. intros i st3 E3 HG3 Hi.
      split; [eapply nth_inr; exact Hi|]. rewrite (nul_at _ _ _ Hi). cbn. exact (SM_ext _ _ _ _ _ _ E3 HS).
    + eapply wp_mono; [apply wpn; assumption|]. intros i st3 E3 HG3 Hi.
      split; [eapply nth_inr; exact Hi|]. rewrite (nul_at _ _ _ Hi). cbn. exact (SM_ext _ _ _ _ _ _ E3 HS).
Qed.

(** ** The derivative relation *)
Definition okw (w : list item) : Prop := Forall (fun i => match i with Txt s => okc s | Elm _ _ _ => True end) w.
Lemma okw_app a b : okw (a ++ b) <-> okw a /\ okw b.
Proof. apply Forall_app. Qed.
Lemma okw_txts ss : okw (map Txt ss) <-> Forall okc ss.
Proof. unfold okw. rewrite Forall_map. reflexivity. Qed.
Lemma okw_merge a b c : merge a b c -> okw c -> okw a.
Proof. unfold okw. induction 1; intros H'; [constructor | inversion H'; subst; constructor; auto | inversion H'; subst; auto]. Qed.
Definition exok (t : ctype) (s : str) (w : list item) : Prop :=
  t <> TA \/ (is_whitespace_str s = false /\ okw w) \/ sep (Txt s :: w).
Definition TD (st : store) (id : pid) (s : str) (i : pid) : Prop :=
  inr_ st id /\ inr_ st i /\
  (forall j t ts, K st j t ts id -> K st j t ts i) /\
  (forall j t ts w ks, K st j t ts id ->
     (LF st i [] w ks -> LF st id [] (Txt s :: w) ks) /\
     (exok t s w -> LF st id [] (Txt s :: w) ks -> LF st i [] w ks)).
Lemma TD_ext st st' id s i : G st -> ext st st' -> TD st id s i -> TD st' id s i.
Proof.
  intros HG E (Hid & Hi & HK & HL). do 2 (split; [eapply ext_inr; eassumption|]). split.
  - intros j t ts H. eapply K_ext; [exact E|]. apply HK. eapply K_ext_inv; eassumption.
  - intros j t ts w ks H1. rewrite !(LF_ext_iff O allowed T st st') by assumption.
    apply (HL j t ts); eapply K_ext_inv; eassumption.
Qed.
(** depth-0 reading of [TD] *)
Lemma TD_L st id s i j t w : TD st id s i -> K st j t [] id -> exok t s w ->
  (L st i [] w <-> L st id [] (Txt s :: w)).
Proof.
  intros (_ & _ & _ & HL) HK Hx. rewrite <- !LF_nil. destruct (HL _ _ _ w [] HK) as [H1 H2]. split; auto.
Qed.
Lemma TD_Lu st id s i j t w : TD st id s i -> K st j t [] id -> L st i [] w -> L st id [] (Txt s :: w).
Proof. intros (_ & _ & _ & HL) HK. rewrite <- !LF_nil. apply (HL _ _ _ w [] HK). Qed.
(** to prove [TD] for a pattern that only lives at depth 0 *)
Lemma TD_intro0 st id s i : inr_ st id -> inr_ st i ->
  (forall j t ts, K st j t ts id -> ts = [] /\ K st j t [] i) ->
  (forall j t w, K st j t [] id ->
     (L st i [] w -> L st id [] (Txt s :: w)) /\ (exok t s w -> L st id [] (Txt s :: w) -> L st i [] w)) ->
  TD st id s i.
Proof.
  intros Hid Hi HK HL. do 2 (split; [assumption|]). split.
  - intros j t ts H; destruct (HK _ _ _ H) as [-> H']; exact H'.
  - intros j t ts w ks H. destruct (HK _ _ _ H) as [-> H'].
    rewrite (@K_LF_nil O allowed true st j t i), (@K_LF_nil O allowed true st j t id) by assumption.
    destruct (HL j t w H) as [H1 H2]; tauto.
Qed.
Lemma exok_app t s w1 w2 : exok t s (w1 ++ w2) -> exok t s w1.
Proof.
  intros [H|[[H H2]|H]]; [left; exact H | right; left; split; [exact H | apply okw_app in H2; tauto] | right; right].
  change (Txt s :: w1 ++ w2) with ((Txt s :: w1) ++ w2) in H. apply sep_app in H; tauto.
Qed.
Lemma exok_ne t s w : t <> TA -> exok t s w.
Proof. left; assumption. Qed.

Lemma TD_choice st id l r n s a b i : nth_error (pats st) id = Some (PChoice l r n) ->
  TD st l s a -> TD st r s b -> Choice st i a b -> TD st id s i.
Proof.
  intros Hn (Hl & Ha & HKl & HLl) (Hr & Hb & HKr & HLr) (_ & _ & Hi & _ & HKi & HLi).
  split; [eapply nth_inr; exact Hn|]. split; [exact Hi|]. split.
  - intros j t ts H; kinv Hn H. apply HKi; auto.
  - intros j t ts w ks H; kinv Hn H.
    rewrite HLi, (LF_choice_inv _ _ _ _ _ _ _ _ _ Hn).
    destruct (HLl j t ts w ks) as [L1 L2]; [assumption|]. destruct (HLr j t ts w ks) as [R1 R2]; [assumption|].
    split; [intros [Q|Q]; [left; auto | right; auto] | intros Hx [Q|Q]; [left; auto | right; auto]].
Qed.
Lemma TD_after st id p1 p2 s d i : nth_error (pats st) id = Some (PAfter p1 p2) ->
  TD st p1 s d -> After st i d p2 -> TD st id s i.
Proof.
  intros Hn (Hl & Ha & HKl & HLl) (_ & _ & Hi & HKi & HLi).
  split; [eapply nth_inr; exact Hn|]. split; [exact Hi|]. split.
  - intros j t ts H; kinv Hn H; apply HKi; auto.
  - intros j t ts w ks H; kinv Hn H.
    rewrite (HLi j t) by auto. rewrite (LF_after_inv _ _ _ _ _ _ _ _ Hn).
    split; [|intros Hx]; intros (k & ks' & -> & Q1 & Q2); exists k, ks'; repeat split; auto;
      apply LF_nil in Q1; apply LF_nil; eapply HLl; eassumption.
Qed.
Lemma TD_group st id l r n s a i : nth_error (pats st) id = Some (PGroup l r n) ->
  TD st l s a -> nul st l = false -> Group st i a r -> TD st id s i.
Proof.
  intros Hn HTl Hnul (_ & _ & Hi & HKi & HLi).
  apply TD_intro0; [eapply nth_inr; exact Hn | exact Hi | |].
  - intros j t ts H; kinv Hn H. split; [reflexivity|].
    apply HKi; [apply HTl; assumption | assumption].
  - intros j t w H; kinv Hn H.
    rewrite HLi, (L_group_inv _ _ _ _ _ _ _ _ Hn). split.
    + intros (a1 & a2 & w1 & w2 & -> & Hm & Q1 & Q2). apply merge_nil_inv in Hm; destruct Hm as [-> ->].
      exists [], [], (Txt s :: w1), w2; repeat split; auto; [constructor|].
      apply (TD_Lu st l s a j t w1 HTl); assumption.
    + intros Hx (a1 & a2 & w1 & w2 & Ew & Hm & Q1 & Q2). apply merge_nil_inv in Hm; destruct Hm as [-> ->].
      destruct w1 as [|x w1]; cbn in Ew.
      * exfalso. apply (K_nul O allowed st j t [] l) in Q1; [congruence | assumption | reflexivity].
      * injection Ew as <- ->. exists [], [], w1, w2; repeat split; auto; [constructor|].
        eapply (TD_L st l s a j t w1 HTl); eauto using exok_app.
Qed.
Lemma TD_group_null st id l r n s a p b i : nth_error (pats st) id = Some (PGroup l r n) ->
  TD st l s a -> nul st l = true -> Group st p a r -> TD st r s b -> Choice st i p b -> TD st id s i.
Proof.
  intros Hn HTl Hnul (_ & _ & Hp & HKp & HLp) HTr (_ & _ & Hi & _ & HKi & HLi).
  apply TD_intro0; [eapply nth_inr; exact Hn | exact Hi | |].
  - intros j t ts H; kinv Hn H. split; [reflexivity|].
    apply HKi; [apply HKp; [apply HTl; assumption | assumption] | apply HTr; assumption].
  - intros j t w H; kinv Hn H.
    rewrite <- LF_nil, HLi, !LF_nil, HLp, (L_group_inv _ _ _ _ _ _ _ _ Hn). split.
    + intros [(a1 & a2 & w1 & w2 & -> & Hm & Q1 & Q2)|Q1].
      * apply merge_nil_inv in Hm; destruct Hm as [-> ->].
        exists [], [], (Txt s :: w1), w2; repeat split; auto; [constructor|].
        apply (TD_Lu st l s a j t w1 HTl); assumption.
      * exists [], [], [], (Txt s :: w); repeat split; [constructor | | apply (TD_Lu st r s b j t w HTr); assumption].
        apply (K_nul O allowed st j t [] l); [assumption | reflexivity | assumption].
    + intros Hx (a1 & a2 & w1 & w2 & Ew & Hm & Q1 & Q2). apply merge_nil_inv in Hm; destruct Hm as [-> ->].
      destruct w1 as [|x w1]; cbn in Ew.
      * right; subst w2. eapply (TD_L st r s b j t w HTr); eassumption.
      * left. injection Ew as <- ->. exists [], [], w1, w2; repeat split; auto; [constructor|].
        eapply (TD_L st l s a j t w1 HTl); eauto using exok_app.
Qed.

Lemma inter_types st j t id l r n : nth_error (pats st) id = Some (PInterleave l r n) -> K st j t [] id ->
  K st j t [] l /\ K st j t [] r /\
  (exists tl tr, K st j tl [] l /\ K st j tr [] r /\ tle tl t /\ tle tr t /\
     (t <> TA /\ tl = t /\ tr = t \/ t = TA /\ (tl = TN /\ tr = TN \/ tl = TE /\ tr = TA \/ tl = TA /\ tr = TE))).
Proof.
  intros Hn H; destruct (K_inter_inv _ _ _ _ _ _ _ _ Hn H) as (_ & HKl & HKr & _ & Hc).
  split; [assumption|]. split; [assumption|].
  destruct t.
  - exists TE, TE; cbn; repeat split; auto. left; repeat split; congruence.
  - exists TN, TN; cbn; repeat split; auto. left; repeat split; congruence.
  - destruct (Hc eq_refl) as [[Ha Hb]|[Ha|Ha]].
    + exists TN, TN; cbn; repeat split; auto.
    + exists TE, TA; cbn; repeat split; auto 6.
    + exists TA, TE; cbn; repeat split; auto 6.
Qed.
(** exactness conditions for the two sides of an interleave *)
Lemma inter_exok st j t tl tr l r s w w1 w2 : K st j tl [] l -> K st j tr [] r ->
  (t <> TA /\ tl = t /\ tr = t \/ t = TA /\ (tl = TN /\ tr = TN \/ tl = TE /\ tr = TA \/ tl = TA /\ tr = TE)) ->
  exok t s w -> merge w1 w2 w ->
  (L st r [] w2 -> exok tl s w1) /\ (L st l [] w1 -> exok tr s w2).
Proof.
  intros Hl Hr Ht Hx Hm.
  assert (Hsep : forall u v, merge u v w -> all_ws v = true -> exok TA s w -> exok TA s u).
  { intros u v Huv Hv [H|[[H H2]|H]]; [congruence | right; left; split; [exact H | exact (okw_merge _ _ _ Huv H2)] | right; right].
    eapply (sep_merge_txt v); [apply merge_comm, merge_l; exact Huv | apply all_ws_txt; exact Hv | exact H]. }
  destruct Ht as [(Hne & -> & ->)|(-> & [[-> ->]|[[-> ->]|[-> ->]]])].
  - split; intros _; left; assumption.
  - split; intros _; left; discriminate.
  - split; [intros _; left; discriminate|]. intros H. eapply (Hsep w2 w1); [apply merge_comm; exact Hm | | exact Hx].
    eapply K_TE_ws; eassumption.
  - split; [|intros _; left; discriminate]. intros H. eapply (Hsep w1 w2); [exact Hm | | exact Hx].
    eapply K_TE_ws; eassumption.
Qed.
Lemma TD_inter st id l r n s a p b q i : nth_error (pats st) id = Some (PInterleave l r n) ->
  TD st l s a -> Inter st p a r -> TD st r s b -> Inter st q l b -> Choice st i p q -> TD st id s i.
Proof.
  intros Hn HTl (_ & _ & Hp & HKp & HLp) HTr (_ & _ & Hq & HKq & HLq) (_ & _ & Hi & _ & HKi & HLi).
  apply TD_intro0; [eapply nth_inr; exact Hn | exact Hi | |].
  - intros j t ts H.
    assert (ts = []) as -> by (inversion H; subst; try congruence; reflexivity).
    split; [reflexivity|].
    destruct HTl as (_ & _ & HKl & _). destruct HTr as (_ & _ & HKr & _).
    kinv Hn H.
    match goal with Hc : t = TA -> _ |- _ => rename Hc into Hcond end.
    apply HKi.
    + apply HKp; auto. intros Et; destruct (Hcond Et) as [[Ha Hb]|[Ha|Ha]]; auto.
    + apply HKq; auto. intros Et; destruct (Hcond Et) as [[Ha Hb]|[Ha|Ha]]; auto.
  - intros j t w H.
    destruct (inter_types _ _ _ _ _ _ _ Hn H) as (HKl & HKr & tl & tr & HKl' & HKr' & _ & _ & Ht).
    rewrite <- LF_nil, HLi, !LF_nil, HLp, HLq, (L_interleave_inv _ _ _ _ _ _ _ _ Hn). split.
    + intros [(a1 & a2 & w1 & w2 & Hw & Hm & Q1 & Q2)|(a1 & a2 & w1 & w2 & Hw & Hm & Q1 & Q2)];
        apply merge_nil_inv in Hm; destruct Hm as [-> ->].
      * exists [], [], (Txt s :: w1), w2; repeat split; auto; [constructor; exact Hw | constructor|].
        eapply (TD_Lu st l s a j tl); eauto.
      * exists [], [], w1, (Txt s :: w2); repeat split; auto; [constructor; exact Hw | constructor|].
        eapply (TD_Lu st r s b j tr); eauto.
    + intros Hx (a1 & a2 & w1 & w2 & Hw & Hm & Q1 & Q2). apply merge_nil_inv in Hm; destruct Hm as [-> ->].
      apply merge_cons_inv in Hw. destruct Hw as [(w1' & -> & Hw)|(w2' & -> & Hw)];
        destruct (inter_exok _ _ _ _ _ _ _ _ _ _ _ HKl' HKr' Ht Hx Hw) as [Hx1 Hx2].
      * left. exists [], [], w1', w2; repeat split; auto; [constructor|].
        eapply (TD_L st l s a j tl); eauto.
      * right. exists [], [], w1, w2'; repeat split; auto; [constructor|].
        eapply (TD_L st r s b j tr); eauto.
Qed.

(** two one-or-more nodes over the same body denote the same language *)
Lemma L_more_same st id o p n n' a w : nth_error (pats st) id = Some (POneOrMore p n) ->
  nth_error (pats st) o = Some (POneOrMore p n') -> L st id a w -> L st o a w.
Proof.
  intros E1 E2 H; revert E1; induction H; intros E1; try congruence; inv_nth.
  - eapply L_one; eassumption.
  - eapply L_more_nil; [eassumption | eassumption | auto].
  - eapply L_more_cons; [eassumption | eassumption | auto | assumption].
Qed.
Lemma K_more_intro st j t o p : nth_error (pats st) o = Some (POneOrMore p (nul st p)) -> K st j t [] p -> K st j t [] o.
Proof. intros; eapply K_more; eauto. Qed.
Definition Star (st : store) (c p : pid) : Prop :=
  inr_ st c /\ (forall j t, K st j t [] p -> K st j t [] c) /\
  (forall id n a w, nth_error (pats st) id = Some (POneOrMore p n) ->
     (L st c a w <-> L st id a w \/ a = [] /\ all_ws w = true)).
Lemma Star_intro st o e c p : nth_error (pats st) o = Some (POneOrMore p (nul st p)) ->
  nth_error (pats st) e = Some PEmpty -> Choice st c o e -> Star st c p.
Proof.
  intros Ho He (_ & _ & Hi & _ & HK & HL). split; [exact Hi|]. split.
  - intros j t H. apply HK; [eapply K_more_intro; eassumption | eapply K_empty; exact He].
  - intros id n a w Hid. rewrite <- LF_nil, HL, !LF_nil, (L_empty_inv _ _ _ _ _ He).
    split; (intros [H|H]; [left | right; exact H]).
    + exact (L_more_same _ _ _ _ _ _ _ _ Ho Hid H).
    + exact (L_more_same _ _ _ _ _ _ _ _ Hid Ho H).
Qed.
Lemma Star_ext st st' c p : G st -> inr_ st p -> ext st st' -> (exists id n, nth_error (pats st) id = Some (POneOrMore p n)) ->
  Star st c p -> Star st' c p.
Proof.
  intros HG Hp E (id0 & n0 & Hid0) (Hc & HK & HL). split; [eapply ext_inr; eassumption|]. split.
  - intros j t H; eapply K_ext; [exact E|]. apply HK. eapply K_ext_inv; eassumption.
  - intros id n a w Hid. rewrite (L_ext_iff O allowed T st st' c) by assumption. rewrite (HL id0 n0 a w Hid0).
    pose proof (ext_nth _ _ _ _ E Hid0) as Hid0'.
    split; (intros [H|H]; [left | right; exact H]).
    + eapply L_more_same; [exact Hid0' | exact Hid | eapply L_ext; eassumption].
    + eapply L_ext_inv; [eassumption | eassumption | eapply nth_inr; exact Hid0|].
      eapply L_more_same; [exact Hid | exact Hid0' | assumption].
Qed.
Lemma TD_more st id p n s d c i : nth_error (pats st) id = Some (POneOrMore p n) ->
  TD st p s d -> Star st c p -> Group st i d c -> TD st id s i.
Proof.
  intros Hn HT (Hc & HKc & HLc) (_ & _ & Hi & HKi & HLi).
  apply TD_intro0; [eapply nth_inr; exact Hn | exact Hi | |].
  - intros j t ts H; kinv Hn H. split; [reflexivity|].
    apply HKi; [apply HT; assumption | apply HKc; assumption].
  - intros j t w H; kinv Hn H.
    rewrite HLi, (L_more_cons_inv _ _ _ _ _ _ _ Hn). split.
    + intros (a1 & a2 & w1 & w2 & -> & Hm & Q1 & Q2). apply merge_nil_inv in Hm; destruct Hm as [-> ->].
      exists w1, w2; repeat split; [apply (TD_Lu st p s d j t w1 HT); assumption|].
      apply (HLc id _ _ _ Hn) in Q2. tauto.
    + intros Hx (w1 & w2 & -> & Q1 & Q2). exists [], [], w1, w2; repeat split; [constructor | |].
      * eapply (TD_L st p s d j t); eauto using exok_app.
      * apply (HLc id _ _ _ Hn). tauto.
Qed.
Lemma TD_text st id s i : nth_error (pats st) id = Some PText -> nth_error (pats st) i = Some PText -> TD st id s i.
Proof.
  intros Q1 Q2. apply TD_intro0; [eapply nth_inr; eassumption.. | |].
  - intros j t ts H; inversion H; subst; try congruence. split; [reflexivity | eapply K_text; eassumption].
  - intros j t w _. rewrite (L_text_inv _ _ _ _ _ Q1), (L_text_inv _ _ _ _ _ Q2). auto.
Qed.
Lemma TD_na st id s i p : nth_error (pats st) id = Some p ->
  match p with PNotAllowed | PAttribute _ _ => True | PElement _ _ | PEmpty => is_whitespace_str s = false | _ => False end ->
  nth_error (pats st) i = Some PNotAllowed -> TD st id s i.
Proof.
  intros Q1 Hp Q2. split; [eapply nth_inr; eassumption|]. split; [eapply nth_inr; eassumption|]. split.
  - intros; eapply K_na; eassumption.
  - intros j t ts w ks HK. rewrite (LF_na_inv _ _ _ _ _ _ Q2). split; [tauto|]. intros _ H.
    destruct p; try contradiction.
    + inversion HK; subst; try congruence. apply (@K_LF_nil O allowed true st j t) in H; [|assumption]. destruct H as [_ H].
      apply (L_empty_inv _ _ _ _ _ Q1) in H; cbn in H. rewrite Hp in H; destruct H; discriminate.
    + apply (LF_na_inv _ _ _ _ _ _ Q1) in H; exact H.
    + inversion HK; subst; try congruence. apply (@K_LF_nil O allowed true st j t) in H; [|assumption]. destruct H as [_ H].
      apply (L_attr_inv _ _ _ _ _ _ _ Q1) in H. destruct H as (x & Ex & _); discriminate Ex.
    + inversion HK; subst; try congruence. apply (@K_LF_nil O allowed true st j t) in H; [|assumption]. destruct H as [_ H].
      apply (L_element_inv _ _ _ _ _ _ _ Q1) in H.
      destruct H as (_ & nm & b & k & w1 & w2 & Ew & _ & _ & Hws & _).
      destruct w1 as [|x w1]; cbn in Ew; [discriminate|]. injection Ew as <- _. cbn in Hws. rewrite Hp in Hws; discriminate.
Qed.
Lemma TD_empty st id s i : nth_error (pats st) id = Some PEmpty -> is_whitespace_str s = true ->
  nth_error (pats st) i = Some PEmpty -> TD st id s i.
Proof.
  intros Q1 Hs Q2. apply TD_intro0; [eapply nth_inr; eassumption.. | |].
  - intros j t ts H; inversion H; subst; try congruence. split; [reflexivity | eapply K_empty; eassumption].
  - intros j t w _. rewrite (L_empty_inv _ _ _ _ _ Q1), (L_empty_inv _ _ _ _ _ Q2). cbn. rewrite Hs; auto.
Qed.
Lemma TD_element st id nc c s i : nth_error (pats st) id = Some (PElement nc c) -> is_whitespace_str s = true ->
  nth_error (pats st) i = Some (PElement nc c) -> TD st id s i.
Proof.
  intros Q1 Hs Q2. apply TD_intro0; [eapply nth_inr; eassumption.. | |].
  - intros j t ts H; inversion H; subst; try congruence. split; [reflexivity | eapply K_elem; eassumption].
  - intros j t w _. rewrite (L_element_inv _ _ _ _ _ _ _ Q1), (L_element_inv _ _ _ _ _ _ _ Q2).
    split; [|intros _]; intros (E & nm & b & k & w1 & w2 & Ew & Hc & HL & Hw1 & Hw2).
    + split; [reflexivity|]. exists nm, b, k, (Txt s :: w1), w2; subst w; cbn; rewrite Hs; auto.
    + split; [reflexivity|]. destruct w1 as [|x w1]; cbn in Ew; [discriminate|].
      injection Ew as <- ->. cbn in Hw1. rewrite Hs in Hw1. exists nm, b, k, w1, w2; auto.
Qed.
(** data, value and data-except share the shape [ws* Txt s ws*] *)
Lemma middle_first (Pv : str -> Prop) s w : exok TA s w ->
  (exists x w1 w2, Txt s :: w = w1 ++ Txt x :: w2 /\ Pv x /\ all_ws w1 = true /\ all_ws w2 = true) <->
  (Pv s /\ all_ws w = true).
Proof.
  intros Hx; split.
  - intros (x & w1 & w2 & Ew & Hp & H1 & H2). destruct w1 as [|y w1]; cbn in Ew.
    + injection Ew as <- <-; auto.
    + injection Ew as <- ->. cbn in H1; apply andb_true_iff in H1; destruct H1 as [Hs H1].
      destruct Hx as [H|[[H _]|H]]; [congruence | congruence|]. exfalso.
      apply sep_txt_tail in H. destruct w1 as [|[z|nm at_ kk] w1]; cbn in H; try contradiction; cbn in H1; discriminate.
  - intros [Hp Hw]; exists s, [], w; auto.
Qed.
Lemma TD_data st id s i (p : pat) (Pv : str -> Prop) (b : bool) :
  nth_error (pats st) id = Some p ->
  (forall j t ts, K st j t ts id -> t = TA /\ ts = []) ->
  (forall w, L st id [] w <-> exists x w1 w2, w = w1 ++ Txt x :: w2 /\ Pv x /\ all_ws w1 = true /\ all_ws w2 = true) ->
  (Pv s <-> b = true) ->
  nth_error (pats st) i = Some (if b then PEmpty else PNotAllowed) -> TD st id s i.
Proof.
  intros Hn HT HL Hb Hi. apply TD_intro0; [eapply nth_inr; eassumption.. | |].
  - intros j t ts H. destruct (HT _ _ _ H) as [-> ->]. split; [reflexivity|].
    destruct b; [eapply K_empty | eapply K_na]; exact Hi.
  - intros j t w H. destruct (HT _ _ _ H) as [-> _]. rewrite HL. split.
    + destruct b; [rewrite (L_empty_inv _ _ _ _ _ Hi) | rewrite (L_na_inv _ _ _ _ _ Hi); tauto].
      intros [_ Hw]. exists s, [], w. repeat split; [apply Hb; reflexivity | exact Hw].
    + intros Hx. rewrite (middle_first Pv s w Hx), Hb.
      destruct b; [rewrite (L_empty_inv _ _ _ _ _ Hi) | rewrite (L_na_inv _ _ _ _ _ Hi)].
      * tauto.
      * intros [H' _]; discriminate H'.
Qed.

(** ** Lists *)
(** derivative by a whole list of tokens *)
Definition TDs (st : store) (id : pid) (toks : list str) (i : pid) : Prop :=
  inr_ st id /\ inr_ st i /\
  (forall j t ts, K st j t ts id -> K st j t ts i) /\
  (forall j t w, K st j t [] id ->
     (L st i [] w -> L st id [] (map Txt toks ++ w)) /\
     (Forall (fun x => is_whitespace_str x = false /\ okc x) toks -> okw w -> L st id [] (map Txt toks ++ w) -> L st i [] w)).
Lemma TDs_ext st st' id s i : G st -> ext st st' -> TDs st id s i -> TDs st' id s i.
Proof.
  intros HG E (Hid & Hi & HK & HL). do 2 (split; [eapply ext_inr; eassumption|]). split.
  - intros j t ts H. eapply K_ext; [exact E|]. apply HK. eapply K_ext_inv; eassumption.
  - intros j t w H1. rewrite !(L_ext_iff O allowed T st st') by assumption.
    apply (HL j t); eapply K_ext_inv; eassumption.
Qed.
Lemma TDs_nil st id : inr_ st id -> TDs st id [] id.
Proof. intros H; do 2 (split; [exact H|]). split; [auto|]. intros; cbn; auto. Qed.
Lemma TDs_cons st id x xs m i : TD st id x m -> TDs st m xs i -> TDs st id (x :: xs) i.
Proof.
  intros HT (Hm & Hi & HKi & HLi). pose proof HT as (Hid & _ & HKm & _). do 2 (split; [assumption|]). split.
  - auto.
  - intros j t w H. destruct (HLi j t w) as [L1 L2]; [auto|]. cbn. split.
    + intros Q. eapply TD_Lu; [exact HT | exact H | apply L1; exact Q].
    + intros Hf Hw Q. inversion Hf as [|? ? [Hx1 Hx2] Hf']; subst. apply L2; [exact Hf' | exact Hw|].
      eapply TD_L; [exact HT | exact H | right; left; split; [exact Hx1|] | exact Q].
      apply okw_app. split; [|exact Hw]. apply okw_txts. eapply Forall_impl; [|exact Hf']. intros y [_ Hy]; exact Hy.
Qed.
(** an early exit: the derivative by a prefix is notAllowed *)
Definition TDx (st : store) (id : pid) (toks : list str) (i : pid) : Prop :=
  exists pre post, toks = pre ++ post /\ TDs st id pre i /\ nth_error (pats st) i = Some PNotAllowed.
Definition TDl (st : store) (id : pid) (toks : list str) (r : pid + pid) : Prop :=
  match r with inl i => TDx st id toks i | inr i => TDs st id toks i end.
Lemma TDl_cons st id x xs m r : TD st id x m -> TDl st m xs r -> TDl st id (x :: xs) r.
Proof.
  intros HT; destruct r as [i|i]; cbn.
  - intros (pre & post & -> & H & Hi). exists (x :: pre), post; split; [reflexivity|]. split; [eapply TDs_cons; eassumption | exact Hi].
  - apply TDs_cons; exact HT.
Qed.

Lemma tokens_map_app (xs ys : list str) : map Txt (xs ++ ys) = map Txt xs ++ map Txt ys.
Proof. apply map_app. Qed.
Lemma tokens_fine s : Forall (fun x => is_whitespace_str x = false /\ okc x) (split_whitespace s).
Proof.
  apply Forall_forall; intros x Hx; split; [eapply token_not_ws; exact Hx|].
  intros H. rewrite (token_split _ _ Hx) in H; discriminate.
Qed.
Lemma okw_tokens ss : okw (map Txt (flat_map split_whitespace ss)).
Proof.
  apply okw_txts. apply Forall_forall. intros x Hx. apply in_flat_map in Hx. destruct Hx as (s & _ & Hs).
  pose proof (tokens_fine s) as HF. rewrite Forall_forall in HF. apply HF; exact Hs.
Qed.
Lemma Forall_app_l {A} (P : A -> Prop) a b : Forall P (a ++ b) -> Forall P a.
Proof. intros H; apply Forall_app in H; tauto. Qed.

(** tokens of chunks: nothing but white space iff there are no tokens *)
Lemma no_tokens_ws ss : Forall okc ss -> all_ws (map Txt (flat_map split_whitespace ss)) = true -> all_ws (map Txt ss) = true.
Proof.
  intros Hok H. assert (E : flat_map split_whitespace ss = []).
  { destruct (flat_map split_whitespace ss) as [|t ts] eqn:Et; [reflexivity|]. cbn in H.
    assert (Hin : In t (flat_map split_whitespace ss)) by (rewrite Et; left; reflexivity).
    apply in_flat_map in Hin. destruct Hin as (s & _ & Hs). rewrite (token_not_ws _ _ Hs) in H; discriminate. }
  clear H; induction ss as [|s ss IH]; [reflexivity|]. cbn in *. inversion Hok; subst.
  apply app_eq_nil in E; destruct E as [E1 E2]. unfold okc in H1. rewrite H1 by exact E1. apply IH; assumption.
Qed.
Lemma all_ws_txts w : all_ws w = true -> exists ss, w = map Txt ss /\ Forall okc ss /\ flat_map split_whitespace ss = [].
Proof.
  induction w as [|x w IH]; intros H; [exists []; auto|].
  cbn in H; apply andb_true_iff in H; destruct H as [Hx H]. destruct x as [s|]; [|discriminate]. cbn in Hx.
  destruct (IH H) as (ss & -> & Hok & E). exists (s :: ss); repeat split; [constructor; [apply ws_okc; exact Hx | exact Hok]|].
  cbn. rewrite (ws_no_tokens _ Hx), E; reflexivity.
Qed.
Lemma exok_txts s ss : exok TA s (map Txt ss) -> Forall okc ss.
Proof. intros [Ho|[[_ Ho]|Ho]]; [congruence | apply okw_txts; exact Ho | destruct ss; [constructor | destruct Ho]]. Qed.
(** the language of a list node, first chunk read *)
Lemma L_list_cons st id p s w : nth_error (pats st) id = Some (PList p) ->
  (L st id [] (Txt s :: w) <->
   exists ss, w = map Txt ss /\ L st p [] (map Txt (split_whitespace s) ++ map Txt (flat_map split_whitespace ss))).
Proof.
  intros Hn. rewrite (L_list_inv _ _ _ _ _ _ Hn). split.
  - intros (_ & ss & Ew & Hne & H). destruct ss as [|s' ss]; [congruence|]. cbn in Ew. injection Ew as <- ->.
    exists ss; split; [reflexivity|]. cbn in H; rewrite map_app in H; exact H.
  - intros (ss & -> & H). split; [reflexivity|]. exists (s :: ss); repeat split; [discriminate|].
    cbn; rewrite map_app; exact H.
Qed.
Lemma TD_list_na st id p s i : nth_error (pats st) id = Some (PList p) -> TDx st p (split_whitespace s) i -> TD st id s i.
Proof.
  intros Hn (pre & post & Ets & HT & Hi). apply TD_intro0; [eapply nth_inr; eassumption.. | |].
  - intros j t ts H. kinv Hn H. split; [reflexivity | eapply K_na; exact Hi].
  - intros j t w H. kinv Hn H.
    rewrite (L_na_inv _ _ _ _ _ Hi), (L_list_cons _ _ _ _ _ Hn). split; [tauto|].
    intros Ho (ss & -> & HL). rewrite Ets, map_app, <- app_assoc in HL.
    destruct HT as (_ & _ & _ & HTL).
    match goal with HK : Lang.KM _ _ _ _ ?j0 TA [] p |- _ => apply (HTL j0 TA) in HL;
      [apply (L_na_inv _ _ _ _ _ Hi) in HL; exact HL | exact HK | |] end.
    + eapply Forall_app_l. rewrite <- Ets. apply tokens_fine.
    + apply okw_app. split; [|apply okw_tokens]. pose proof (okw_tokens [s]) as Ht. cbn in Ht. rewrite app_nil_r, Ets, map_app in Ht.
      apply okw_app in Ht. apply Ht.
Qed.
Lemma TD_list_empty st id p s i : nth_error (pats st) id = Some (PList p) -> TDs st p (split_whitespace s) i ->
  nth_error (pats st) i = Some PEmpty -> TD st id s i.
Proof.
  intros Hn HT Hi. apply TD_intro0; [eapply nth_inr; eassumption.. | |].
  - intros j t ts H. kinv Hn H. split; [reflexivity | eapply K_empty; exact Hi].
  - intros j t w H. kinv Hn H.
    destruct HT as (_ & _ & _ & HTL).
    match goal with HK : Lang.KM _ _ _ _ ?j0 TA [] p |- _ => specialize (fun w => HTL j0 TA w HK) end.
    rewrite (L_list_cons _ _ _ _ _ Hn), (L_empty_inv _ _ _ _ _ Hi). split.
    + intros [_ Hw]. destruct (all_ws_txts _ Hw) as (ss & -> & _ & E). exists ss; split; [reflexivity|].
      apply HTL. rewrite E. apply L_empty; auto.
    + intros Ho (ss & -> & HL). split; [reflexivity|]. pose proof (exok_txts _ _ Ho) as Hf.
      apply HTL in HL; [|apply tokens_fine | apply okw_tokens].
      apply (L_empty_inv _ _ _ _ _ Hi) in HL. apply no_tokens_ws; tauto.
Qed.
Lemma TD_list_more st id p s q i : nth_error (pats st) id = Some (PList p) -> TDs st p (split_whitespace s) q ->
  nul st q = false -> nth_error (pats st) i = Some (PList q) -> TD st id s i.
Proof.
  intros Hn HT Hnul Hi. apply TD_intro0; [eapply nth_inr; eassumption.. | |].
  - intros j t ts H. kinv Hn H. split; [reflexivity|]. eapply K_list; [exact Hi | apply HT; assumption].
  - intros j t w H. kinv Hn H.
    destruct HT as (_ & _ & HTK & HTL).
    match goal with HK : Lang.KM _ _ _ _ ?j0 TA [] p |- _ => specialize (fun w => HTL j0 TA w HK); specialize (HTK j0 TA []);
      rename HK into HKp end.
    rewrite (L_list_cons _ _ _ _ _ Hn), (L_list_inv _ _ _ _ _ _ Hi). split.
    + intros (_ & ss & -> & Hne & HL). exists ss; split; [reflexivity|]. apply HTL; exact HL.
    + intros Ho (ss & -> & HL). split; [reflexivity|]. apply HTL in HL; [|apply tokens_fine | apply okw_tokens].
      assert (Hne : ss <> []).
      { intros ->. cbn in HL. apply (K_nul O allowed st _ TA [] q (HTK HKp) eq_refl) in HL. congruence. }
      exists ss; repeat split; auto.
Qed.
Lemma TD_list_null st id p s q l e i : nth_error (pats st) id = Some (PList p) -> TDs st p (split_whitespace s) q ->
  nul st q = true -> nth_error (pats st) l = Some (PList q) -> nth_error (pats st) e = Some PEmpty ->
  Choice st i l e -> TD st id s i.
Proof.
  intros Hn HT Hnul Hl He (_ & _ & Hi & _ & HKi & HLi). apply TD_intro0; [eapply nth_inr; eassumption | exact Hi | |].
  - intros j t ts H. kinv Hn H. split; [reflexivity|].
    apply HKi; [eapply K_list; [exact Hl | apply HT; assumption] | eapply K_empty; exact He].
  - intros j t w H. kinv Hn H.
    destruct HT as (_ & _ & HTK & HTL).
    match goal with HK : Lang.KM _ _ _ _ ?j0 TA [] p |- _ => specialize (fun w => HTL j0 TA w HK); specialize (HTK j0 TA []);
      rename HK into HKp end.
    rewrite <- LF_nil, HLi, !LF_nil, (L_list_cons _ _ _ _ _ Hn), (L_list_inv _ _ _ _ _ _ Hl), (L_empty_inv _ _ _ _ _ He).
    split.
    + intros [(_ & ss & -> & Hne & HL)|[_ Hw]].
      * exists ss; split; [reflexivity|]. apply HTL; exact HL.
      * destruct (all_ws_txts _ Hw) as (ss & -> & _ & E). exists ss; split; [reflexivity|].
        apply HTL. rewrite E. cbn.
        apply (K_nul O allowed st _ TA [] q (HTK HKp) eq_refl); exact Hnul.
    + intros Ho (ss & -> & HL). apply HTL in HL; [|apply tokens_fine | apply okw_tokens].
      destruct ss as [|s0 ss]; [right; auto|]. left. split; [reflexivity|].
      exists (s0 :: ss); repeat split; auto; discriminate.
Qed.

(** ** The theorem *)
Ltac up := cbn beta in *;
  match goal with
  | E : ext ?s ?s', HG : Lang.G _ _ _ ?s |- _ =>
    repeat match goal with
    | H : nth_error (pats s) _ = Some _ |- _ => apply (ext_nth _ _ _ _ E) in H
    | H : inr_ s _ |- _ => apply (ext_inr _ _ _ E) in H
    | H : Lang.KM _ _ s _ _ _ _ _ |- _ => apply (K_ext _ _ _ _ _ _ _ _ E) in H
    | H : TD s _ _ _ |- _ => apply (TD_ext _ _ _ _ _ HG E) in H
    | H : TDs s _ _ _ |- _ => apply (TDs_ext _ _ _ _ _ HG E) in H
    | H : Choice s _ _ _ |- _ => apply (Choice_ext _ _ _ _ _ HG E) in H
    | H : Group s _ _ _ |- _ => apply (Group_ext _ _ _ _ _ HG E) in H
    | H : Inter s _ _ _ |- _ => apply (Inter_ext _ _ _ _ _ HG E) in H
    | H : After s _ _ _ |- _ => apply (After_ext _ _ _ _ _ HG E) in H
    | H : ext ?b s |- _ => apply (fun x => ext_trans _ _ _ x E) in H
    end; clear HG E
  end.

Definition text_ok (j : nat) : Prop := forall base id s t ts, K base j t ts id -> forall st p, ext base st -> G st ->
  nth_error (pats st) id = Some p -> wp (fun m => text_deriv O m p s) st (fun i st' => TD st' id s i).

Lemma list_loop_ok j toks : text_ok j -> forall id st t, K st j t [] id -> G st ->
  wp (fun m => list_loop (text_deriv O m) id toks) st (fun r st' => TDl st' id toks r).
Proof.
  intros Hj; induction toks as [|x xs IH]; intros id st t HK HG; cbn [list_loop].
  - apply wp_ret; [exact HG|]. cbn. apply TDs_nil. eapply K_inr; exact HK.
  - destruct (inr_nth _ _ (K_inr _ _ _ _ _ _ _ HK)) as [p Hp].
    eapply wp_pattb; [exact Hp|].
    eapply wp_bind; [eapply Hj; [exact HK | apply ext_refl | exact HG | exact Hp]|].
    intros m st1 E1 HG1 HT. up.
    assert (HKm : K st1 j t [] m) by (apply HT; exact HK).
    destruct (inr_nth _ _ (K_inr _ _ _ _ _ _ _ HKm)) as [pm Hpm].
    eapply wp_pattb; [exact Hpm|]. destruct (is_not_allowed pm) eqn:Ena.
    + apply is_na_true in Ena; subst pm. apply wp_ret; [exact HG1|]. cbn.
      exists [x], xs; split; [reflexivity|]. split; [|exact Hpm].
      eapply TDs_cons; [exact HT | apply TDs_nil; eapply nth_inr; exact Hpm].
    + eapply wp_mono; [eapply IH; eassumption|].
      intros r st2 E2 HG2 Hr. up. eapply TDl_cons; eassumption.
Qed.

Lemma text_ok_all j : text_ok j.
Proof.
  induction j as [j IHj] using lt_wf_ind. unfold text_ok; intros base id s t ts HK; revert IHj.
  revert j t ts id HK; refine (K_ind_t O allowed base _ _ _ _ _ _ _ _ _ _ _ _ _ _ _);
    [intros j t ts id l r n Hn HKl IHl HKr IHr Hf
    |intros j t ts id Hn
    |intros j t t' ts id p1 p2 Hn H1 IH1 H2 IH2
    |intros j t id l r n Hn HKl IHl HKr IHr Hf
    |intros j t id l r n Hn HKl IHl HKr IHr Hf Hc
    |intros j t id p0 n Hn HKp IHp Hf
    |intros j t id Hn
    |intros j t id Hn Ht
    |intros j j' t id nc p0 Hn HKp IHp
    |intros j t id nc p0 Hn Ht
    |intros j id d Hn Hd
    |intros j id v Hn Hd
    |intros j id d e Hn Hd He
    |intros j id p0 Hn HKp IHp];
    intros IHj st p E HG Hp; pose proof (ext_nth _ _ _ _ E Hn) as Hp'; rewrite Hp' in Hp; injection Hp as <-;
    apply wp_S; cbn [text_deriv].
  - (* choice *)
    assert (Hl : inr_ st l) by (eapply ext_inr; [exact E | eapply K_inr; exact HKl]).
    assert (Hr : inr_ st r) by (eapply ext_inr; [exact E | eapply K_inr; exact HKr]).
    destruct (inr_nth _ _ Hl) as [pl Hpl]. destruct (inr_nth _ _ Hr) as [pr Hpr].
    eapply wp_pattb; [exact Hpl|]. eapply wp_pattb; [exact Hpr|].
    eapply wp_bind; [apply IHl; assumption|]. intros a st1 E1 HG1 HTa; up.
    eapply wp_bind; [apply IHr; assumption|]. intros b st2 E2 HG2 HTb; up.
    eapply wp_mono; [apply wpc; [assumption | apply HTa | apply HTb]|]. intros i st3 E3 HG3 Hi; up.
    eapply TD_choice; eassumption.
  - eapply wp_mono; [apply wpn; assumption|]. intros i st1 E1 HG1 Hi; up. eapply TD_na; eauto; exact I.
  - (* after *)
    assert (Hl : inr_ st p1) by (eapply ext_inr; [exact E | eapply K_inr; exact H1]).
    assert (Hr : inr_ st p2) by (eapply ext_inr; [exact E | eapply K_inr; exact H2]).
    destruct (inr_nth _ _ Hl) as [pl Hpl].
    eapply wp_pattb; [exact Hpl|].
    eapply wp_bind; [apply IH1; assumption|]. intros a st1 E1 HG1 HTa; up.
    eapply wp_mono; [apply wpa; [assumption | apply HTa | assumption]|]. intros i st3 E3 HG3 Hi; up.
    eapply TD_after; eassumption.
  - (* group *)
    assert (Hl : inr_ st l) by (eapply ext_inr; [exact E | eapply K_inr; exact HKl]).
    assert (Hr : inr_ st r) by (eapply ext_inr; [exact E | eapply K_inr; exact HKr]).
    destruct (inr_nth _ _ Hl) as [pl Hpl]. destruct (inr_nth _ _ Hr) as [pr Hpr].
    eapply wp_pattb; [exact Hpl|]. eapply wp_pattb; [exact Hpr|].
    eapply wp_bind; [apply IHl; assumption|]. intros a st1 E1 HG1 HTa; up.
    eapply wp_bind; [apply wpg; [assumption | apply HTa | assumption]|]. intros g st2 E2 HG2 Hg; up.
    destruct (is_nullable pl) eqn:Enul.
    + eapply wp_bind; [apply IHr; assumption|]. intros b st3 E3 HG3 HTb; up.
      eapply wp_mono; [apply wpc; [assumption | apply Hg | apply HTb]|]. intros i st4 E4 HG4 Hi; up.
      eapply TD_group_null; eauto. rewrite (nul_at _ _ _ Hpl); exact Enul.
    + apply wp_ret; [assumption|]. eapply TD_group; eauto. rewrite (nul_at _ _ _ Hpl); exact Enul.
  - (* interleave *)
    assert (Hl : inr_ st l) by (eapply ext_inr; [exact E | eapply K_inr; exact HKl]).
    assert (Hr : inr_ st r) by (eapply ext_inr; [exact E | eapply K_inr; exact HKr]).
    destruct (inr_nth _ _ Hl) as [pl Hpl]. destruct (inr_nth _ _ Hr) as [pr Hpr].
    eapply wp_pattb; [exact Hpl|]. eapply wp_pattb; [exact Hpr|].
    eapply wp_bind; [apply IHl; assumption|]. intros a st1 E1 HG1 HTa; up.
    eapply wp_bind; [apply wpi; [assumption | apply HTa | assumption]|]. intros g st2 E2 HG2 Hg; up.
    eapply wp_bind; [apply IHr; assumption|]. intros b st3 E3 HG3 HTb; up.
    eapply wp_bind; [apply wpi; [assumption | assumption | apply HTb]|]. intros g' st4 E4 HG4 Hg'; up.
    eapply wp_mono; [apply wpc; [assumption | apply Hg | apply Hg']|]. intros i st5 E5 HG5 Hi; up.
    eapply TD_inter; eassumption.
  - (* one or more *)
    assert (Hl : inr_ st p0) by (eapply ext_inr; [exact E | eapply K_inr; exact HKp]).
    destruct (inr_nth _ _ Hl) as [pl Hpl]. eapply wp_pattb; [exact Hpl|].
    eapply wp_bind; [apply IHp; assumption|]. intros a st1 E1 HG1 HTa; up.
    eapply wp_bind; [apply wp_one_or_more; assumption|]. intros o st2 E2 HG2 Ho; up.
    eapply wp_bind; [apply wpe; assumption|]. intros e st3 E3 HG3 He.
    rewrite <- (ext_nul _ _ _ E3 Hl) in Ho. up.
    eapply wp_bind; [apply wpc; [assumption | eapply nth_inr; eassumption | eapply nth_inr; eassumption]|].
    intros c st4 E4 HG4 Hcc. rewrite <- (ext_nul _ _ _ E4 Hl) in Ho. up.
    pose proof (Star_intro _ _ _ _ _ Ho He Hcc) as HS.
    eapply wp_mono; [apply wpg; [assumption | apply HTa | apply HS]|]. intros i st5 E5 HG5 Hi.
    apply (Star_ext _ _ _ _ HG4 Hl E5) in HS; [|eauto]. up.
    eapply TD_more; eassumption.
  - (* empty *)
    destruct (is_whitespace_str s) eqn:Es.
    + eapply wp_mono; [apply wpe; assumption|]. intros i st1 E1 HG1 Hi; up. eapply TD_empty; eassumption.
    + eapply wp_mono; [apply wpn; assumption|]. intros i st1 E1 HG1 Hi; up. eapply TD_na; [exact Hp' | exact Es | exact Hi].
  - eapply wp_mono; [apply wpt; assumption|]. intros i st1 E1 HG1 Hi; up. eapply TD_text; eassumption.
  - eapply wp_mono; [apply wpn; assumption|]. intros i st1 E1 HG1 Hi; up. eapply TD_na; [exact Hp' | exact I | exact Hi].
  - destruct (is_whitespace_str s) eqn:Es.
    + eapply wp_mono; [apply wp_push; [assumption | assumption | reflexivity | |]|].
      * cbn; intros c [<-|[]]; eapply child_inr; [exact HG | exact Hp' | cbn; tauto].
      * intros nc' c' Ec; injection Ec as <- <-. eapply (G_elem _ _ _ _ HG); exact Hp'.
      * intros i st1 E1 HG1 Hi; up. eapply TD_element; eassumption.
    + eapply wp_mono; [apply wpn; assumption|]. intros i st1 E1 HG1 Hi; up. eapply TD_na; [exact Hp' | exact Es | exact Hi].
  - (* data *)
    eapply wp_bind with (Q := fun v st' => dt_valid O d s = Ok v /\ st' = st).
    { apply wp_lift; [assumption | apply dt_valid_fuel | apply Hd | auto]. }
    intros v st1 E1 HG1 [Hv ->]. clear E1.
    assert (HT : forall st2 i, nth_error (pats st2) id = Some (PDatatype d) ->
              nth_error (pats st2) i = Some (if v then PEmpty else PNotAllowed) -> TD st2 id s i).
    { intros st2 i Hid Hi. eapply (TD_data st2 id s i _ (fun x => dt_valid O d x = Ok true) v); [exact Hid | | | | exact Hi].
      - intros j0 t0 ts0 H; inversion H; subst; try congruence; auto.
      - intros w; rewrite (L_data_inv _ _ _ _ _ _ Hid). split; [intros [_ H]; exact H | intros H; split; [reflexivity | exact H]].
      - rewrite Hv; split; congruence. }
    destruct v; (eapply wp_mono; [first [apply wpe; assumption | apply wpn; assumption]|]); intros i st2 E2 HG2 Hi; up; apply HT; assumption.
  - (* value *)
    eapply wp_bind with (Q := fun b st' => dt_value_valid v s = Ok b /\ st' = st).
    { apply wp_lift; [assumption | apply dt_value_valid_fuel | apply Hd | auto]. }
    intros b st1 E1 HG1 [Hv ->]. clear E1.
    assert (HT : forall st2 i, nth_error (pats st2) id = Some (PDatatypeValue v) ->
              nth_error (pats st2) i = Some (if b then PEmpty else PNotAllowed) -> TD st2 id s i).
    { intros st2 i Hid Hi. eapply (TD_data st2 id s i _ (fun x => dt_value_valid v x = Ok true) b); [exact Hid | | | | exact Hi].
      - intros j0 t0 ts0 H; inversion H; subst; try congruence; auto.
      - intros w; rewrite (L_value_inv _ _ _ _ _ _ Hid). split; [intros [_ H]; exact H | intros H; split; [reflexivity | exact H]].
      - rewrite Hv; split; congruence. }
    destruct b; (eapply wp_mono; [first [apply wpe; assumption | apply wpn; assumption]|]); intros i st2 E2 HG2 Hi; up; apply HT; assumption.
  - (* except *)
    assert (Hl : inr_ st e) by (eapply ext_inr; [exact E | eapply KS_inr; exact He]).
    destruct (inr_nth _ _ Hl) as [pe Hpe]. eapply wp_pattb; [exact Hpe|].
    eapply wp_bind; [eapply ks_text; eassumption|]. intros x st1 E1 HG1 [Hx HSx]; up.
    destruct (inr_nth _ _ Hx) as [px Hpx]. eapply wp_pattb; [exact Hpx|]. rewrite (nul_at _ _ _ Hpx) in HSx.
    eapply wp_bind with (Q := fun v st' => dt_valid O d s = Ok v /\ st' = st1).
    { apply wp_lift; [assumption | apply dt_valid_fuel | apply Hd | auto]. }
    intros v st2 E2 HG2 [Hv ->]. clear E2 HG2.
    assert (HT : forall st2 i, ext st1 st2 -> nth_error (pats st2) id = Some (PDatatypeExcept d e) ->
              nth_error (pats st2) i = Some (if v && negb (is_nullable px) then PEmpty else PNotAllowed) -> TD st2 id s i).
    { intros st2 i E2 Hid Hi.
      eapply (TD_data st2 id s i _ (fun x => dt_valid O d x = Ok true /\ SM st2 e x false) (v && negb (is_nullable px))); [exact Hid | | | | exact Hi].
      - intros j0 t0 ts0 H; inversion H; subst; try congruence; auto.
      - intros w; rewrite (L_except_inv _ _ _ _ _ _ _ Hid). split.
        + intros [_ (x0 & w1 & w2 & H1 & H2 & H3 & H4)]; exists x0, w1, w2; tauto.
        + intros (x0 & w1 & w2 & H1 & H2 & H4); split; [reflexivity|]; exists x0, w1, w2; tauto.
      - apply (SM_ext _ _ _ _ _ _ E2) in HSx. rewrite andb_true_iff, negb_true_iff, Hv. split.
        + intros [H1 H2]. split; [congruence|]. eapply SM_fun; eassumption.
        + intros [-> H2]. rewrite H2 in HSx; auto. }
    destruct (v && negb (is_nullable px)); (eapply wp_mono; [first [apply wpe; assumption | apply wpn; assumption]|]);
      intros i st2 E2 HG2 Hi; pose proof E2 as E2'; up; apply HT; assumption.
  - (* list *)
    eapply wp_bind; [eapply (list_loop_ok j); [apply IHj; lia | eapply K_ext; eassumption | assumption]|].
    intros r st1 E1 HG1 Hr. destruct r as [q|q]; cbn in Hr.
    + up. apply wp_ret; [assumption|]. eapply TD_list_na; eassumption.
    + up. destruct (inr_nth _ _ (proj1 (proj2 Hr))) as [pq Hpq]. eapply wp_pattb; [exact Hpq|].
      destruct (is_empty pq) eqn:Ee; [|destruct (is_nullable pq) eqn:Enul].
      * apply is_empty_true in Ee; subst pq. apply wp_ret; [assumption|]. eapply TD_list_empty; eassumption.
      * eapply wp_bind; [apply wp_push; [assumption | assumption | reflexivity | | intros ? ? HH; discriminate HH]|].
        { cbn; intros c [<-|[]]; eapply nth_inr; eassumption. }
        intros l st2 E2 HG2 Hl; cbn beta in Hl; up.
        eapply wp_bind; [apply wpe; assumption|]. intros e st3 E3 HG3 He; up.
        eapply wp_mono; [apply wpc; [assumption | eapply nth_inr; eassumption | eapply nth_inr; eassumption]|].
        intros i st4 E4 HG4 Hi; up. eapply TD_list_null; eauto. rewrite (nul_at _ _ _ Hpq); exact Enul.
      * eapply wp_mono; [apply wp_push; [assumption | assumption | reflexivity | | intros ? ? HH; discriminate HH]|].
        { cbn; intros c [<-|[]]; eapply nth_inr; eassumption. }
        intros l st2 E2 HG2 Hl; cbn beta in Hl; up. eapply TD_list_more; eauto. rewrite (nul_at _ _ _ Hpq); exact Enul.
Qed.
End Text.
