(** * AttProof: att_deriv, value_match, start_tag_close_deriv, end_tag_deriv
    (validator lib.rs:1084-1198). *)
From Verif Require Import Base Datatype Store Deriv Lang LangFacts Wp TextProof TagProof.
Open Scope monad_scope.

Section Att.
Variable O : oracles.
Variable allowed : panic -> Prop.
Variable T : nameclass -> ctype.
Hypothesis allowed_push : allowed PTooManyPatterns.
Notation KM := (KM O allowed).
Notation K st j t ts id := (Lang.KM O allowed st true j t ts id) (only parsing).
Notation G := (G O allowed T).
Notation L := (L O).
Notation LF := (LF O).
Notation wp := (wp O allowed T).
Notation Choice := (Choice O allowed).
Notation Group := (Group O allowed).
Notation Inter := (Inter O allowed).
Notation After := (After O allowed).
Notation TD := (TD O allowed).

(** ** Attribute values *)
Lemma value_match_ok j id p v st : K st j TA [] id -> G st -> nth_error (pats st) id = Some p ->
  wp (fun m => value_match O m p v) st (fun b st' => inr_ st' id /\
     (b = true <-> L st' id [] [Txt v] \/ is_whitespace_str v = true /\ L st' id [] [])).
Proof.
  intros HK HG Hp. unfold value_match.
  destruct (is_nullable p && is_whitespace_str v) eqn:Eb.
  - apply andb_true_iff in Eb; destruct Eb as [En Ew]. apply wp_ret; [exact HG|].
    split; [eapply nth_inr; exact Hp|]. split; [|reflexivity]. intros _; right; split; [exact Ew|].
    apply (K_nul O allowed st j TA [] id HK eq_refl). rewrite (nul_at _ _ _ Hp); exact En.
  - eapply wp_bind; [eapply text_ok_all; [exact allowed_push | exact HK | apply ext_refl | exact HG | exact Hp]|].
    intros d st1 E1 HG1 HT. cbn beta in HT.
    destruct (inr_nth _ _ (proj1 (proj2 HT))) as [pd Hpd]. eapply wp_pattb; [exact Hpd|].
    apply wp_ret; [exact HG1|]. split; [apply HT|].
    apply (K_ext _ _ _ _ _ _ _ _ E1) in HK. apply (ext_nth _ _ _ _ E1) in Hp.
    rewrite <- (nul_at _ _ _ Hpd).
    assert (HKd : K st1 j TA [] d) by (apply HT; exact HK).
    rewrite (K_nul O allowed st1 j TA [] d HKd eq_refl).
    rewrite (TD_L O allowed st1 id v d j TA [] HT HK) by (right; right; exact I).
    split; [auto|]. intros [H|[Hw H]]; [exact H|].
    apply (K_nul O allowed st1 j TA [] id HK eq_refl) in H. rewrite (nul_at _ _ _ Hp) in H.
    rewrite H, Hw in Eb; discriminate.
Qed.

(** ** att_deriv *)
Definition AD (st : store) (x : attr) (id i : pid) : Prop :=
  inr_ st id /\ inr_ st i /\
  (forall j t ts m, KM st m j t ts id -> KM st m j t ts i) /\
  (forall j t ts m a w ks, KM st m j t ts id -> (LF st i a w ks <-> LF st id (x :: a) w ks)).
Lemma AD_ext st st' x id i : G st -> ext st st' -> AD st x id i -> AD st' x id i.
Proof.
  intros HG E (Hid & Hi & HK & HL). do 2 (split; [eapply ext_inr; eassumption|]). split.
  - intros j t ts m H. eapply K_ext; [exact E|]. apply HK. eapply K_ext_inv; eassumption.
  - intros j t ts m a w ks H. rewrite !(LF_ext_iff O allowed T st st') by assumption.
    apply (HL j t ts m). eapply K_ext_inv; eassumption.
Qed.
Definition MM (st : store) (x : attr) (mm : list (nat * pid)) : Prop :=
  forall p v, lookup_nat p mm = Some v -> AD st x p v.
Lemma MM_ext st st' x mm : G st -> ext st st' -> MM st x mm -> MM st' x mm.
Proof. intros HG E H p v Hl. eapply AD_ext; [exact HG | exact E | apply H; exact Hl]. Qed.
Lemma MM_cons st x mm p v : MM st x mm -> AD st x p v -> MM st x ((p, v) :: mm).
Proof.
  intros HM HA q u. cbn. destruct (Nat.eq_dec p q) as [->|Hne]; [intros E; injection E as <-; exact HA | apply HM].
Qed.
Lemma AD_L {m} st x id i j t a w : AD st x id i -> KM st m j t [] id -> (L st i a w <-> L st id (x :: a) w).
Proof. intros (_ & _ & _ & HL) HK. rewrite <- !LF_nil. eapply HL; eassumption. Qed.
Lemma AD_intro0 st x id i : inr_ st id -> inr_ st i ->
  (forall j t ts m, KM st m j t ts id -> ts = [] /\ KM st m j t [] i) ->
  (forall j t m a w, KM st m j t [] id -> (L st i a w <-> L st id (x :: a) w)) ->
  AD st x id i.
Proof.
  intros Hid Hi HK HL. do 2 (split; [assumption|]). split.
  - intros j t ts m H; destruct (HK _ _ _ _ H) as [-> H']; exact H'.
  - intros j t ts m a w ks H. destruct (HK _ _ _ _ H) as [-> H'].
    rewrite (@K_LF_nil O allowed m st j t i), (@K_LF_nil O allowed m st j t id) by assumption.
    rewrite (HL j t m a w H); tauto.
Qed.

Lemma AD_choice st x id l r n a b i : nth_error (pats st) id = Some (PChoice l r n) ->
  AD st x l a -> AD st x r b -> Choice st i a b -> AD st x id i.
Proof.
  intros Hn (Hl & Ha & HKl & HLl) (Hr & Hb & HKr & HLr) (_ & _ & Hi & _ & HKi & HLi).
  split; [eapply nth_inr; exact Hn|]. split; [exact Hi|]. split.
  - intros j t ts m H; destruct (K_choice_inv _ _ _ _ _ _ _ _ _ _ Hn H) as (H1 & H2 & _). apply HKi; auto.
  - intros j t ts m a0 w ks H; destruct (K_choice_inv _ _ _ _ _ _ _ _ _ _ Hn H) as (H1 & H2 & _).
    rewrite HLi, (LF_choice_inv _ _ _ _ _ _ _ _ _ Hn), (HLl j t ts m), (HLr j t ts m) by assumption. reflexivity.
Qed.
Lemma AD_after st x id p1 p2 d i : nth_error (pats st) id = Some (PAfter p1 p2) ->
  AD st x p1 d -> After st i d p2 -> AD st x id i.
Proof.
  intros Hn HA (_ & _ & Hi & HKi & HLi).
  split; [eapply nth_inr; exact Hn|]. split; [exact Hi|]. split.
  - intros j t ts m H; destruct (K_after_inv _ _ _ _ _ _ _ _ _ Hn H) as (t' & ts' & -> & H1 & H2).
    apply HKi; [apply HA; exact H1 | exact H2].
  - intros j t ts m a w ks H; destruct (K_after_inv _ _ _ _ _ _ _ _ _ Hn H) as (t' & ts' & -> & H1 & H2).
    rewrite (HLi j t m) by (apply HA; exact H1). rewrite (LF_after_inv _ _ _ _ _ _ _ _ Hn).
    split; intros (k & ks' & -> & H3 & H4); exists k, ks'; repeat split; auto;
      apply (AD_L st x p1 d j t a w HA H1); assumption.
Qed.
Lemma AD_group st x id l r n a p b q i : nth_error (pats st) id = Some (PGroup l r n) ->
  AD st x l a -> Group st p a r -> AD st x r b -> Group st q l b -> Choice st i p q -> AD st x id i.
Proof.
  intros Hn HAl (_ & _ & Hp & HKp & HLp) HAr (_ & _ & Hq & HKq & HLq) (_ & _ & Hi & _ & HKi & HLi).
  apply AD_intro0; [eapply nth_inr; exact Hn | exact Hi | |].
  - intros j t ts m H; destruct (K_group_inv _ _ _ _ _ _ _ _ _ _ Hn H) as (-> & H1 & H2 & _).
    split; [reflexivity|]. apply HKi; [apply HKp | apply HKq]; auto; [apply HAl | apply HAr]; assumption.
  - intros j t m a0 w H; destruct (K_group_inv _ _ _ _ _ _ _ _ _ _ Hn H) as (_ & H1 & H2 & _).
    rewrite <- LF_nil, HLi, !LF_nil, HLp, HLq, (L_group_inv _ _ _ _ _ _ _ _ Hn). split.
    + intros [(a1 & a2 & w1 & w2 & -> & Hm & H3 & H4)|(a1 & a2 & w1 & w2 & -> & Hm & H3 & H4)].
      * exists (x :: a1), a2, w1, w2; repeat split; auto; [constructor; exact Hm|].
        apply (AD_L st x l a j t _ _ HAl H1); exact H3.
      * exists a1, (x :: a2), w1, w2; repeat split; auto; [constructor; exact Hm|].
        apply (AD_L st x r b j t _ _ HAr H2); exact H4.
    + intros (a1 & a2 & w1 & w2 & -> & Hm & H3 & H4). apply merge_cons_inv in Hm.
      destruct Hm as [(a1' & -> & Hm)|(a2' & -> & Hm)].
      * left; exists a1', a2, w1, w2; repeat split; auto. apply (AD_L st x l a j t _ _ HAl H1); exact H3.
      * right; exists a1, a2', w1, w2; repeat split; auto. apply (AD_L st x r b j t _ _ HAr H2); exact H4.
Qed.
Lemma AD_inter st x id l r n a p b q i : nth_error (pats st) id = Some (PInterleave l r n) ->
  AD st x l a -> Inter st p a r -> AD st x r b -> Inter st q l b -> Choice st i p q -> AD st x id i.
Proof.
  intros Hn HAl (_ & _ & Hp & HKp & HLp) HAr (_ & _ & Hq & HKq & HLq) (_ & _ & Hi & _ & HKi & HLi).
  pose proof (proj1 (proj2 (proj2 HAl))) as HKa. pose proof (proj1 (proj2 (proj2 HAr))) as HKb.
  apply AD_intro0; [eapply nth_inr; exact Hn | exact Hi | |].
  - intros j t ts m H; destruct (K_inter_inv _ _ _ _ _ _ _ _ _ _ Hn H) as (-> & H1 & H2 & _ & Hc).
    split; [reflexivity|]. apply HKi; [apply HKp | apply HKq]; auto;
      intros Et; destruct (Hc Et) as [[Ha Hb]|[Ha|Ha]]; auto.
  - intros j t m a0 w H; destruct (K_inter_inv _ _ _ _ _ _ _ _ _ _ Hn H) as (_ & H1 & H2 & _).
    rewrite <- LF_nil, HLi, !LF_nil, HLp, HLq, (L_interleave_inv _ _ _ _ _ _ _ _ Hn). split.
    + intros [(a1 & a2 & w1 & w2 & Hw & Hm & H3 & H4)|(a1 & a2 & w1 & w2 & Hw & Hm & H3 & H4)].
      * exists (x :: a1), a2, w1, w2; repeat split; auto; [constructor; exact Hm|].
        apply (AD_L st x l a j t _ _ HAl H1); exact H3.
      * exists a1, (x :: a2), w1, w2; repeat split; auto; [constructor; exact Hm|].
        apply (AD_L st x r b j t _ _ HAr H2); exact H4.
    + intros (a1 & a2 & w1 & w2 & Hw & Hm & H3 & H4). apply merge_cons_inv in Hm.
      destruct Hm as [(a1' & -> & Hm)|(a2' & -> & Hm)].
      * left; exists a1', a2, w1, w2; repeat split; auto. apply (AD_L st x l a j t _ _ HAl H1); exact H3.
      * right; exists a1, a2', w1, w2; repeat split; auto. apply (AD_L st x r b j t _ _ HAr H2); exact H4.
Qed.
Lemma AD_more st x id p n s1 e s2 i : nth_error (pats st) id = Some (POneOrMore p n) ->
  AD st x p s1 -> nth_error (pats st) e = Some PEmpty -> Choice st s2 id e -> Group st i s1 s2 -> AD st x id i.
Proof.
  intros Hn HA He (_ & _ & Hc & _ & HKc & HLc) (_ & _ & Hi & HKi & HLi).
  apply AD_intro0; [eapply nth_inr; exact Hn | exact Hi | |].
  - intros j t ts m H; destruct (K_more_inv _ _ _ _ _ _ _ _ _ Hn H) as (-> & H1 & _).
    split; [reflexivity|]. apply HKi; [apply HA, K_any; exact H1 | apply HKc; [exact H | eapply K_empty; exact He]].
  - intros j t m a w H; destruct (K_more_inv _ _ _ _ _ _ _ _ _ Hn H) as (_ & H1 & _).
    rewrite HLi, (L_more_att_inv _ _ _ _ _ _ _ _ Hn).
    assert (HLs : forall a2 w2, L st s2 a2 w2 <-> a2 = [] /\ all_ws w2 = true \/ L st id a2 w2).
    { intros a2 w2. rewrite <- LF_nil, HLc, !LF_nil, (L_empty_inv _ _ _ _ _ He). tauto. }
    split; intros (a1 & a2 & w1 & w2 & -> & Hm & H3 & H4); exists a1, a2, w1, w2; repeat split; auto;
      try (apply (AD_L st x p s1 j t _ _ HA H1); exact H3); apply HLs; exact H4.
Qed.
Lemma AD_na st x id p i : nth_error (pats st) id = Some p ->
  match p with
  | PEmpty | PText | PNotAllowed | PElement _ _ | PDatatype _ | PDatatypeValue _ | PDatatypeExcept _ _ | PList _ | PPlaceholder _ => True
  | PAttribute nc q => forall w, ~ L st id [x] w
  | _ => False
  end -> nth_error (pats st) i = Some PNotAllowed -> AD st x id i.
Proof.
  intros Hn Hp Hi. split; [eapply nth_inr; exact Hn|]. split; [eapply nth_inr; exact Hi|]. split.
  - intros; eapply K_na; exact Hi.
  - intros j t ts m a w ks HK. rewrite (LF_na_inv _ _ _ _ _ _ Hi). split; [tauto|]. intros H.
    assert (HL : L st id (x :: a) w) by (destruct p; try contradiction; inversion H; subst; try congruence; assumption).
    clear H. destruct p; try contradiction.
    + apply (L_empty_inv _ _ _ _ _ Hn) in HL; destruct HL; discriminate.
    + apply (L_text_inv _ _ _ _ _ Hn) in HL; destruct HL; discriminate.
    + apply (L_na_inv _ _ _ _ _ Hn) in HL; exact HL.
    + pose proof HL as HL'. apply (L_attr_inv _ _ _ _ _ _ _ Hn) in HL'. destruct HL' as (y & E & _).
      injection E as -> ->. exact (Hp w HL).
    + apply (L_element_inv _ _ _ _ _ _ _ Hn) in HL; destruct HL; discriminate.
    + apply (L_data_inv _ _ _ _ _ _ Hn) in HL; destruct HL; discriminate.
    + apply (L_value_inv _ _ _ _ _ _ Hn) in HL; destruct HL; discriminate.
    + apply (L_except_inv _ _ _ _ _ _ _ Hn) in HL; destruct HL; discriminate.
    + apply (L_list_inv _ _ _ _ _ _ Hn) in HL; destruct HL; discriminate.
    + apply (L_placeholder_inv _ _ _ _ _ _ Hn) in HL; exact HL.
Qed.
Lemma AD_attr st x id nc q i : nth_error (pats st) id = Some (PAttribute nc q) -> contains nc (a_name x) = true ->
  (L st q [] [Txt (a_value x)] \/ is_whitespace_str (a_value x) = true /\ L st q [] []) ->
  nth_error (pats st) i = Some PEmpty -> AD st x id i.
Proof.
  intros Hn Hc Hv Hi. apply AD_intro0; [eapply nth_inr; exact Hn | eapply nth_inr; exact Hi | |].
  - intros j t ts m H; destruct (K_attr_inv _ _ _ _ _ _ _ _ _ Hn H) as (-> & _). split; [reflexivity | eapply K_empty; exact Hi].
  - intros j t m a w H. rewrite (L_empty_inv _ _ _ _ _ Hi), (L_attr_inv _ _ _ _ _ _ _ Hn). split.
    + intros [-> Hw]. exists x; auto.
    + intros (y & E & _ & Hw & _). injection E as _ ->; auto.
Qed.

Ltac up := cbn beta in *;
  match goal with
  | E : ext ?s ?s', HG : Lang.G _ _ _ ?s |- _ =>
    repeat match goal with
    | H : nth_error (pats s) _ = Some _ |- _ => apply (ext_nth _ _ _ _ E) in H
    | H : inr_ s _ |- _ => apply (ext_inr _ _ _ E) in H
    | H : Lang.KM _ _ s _ _ _ _ _ |- _ => apply (K_ext _ _ _ _ _ _ _ _ E) in H
    | H : AD s _ _ _ |- _ => apply (AD_ext _ _ _ _ _ HG E) in H
    | H : MM s _ _ |- _ => apply (MM_ext _ _ _ _ HG E) in H
    | H : TextProof.Choice _ _ s _ _ _ |- _ => apply (Choice_ext _ _ _ _ _ _ _ _ HG E) in H
    | H : TextProof.Group _ _ s _ _ _ |- _ => apply (Group_ext _ _ _ _ _ _ _ _ HG E) in H
    | H : TextProof.Inter _ _ s _ _ _ |- _ => apply (Inter_ext _ _ _ _ _ _ _ _ HG E) in H
    | H : TextProof.After _ _ s _ _ _ |- _ => apply (After_ext _ _ _ _ _ _ _ _ HG E) in H
    | H : ext ?b s |- _ => apply (fun x => ext_trans _ _ _ x E) in H
    end; clear HG E
  end.

(** finishing step of every case: the result is memoised *)
Lemma wp_memo (f : nat -> M (pid * list (nat * pid))) st x id :
  wp f st (fun r st' => AD st' x id (fst r) /\ MM st' x (snd r)) ->
  wp (fun m => bind (f m) (fun r => let (v, mm) := r in ret (v, (id, v) :: mm))) st
     (fun r st' => AD st' x id (fst r) /\ MM st' x (snd r)).
Proof.
  intros H. eapply wp_bind; [exact H|]. intros [v mm] st' E HG [HA HM]. cbn [fst snd] in *.
  apply wp_ret; [exact HG|]. cbn. split; [exact HA | apply MM_cons; assumption].
Qed.
Lemma wp_naR st x id p mm : G st -> nth_error (pats st) id = Some p ->
  match p with
  | PEmpty | PText | PNotAllowed | PElement _ _ | PDatatype _ | PDatatypeValue _ | PDatatypeExcept _ _ | PList _ | PPlaceholder _ => True
  | PAttribute nc q => forall w, ~ L st id [x] w
  | _ => False
  end -> MM st x mm ->
  wp (fun _ => let* v := not_allowed in ret (v, mm)) st (fun r st' => AD st' x id (fst r) /\ MM st' x (snd r)).
Proof.
  intros HG Hn Hp HM. eapply wp_bind; [apply wpn; assumption|]. intros i st1 E1 HG1 Hi. cbn beta in Hi.
  apply wp_ret; [exact HG1|]. cbn. split; [|eapply MM_ext; [exact HG | exact E1 | exact HM]].
  eapply AD_na; [eapply ext_nth; [exact E1 | exact Hn] | | exact Hi].
  destruct p; auto. intros w H. apply (Hp w). eapply L_ext_inv; [exact HG | exact E1 | eapply nth_inr; exact Hn | exact H].
Qed.

Theorem att_ok {m} base x j t ts id : KM base m j t ts id -> forall st mm, ext base st -> G st -> MM st x mm ->
  wp (fun fu => att_deriv O fu mm id x) st (fun r st' => AD st' x id (fst r) /\ MM st' x (snd r)).
Proof.
  intros HK; induction HK as [m j t ts id l r n Hn HKl IHl HKr IHr Hf|m j t ts id Hn|m j t t' ts id p1 p2 Hn H1 IH1 H2 IH2
    |m j t id l r n Hn HKl IHl HKr IHr Hf|m j t id l r n Hn HKl IHl HKr IHr Hf Hc|m j t id p0 n Hn HKp IHp Hf|m j t id Hn|m j t id Hn Ht
    |m j j' t id nc p0 Hn HKp IHp|m j t id nc p0 Hn Ht|m j id d Hn Hd|m j id v Hn Hd|m j id d e Hn Hd He|m j id p0 Hn HKp IHp];
    intros st mm E HG HM; pose proof (ext_nth _ _ _ _ E Hn) as Hp'; apply wp_S; cbn [att_deriv];
    (destruct (lookup_nat id mm) as [v0|] eqn:El;
      [apply wp_ret; [exact HG|]; cbn; split; [apply HM; exact El | exact HM]|]);
    (eapply wp_pattb; [exact Hp'|]); apply wp_memo.
  - eapply wp_bind; [eapply IHl; eassumption|]. intros [a mm1] st1 E1 HG1 [HAa HM1]; cbn [fst snd] in *. clear HM; up.
    eapply wp_bind; [eapply IHr; eassumption|]. intros [b mm2] st2 E2 HG2 [HAb HM2]; cbn [fst snd] in *. clear HM1; up.
    eapply wp_bind; [apply wpc; [assumption | assumption | apply HAa | apply HAb]|]. intros i st3 E3 HG3 Hi; up.
    apply wp_ret; [assumption|]. cbn; split; [eapply AD_choice; eassumption | exact HM2].
  - eapply wp_naR; [assumption | exact Hp' | exact I | exact HM].
  - assert (Hr : inr_ st p2) by (eapply ext_inr; [exact E | eapply K_inr; exact H2]).
    eapply wp_bind; [eapply IH1; eassumption|]. intros [a mm1] st1 E1 HG1 [HAa HM1]; cbn [fst snd] in *. clear HM; up.
    eapply wp_bind; [apply wpa; [assumption | assumption | apply HAa | assumption]|]. intros i st3 E3 HG3 Hi; up.
    apply wp_ret; [assumption|]. cbn; split; [eapply AD_after; eassumption | exact HM1].
  - assert (Hl : inr_ st l) by (eapply ext_inr; [exact E | eapply K_inr; exact HKl]).
    assert (Hr : inr_ st r) by (eapply ext_inr; [exact E | eapply K_inr; exact HKr]).
    eapply wp_bind; [eapply IHl; eassumption|]. intros [a mm1] st1 E1 HG1 [HAa HM1]; cbn [fst snd] in *. clear HM; up.
    eapply wp_bind; [apply wpg; [assumption | assumption | apply HAa | assumption]|]. intros g st2 E2 HG2 Hg; up.
    eapply wp_bind; [eapply IHr; eassumption|]. intros [b mm2] st3 E3 HG3 [HAb HM2]; cbn [fst snd] in *. clear HM1; up.
    eapply wp_bind; [apply wpg; [assumption | assumption | assumption | apply HAb]|]. intros g' st4 E4 HG4 Hg'; up.
    eapply wp_bind; [apply wpc; [assumption | assumption | apply Hg | apply Hg']|]. intros i st5 E5 HG5 Hi; up.
    apply wp_ret; [assumption|]. cbn; split; [eapply AD_group; eassumption | exact HM2].
  - assert (Hl : inr_ st l) by (eapply ext_inr; [exact E | eapply K_inr; exact HKl]).
    assert (Hr : inr_ st r) by (eapply ext_inr; [exact E | eapply K_inr; exact HKr]).
    eapply wp_bind; [eapply IHl; eassumption|]. intros [a mm1] st1 E1 HG1 [HAa HM1]; cbn [fst snd] in *. clear HM; up.
    eapply wp_bind; [apply wpi; [assumption | assumption | apply HAa | assumption]|]. intros g st2 E2 HG2 Hg; up.
    eapply wp_bind; [eapply IHr; eassumption|]. intros [b mm2] st3 E3 HG3 [HAb HM2]; cbn [fst snd] in *. clear HM1; up.
    eapply wp_bind; [apply wpi; [assumption | assumption | assumption | apply HAb]|]. intros g' st4 E4 HG4 Hg'; up.
    eapply wp_bind; [apply wpc; [assumption | assumption | apply Hg | apply Hg']|]. intros i st5 E5 HG5 Hi; up.
    apply wp_ret; [assumption|]. cbn; split; [eapply AD_inter; eassumption | exact HM2].
  - eapply wp_bind; [eapply IHp; eassumption|]. intros [a mm1] st1 E1 HG1 [HAa HM1]; cbn [fst snd] in *. clear HM; up.
    eapply wp_bind; [apply wpe; assumption|]. intros e st2 E2 HG2 He; up.
    eapply wp_bind; [apply wpc; [assumption | assumption | eapply nth_inr; exact Hp' | eapply nth_inr; exact He]|]. intros c st3 E3 HG3 Hcc; up.
    eapply wp_bind; [apply wpg; [assumption | assumption | apply HAa | apply Hcc]|]. intros i st4 E4 HG4 Hi; up.
    apply wp_ret; [assumption|]. cbn; split; [eapply AD_more; eassumption | exact HM1].
  - eapply wp_naR; [assumption | exact Hp' | exact I | exact HM].
  - eapply wp_naR; [assumption | exact Hp' | exact I | exact HM].
  - (* attribute *)
    apply (K_ext _ _ _ _ _ _ _ _ E) in HKp.
    destruct (inr_nth _ _ (K_inr _ _ _ _ _ _ _ HKp)) as [pp Hpp]. eapply wp_pattb; [exact Hpp|].
    destruct (contains nc (a_name x)) eqn:Ec.
    + eapply wp_bind; [eapply value_match_ok; eassumption|]. intros b st1 E1 HG1 [Hq Hb]; up.
      destruct b.
      * eapply wp_bind; [apply wpe; assumption|]. intros i st2 E2 HG2 Hi.
        assert (Hv : L st2 p0 [] [Txt (a_value x)] \/ is_whitespace_str (a_value x) = true /\ L st2 p0 [] []).
        { destruct (proj1 Hb eq_refl) as [H|[Hw H]]; [left | right; split; [exact Hw|]]; eapply L_ext; eassumption. }
        up. apply wp_ret; [assumption|]. cbn; split; [eapply AD_attr; eassumption | exact HM].
      * eapply wp_naR; [assumption | exact Hp' | | exact HM]. intros w H.
        apply (L_attr_inv _ _ _ _ _ _ _ Hp') in H. destruct H as (y & Ey & _ & _ & H). injection Ey as <-.
        apply Hb in H; discriminate.
    + eapply wp_naR; [assumption | exact Hp' | | exact HM]. intros w H.
      apply (L_attr_inv _ _ _ _ _ _ _ Hp') in H. destruct H as (y & Ey & H & _). injection Ey as <-. congruence.
  - eapply wp_naR; [assumption | exact Hp' | exact I | exact HM].
  - eapply wp_naR; [assumption | exact Hp' | exact I | exact HM].
  - eapply wp_naR; [assumption | exact Hp' | exact I | exact HM].
  - eapply wp_naR; [assumption | exact Hp' | exact I | exact HM].
  - eapply wp_naR; [assumption | exact Hp' | exact I | exact HM].
Qed.

(** ** start_tag_close_deriv *)
Definition SC (st : store) (id i : pid) : Prop :=
  inr_ st id /\ inr_ st i /\
  (forall j t ts m, KM st m j t ts id -> K st j t ts i) /\
  (forall j t ts m w ks, KM st m j t ts id -> (LF st i [] w ks <-> LF st id [] w ks)).
Lemma SC_ext st st' id i : G st -> ext st st' -> SC st id i -> SC st' id i.
Proof.
  intros HG E (Hid & Hi & HK & HL). do 2 (split; [eapply ext_inr; eassumption|]). split.
  - intros j t ts m H. eapply K_ext; [exact E|]. apply (HK _ _ _ m). eapply K_ext_inv; eassumption.
  - intros j t ts m w ks H. rewrite !(LF_ext_iff O allowed T st st') by assumption.
    apply (HL j t ts m). eapply K_ext_inv; eassumption.
Qed.
Lemma SC_L {m} st id i j t w : SC st id i -> KM st m j t [] id -> (L st i [] w <-> L st id [] w).
Proof. intros (_ & _ & _ & HL) HK. rewrite <- !LF_nil. eapply HL; eassumption. Qed.
Lemma SC_refl st id p : nth_error (pats st) id = Some p ->
  match p with PChoice _ _ _ | PInterleave _ _ _ | PGroup _ _ _ | POneOrMore _ _ | PAfter _ _ => False | _ => True end ->
  SC st id id.
Proof.
  intros Hn Hp; do 2 (split; [eapply nth_inr; exact Hn|]). split; [|reflexivity].
  intros j t ts m H; inversion H; subst;
    try (match goal with X : nth_error _ _ = Some _ |- _ => rewrite Hn in X; injection X as -> end; contradiction).
  - eapply K_na; eassumption.
  - eapply K_empty; eassumption.
  - eapply K_text; eassumption.
  - eapply K_attr; eassumption.
  - eapply K_elem; eassumption.
  - eapply K_data; eassumption.
  - eapply K_value; eassumption.
  - eapply K_except; eassumption.
  - eapply K_list; eassumption.
Qed.
Lemma SC_intro0 st id i : inr_ st id -> inr_ st i ->
  (forall j t ts m, KM st m j t ts id -> ts = [] /\ K st j t [] i) ->
  (forall j t m w, KM st m j t [] id -> (L st i [] w <-> L st id [] w)) ->
  SC st id i.
Proof.
  intros Hid Hi HK HL. do 2 (split; [assumption|]). split.
  - intros j t ts m H; destruct (HK _ _ _ _ H) as [-> H']; exact H'.
  - intros j t ts m w ks H. destruct (HK _ _ _ _ H) as [-> H'].
    rewrite (@K_LF_nil O allowed true st j t i), (@K_LF_nil O allowed m st j t id) by assumption.
    rewrite (HL j t m w H); tauto.
Qed.
Ltac up ::= cbn beta in *;
  match goal with
  | E : ext ?s ?s', HG : Lang.G _ _ _ ?s |- _ =>
    repeat match goal with
    | H : nth_error (pats s) _ = Some _ |- _ => apply (ext_nth _ _ _ _ E) in H
    | H : inr_ s _ |- _ => apply (ext_inr _ _ _ E) in H
    | H : Lang.KM _ _ s _ _ _ _ _ |- _ => apply (K_ext _ _ _ _ _ _ _ _ E) in H
    | H : SC s _ _ |- _ => apply (SC_ext _ _ _ _ HG E) in H
    | H : TextProof.Choice _ _ s _ _ _ |- _ => apply (Choice_ext _ _ _ _ _ _ _ _ HG E) in H
    | H : TextProof.Group _ _ s _ _ _ |- _ => apply (Group_ext _ _ _ _ _ _ _ _ HG E) in H
    | H : TextProof.Inter _ _ s _ _ _ |- _ => apply (Inter_ext _ _ _ _ _ _ _ _ HG E) in H
    | H : TextProof.After _ _ s _ _ _ |- _ => apply (After_ext _ _ _ _ _ _ _ _ HG E) in H
    | H : ext ?b s |- _ => apply (fun x => ext_trans _ _ _ x E) in H
    end; clear HG E
  end.

Theorem close_ok {m} base j t ts id : KM base m j t ts id -> forall st, ext base st -> G st ->
  wp (fun fu => start_tag_close_deriv fu id) st (fun i st' => SC st' id i).
Proof.
  intros HK; induction HK as [m j t ts id l r n Hn HKl IHl HKr IHr Hf|m j t ts id Hn|m j t t' ts id p1 p2 Hn H1 IH1 H2 IH2
    |m j t id l r n Hn HKl IHl HKr IHr Hf|m j t id l r n Hn HKl IHl HKr IHr Hf Hc|m j t id p0 n Hn HKp IHp Hf|m j t id Hn|m j t id Hn Ht
    |m j j' t id nc p0 Hn HKp IHp|m j t id nc p0 Hn Ht|m j id d Hn Hd|m j id v Hn Hd|m j id d e Hn Hd He|m j id p0 Hn HKp IHp];
    intros st E HG; pose proof (ext_nth _ _ _ _ E Hn) as Hp'; apply wp_S; cbn [start_tag_close_deriv];
    (eapply wp_pattb; [exact Hp'|]);
    try (apply wp_ret; [exact HG | eapply SC_refl; [exact Hp' | exact I]]).
  - eapply wp_bind; [apply IHl; assumption|]. intros a st1 E1 HG1 HSa; up.
    eapply wp_bind; [apply IHr; assumption|]. intros b st2 E2 HG2 HSb; up.
    eapply wp_mono; [apply wpc; [assumption | assumption | apply HSa | apply HSb]|]. intros i st3 E3 HG3 Hi; up.
    destruct HSa as (Hl & Ha & HKa & HLa). destruct HSb as (Hr & Hb & HKb & HLb). destruct Hi as (_ & _ & Hi & _ & HKi & HLi).
    split; [eapply nth_inr; exact Hp'|]. split; [exact Hi|]. split.
    + intros j0 t0 ts0 m0 H; destruct (K_choice_inv _ _ _ _ _ _ _ _ _ _ Hp' H) as (H1 & H2 & _). apply HKi; eauto.
    + intros j0 t0 ts0 m0 w ks H; destruct (K_choice_inv _ _ _ _ _ _ _ _ _ _ Hp' H) as (H1 & H2 & _).
      rewrite HLi, (LF_choice_inv _ _ _ _ _ _ _ _ _ Hp'), (HLa j0 t0 ts0 m0), (HLb j0 t0 ts0 m0) by assumption. reflexivity.
  - assert (Hr : inr_ st p2) by (eapply ext_inr; [exact E | eapply K_inr; exact H2]).
    eapply wp_bind; [apply IH1; assumption|]. intros a st1 E1 HG1 HSa; up.
    eapply wp_mono; [apply wpa; [assumption | assumption | apply HSa | assumption]|]. intros i st3 E3 HG3 Hi; up.
    destruct Hi as (_ & _ & Hi & HKi & HLi).
    split; [eapply nth_inr; exact Hp'|]. split; [exact Hi|]. split.
    + intros j0 t0 ts0 m0 H; destruct (K_after_inv _ _ _ _ _ _ _ _ _ Hp' H) as (t1 & ts1 & -> & Q1 & Q2).
      apply HKi; [eapply HSa; exact Q1 | exact Q2].
    + intros j0 t0 ts0 m0 w ks H; destruct (K_after_inv _ _ _ _ _ _ _ _ _ Hp' H) as (t1 & ts1 & -> & Q1 & Q2).
      rewrite (HLi j0 t0 true) by (eapply HSa; exact Q1). rewrite (LF_after_inv _ _ _ _ _ _ _ _ Hp').
      split; intros (k & ks' & -> & H3 & H4); exists k, ks'; repeat split; auto;
        apply (SC_L st3 p1 a j0 t0 w HSa Q1); assumption.
  - eapply wp_bind; [apply IHl; assumption|]. intros a st1 E1 HG1 HSa; up.
    eapply wp_bind; [apply IHr; assumption|]. intros b st2 E2 HG2 HSb; up.
    eapply wp_mono; [apply wpg; [assumption | assumption | apply HSa | apply HSb]|]. intros i st3 E3 HG3 Hi; up.
    destruct Hi as (_ & _ & Hi & HKi & HLi).
    apply SC_intro0; [eapply nth_inr; exact Hp' | exact Hi | |].
    + intros j0 t0 ts0 m0 H; destruct (K_group_inv _ _ _ _ _ _ _ _ _ _ Hp' H) as (-> & Q1 & Q2 & _).
      split; [reflexivity|]. apply HKi; [eapply HSa | eapply HSb]; eassumption.
    + intros j0 t0 m0 w H; destruct (K_group_inv _ _ _ _ _ _ _ _ _ _ Hp' H) as (_ & Q1 & Q2 & _).
      rewrite HLi, (L_group_inv _ _ _ _ _ _ _ _ Hp').
      split; intros (a1 & a2 & w1 & w2 & -> & Hm & H3 & H4); apply merge_nil_inv in Hm; destruct Hm as [-> ->];
        exists [], [], w1, w2; (split; [reflexivity|]); (split; [constructor|]);
        (split; [apply (SC_L st3 l a j0 t0 _ HSa Q1); assumption | apply (SC_L st3 r b j0 t0 _ HSb Q2); assumption]).
  - eapply wp_bind; [apply IHl; assumption|]. intros a st1 E1 HG1 HSa; up.
    eapply wp_bind; [apply IHr; assumption|]. intros b st2 E2 HG2 HSb; up.
    eapply wp_mono; [apply wpi; [assumption | assumption | apply HSa | apply HSb]|]. intros i st3 E3 HG3 Hi; up.
    destruct Hi as (_ & _ & Hi & HKi & HLi).
    pose proof (proj1 (proj2 (proj2 HSa))) as HKa. pose proof (proj1 (proj2 (proj2 HSb))) as HKb.
    apply SC_intro0; [eapply nth_inr; exact Hp' | exact Hi | |].
    + intros j0 t0 ts0 m0 H; destruct (K_inter_inv _ _ _ _ _ _ _ _ _ _ Hp' H) as (-> & Q1 & Q2 & _ & Hcc).
      split; [reflexivity|]. apply HKi; eauto.
      intros Et; destruct (Hcc Et) as [[Qa Qb]|[Qa|Qa]]; eauto.
    + intros j0 t0 m0 w H; destruct (K_inter_inv _ _ _ _ _ _ _ _ _ _ Hp' H) as (_ & Q1 & Q2 & _ & _).
      rewrite HLi, (L_interleave_inv _ _ _ _ _ _ _ _ Hp').
      split; intros (a1 & a2 & w1 & w2 & Hw & Hm & H3 & H4); apply merge_nil_inv in Hm; destruct Hm as [-> ->];
        exists [], [], w1, w2; (split; [exact Hw|]); (split; [constructor|]);
        (split; [apply (SC_L st3 l a j0 t0 _ HSa Q1); assumption | apply (SC_L st3 r b j0 t0 _ HSb Q2); assumption]).
  - assert (Hp : inr_ st p0) by (eapply ext_inr; [exact E | eapply K_inr; exact HKp]).
    eapply wp_bind; [apply IHp; assumption|]. intros a st1 E1 HG1 HSa; up. clear a HSa.
    eapply wp_mono; [apply wp_one_or_more; assumption|]. intros i st2 E2 HG2 Hi; up.
    apply SC_intro0; [eapply nth_inr; exact Hp' | eapply nth_inr; exact Hi | |].
    + intros j0 t0 ts0 m0 H; destruct (K_more_inv _ _ _ _ _ _ _ _ _ Hp' H) as (-> & Q1 & _).
      split; [reflexivity | eapply K_more; [exact Hi | exact Q1 | reflexivity]].
    + intros j0 t0 m0 w _; split; intros H; [exact (L_more_same _ _ _ _ _ _ _ _ _ Hi Hp' H) | exact (L_more_same _ _ _ _ _ _ _ _ _ Hp' Hi H)].
  - (* attribute *)
    eapply wp_mono; [apply wpn; assumption|]. intros i st1 E1 HG1 Hi; up.
    apply SC_intro0; [eapply nth_inr; exact Hp' | eapply nth_inr; exact Hi | |].
    + intros j0 t0 ts0 m0 H; destruct (K_attr_inv _ _ _ _ _ _ _ _ _ Hp' H) as (-> & _). split; [reflexivity | eapply K_na; exact Hi].
    + intros j0 t0 m0 w _. rewrite (L_na_inv _ _ _ _ _ Hi), (L_attr_inv _ _ _ _ _ _ _ Hp'). split; [tauto|].
      intros (x & Ex & _); discriminate.
Qed.

(** ** end_tag_deriv *)
Definition ED (st : store) (id i : pid) : Prop :=
  inr_ st id /\ inr_ st i /\
  (forall j t t' ts, K st j t (t' :: ts) id -> K st j t' ts i) /\
  (forall j t t' ts k ks, K st j t (t' :: ts) id -> (LF st i [] k ks <-> LF st id [] [] (k :: ks))).
Lemma ED_ext st st' id i : G st -> ext st st' -> ED st id i -> ED st' id i.
Proof.
  intros HG E (Hid & Hi & HK & HL). do 2 (split; [eapply ext_inr; eassumption|]). split.
  - intros j t t' ts H. eapply K_ext; [exact E|]. apply (HK j t). eapply K_ext_inv; eassumption.
  - intros j t t' ts k ks H. rewrite !(LF_ext_iff O allowed T st st') by assumption.
    apply (HL j t t' ts). eapply K_ext_inv; eassumption.
Qed.
Ltac up ::= cbn beta in *;
  match goal with
  | E : ext ?s ?s', HG : Lang.G _ _ _ ?s |- _ =>
    repeat match goal with
    | H : nth_error (pats s) _ = Some _ |- _ => apply (ext_nth _ _ _ _ E) in H
    | H : inr_ s _ |- _ => apply (ext_inr _ _ _ E) in H
    | H : Lang.KM _ _ s _ _ _ _ _ |- _ => apply (K_ext _ _ _ _ _ _ _ _ E) in H
    | H : ED s _ _ |- _ => apply (ED_ext _ _ _ _ HG E) in H
    | H : TextProof.Choice _ _ s _ _ _ |- _ => apply (Choice_ext _ _ _ _ _ _ _ _ HG E) in H
    | H : ext ?b s |- _ => apply (fun x => ext_trans _ _ _ x E) in H
    end; clear HG E
  end.
Lemma ED_na st id p i : nth_error (pats st) id = Some p ->
  match p with PChoice _ _ _ => False | PAfter p1 _ => nul st p1 = false | _ => True end ->
  nth_error (pats st) i = Some PNotAllowed -> ED st id i.
Proof.
  intros Hn Hp Hi. split; [eapply nth_inr; exact Hn|]. split; [eapply nth_inr; exact Hi|]. split.
  - intros; eapply K_na; exact Hi.
  - intros j t t' ts k ks HK. rewrite (LF_na_inv _ _ _ _ _ _ Hi). split; [tauto|]. intros H.
    inversion HK; subst; try congruence.
    + match goal with X : nth_error _ id = _ |- _ => rewrite Hn in X; injection X as -> end. exact Hp.
    + apply (LF_na_inv _ _ _ _ _ _) in H; assumption.
    + match goal with X : nth_error _ id = _ |- _ => pose proof X as X'; rewrite Hn in X; injection X as -> end.
      apply (LF_after_inv _ _ _ _ _ _ _ _ X') in H. destruct H as (k0 & ks0 & _ & H & _).
      match goal with X : Lang.KM _ _ _ true _ _ [] ?q |- _ => apply (K_nul _ _ _ _ _ _ _ X eq_refl) in H end. congruence.
Qed.
Theorem end_ok base j t ts id : K base j t ts id -> forall st p, ext base st -> G st -> nth_error (pats st) id = Some p ->
  wp (fun m => end_tag_deriv m p) st (fun i st' => ED st' id i).
Proof.
  intros HK; revert j t ts id HK; refine (K_ind_t O allowed base _ _ _ _ _ _ _ _ _ _ _ _ _ _ _);
    [intros j t ts id l r n Hn HKl IHl HKr IHr Hf
    |intros j t ts id Hn
    |intros j t t' ts id p1 p2 Hn H1 IH1 H2 IH2
    |intros j t id l r n Hn HKl IHl HKr IHr Hf
    |intros j t id l r n Hn HKl IHl HKr IHr Hf Hc
    |intros j t id p0 n Hn HKp IHp Hf
    |intros j t id Hn
    |intros j t id Hn Ht
    |intros j j' t id nc p0 Hn HKp IHp
    |intros j t id nc p0 Hn Ht
    |intros j id d Hn Hd
    |intros j id v Hn Hd
    |intros j id d e Hn Hd He
    |intros j id p0 Hn HKp IHp];
    intros st p E HG Hp; pose proof (ext_nth _ _ _ _ E Hn) as Hp'; rewrite Hp' in Hp; injection Hp as <-;
    apply wp_S; cbn [end_tag_deriv];
    try (eapply wp_mono; [apply wpn; assumption|]; intros i st1 E1 HG1 Hi; up;
         eapply ED_na; [exact Hp' | exact I | exact Hi]).
  - assert (Hl : inr_ st l) by (eapply ext_inr; [exact E | eapply K_inr; exact HKl]).
    assert (Hr : inr_ st r) by (eapply ext_inr; [exact E | eapply K_inr; exact HKr]).
    destruct (inr_nth _ _ Hl) as [pl Hpl]. destruct (inr_nth _ _ Hr) as [pr Hpr].
    eapply wp_pattb; [exact Hpl|]. eapply wp_pattb; [exact Hpr|].
    eapply wp_bind; [apply IHl; assumption|]. intros a st1 E1 HG1 HSa; up.
    eapply wp_bind; [apply IHr; assumption|]. intros b st2 E2 HG2 HSb; up.
    eapply wp_mono; [apply wpc; [assumption | assumption | apply HSa | apply HSb]|]. intros i st3 E3 HG3 Hi; up.
    destruct HSa as (Hl' & Ha & HKa & HLa). destruct HSb as (Hr' & Hb & HKb & HLb). destruct Hi as (_ & _ & Hi & _ & HKi & HLi).
    split; [eapply nth_inr; exact Hp'|]. split; [exact Hi|]. split.
    + intros j0 t0 t1 ts0 H; destruct (K_choice_inv _ _ _ _ _ _ _ _ _ _ Hp' H) as (Q1 & Q2 & _). apply HKi; eauto.
    + intros j0 t0 t1 ts0 k ks H; destruct (K_choice_inv _ _ _ _ _ _ _ _ _ _ Hp' H) as (Q1 & Q2 & _).
      rewrite HLi, (LF_choice_inv _ _ _ _ _ _ _ _ _ Hp'), (HLa j0 t0 t1 ts0), (HLb j0 t0 t1 ts0) by assumption. reflexivity.
  - assert (Hl : inr_ st p1) by (eapply ext_inr; [exact E | eapply K_inr; exact H1]).
    assert (Hr : inr_ st p2) by (eapply ext_inr; [exact E | eapply K_inr; exact H2]).
    destruct (inr_nth _ _ Hl) as [pl Hpl]. eapply wp_pattb; [exact Hpl|].
    destruct (is_nullable pl) eqn:Enul.
    + apply wp_ret; [assumption|]. split; [eapply nth_inr; exact Hp'|]. split; [exact Hr|]. split.
      * intros j0 t0 t1 ts0 H; destruct (K_after_inv _ _ _ _ _ _ _ _ _ Hp' H) as (t2 & ts2 & Et & Q1 & Q2).
        injection Et as <- <-; exact Q2.
      * intros j0 t0 t1 ts0 k ks H; destruct (K_after_inv _ _ _ _ _ _ _ _ _ Hp' H) as (t2 & ts2 & Et & Q1 & Q2).
        rewrite (LF_after_inv _ _ _ _ _ _ _ _ Hp'). split.
        -- intros HL; exists k, ks; repeat split; auto. apply (K_nul _ _ _ _ _ _ _ Q1 eq_refl).
           rewrite (nul_at _ _ _ Hpl); exact Enul.
        -- intros (k0 & ks0 & Ek & _ & HL). injection Ek as <- <-; exact HL.
    + eapply wp_mono; [apply wpn; assumption|]. intros i st1 E1 HG1 Hi; up.
      eapply ED_na; [exact Hp' | cbn; rewrite (nul_at _ _ _ Hpl); exact Enul | exact Hi].
Qed.
End Att.
