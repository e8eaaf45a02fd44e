(** * TagProof: start_tag_open_deriv, att_deriv, start_tag_close_deriv, end_tag_deriv
    (validator lib.rs:986-1198) compute the corresponding derivatives. *)
From Verif Require Import Base Datatype Store Deriv Lang LangFacts Wp TextProof.
Open Scope monad_scope.

Section Tag.
Variable O : oracles.
Variable allowed : panic -> Prop.
Variable T : nameclass -> ctype.
Hypothesis allowed_push : allowed PTooManyPatterns.
Notation KM := (KM O allowed).
Notation K st j t ts id := (Lang.KM O allowed st true j t ts id) (only parsing).
Notation KS := (KS O allowed).
Notation G := (G O allowed T).
Notation L := (L O).
Notation LF := (LF O).
Notation wp := (wp O allowed T).
Notation Choice := (Choice O allowed).
Notation Group := (Group O allowed).
Notation Inter := (Inter O allowed).
Notation After := (After O allowed).
Notation Star := (Star O allowed).
Notation TD := (TD O allowed).

(** induction principle giving hypotheses also for the typed sides of an interleave *)
Lemma K_ind' (st : store) (P : nat -> ctype -> list ctype -> pid -> Prop) :
  (forall j t ts id l r n, nth_error (pats st) id = Some (PChoice l r n) ->
     K st j t ts l -> P j t ts l -> K st j t ts r -> P j t ts r -> P j t ts id) ->
  (forall j t ts id, nth_error (pats st) id = Some PNotAllowed -> P j t ts id) ->
  (forall j t t' ts id p1 p2, nth_error (pats st) id = Some (PAfter p1 p2) ->
     K st j t [] p1 -> P j t [] p1 -> K st j t' ts p2 -> P j t (t' :: ts) id) ->
  (forall j t id l r n, nth_error (pats st) id = Some (PGroup l r n) ->
     K st j t [] l -> P j t [] l -> K st j t [] r -> P j t [] r -> P j t [] id) ->
  (forall j t id l r n tl tr, nth_error (pats st) id = Some (PInterleave l r n) ->
     K st j t [] l -> K st j t [] r ->
     K st j tl [] l -> P j tl [] l -> K st j tr [] r -> P j tr [] r -> tle tl t -> tle tr t ->
     (t = TA -> tl = TN /\ tr = TN \/ tl = TE \/ tr = TE) -> P j t [] id) ->
  (forall j t id p n, nth_error (pats st) id = Some (POneOrMore p n) -> K st j t [] p -> P j t [] p -> P j t [] id) ->
  (forall j t id p, nth_error (pats st) id = Some p ->
     match p with PEmpty | PText | PAttribute _ _ | PDatatype _ | PDatatypeValue _ | PDatatypeExcept _ _ | PList _ => True | _ => False end ->
     P j t [] id) ->
  (forall j t id nc p, nth_error (pats st) id = Some (PElement nc p) -> P j t [] id) ->
  forall j t ts id, K st j t ts id -> P j t ts id.
Proof.
  intros Hch Hna Haf Hgr Hin Hmo Hle Hel j t ts id H.
  enough (X : forall m j t ts id, KM st m j t ts id -> m = true -> P j t ts id) by (eapply X; [exact H | reflexivity]). clear j t ts id H.
  fix IH0 6; intros m j t ts id H Em.
  destruct H as [m j t ts id l r n Hn H1 H2 Hf|m j t ts id Hn|m j t t' ts id p1 p2 Hn H1 H2
    |m j t id l r n Hn H1 H2 Hf|m j t id l r n Hn H1 H2 Hf Hc|m j t id p n Hn H1 Hf|m j t id Hn|m j t id Hn Ht
    |m j j' t id nc p Hn H1|m j t id nc p Hn Ht|m j id d Hn Hd|m j id v Hn Hd|m j id d e Hn Hd He|m j id p Hn H1]; subst m.
  - eapply Hch; [exact Hn | exact H1 | exact (IH0 true _ _ _ _ H1 eq_refl) | exact H2 | exact (IH0 true _ _ _ _ H2 eq_refl)].
  - eapply Hna; exact Hn.
  - eapply Haf; [exact Hn | exact H1 | exact (IH0 true _ _ _ _ H1 eq_refl) | exact H2].
  - eapply Hgr; [exact Hn | exact H1 | exact (IH0 true _ _ _ _ H1 eq_refl) | exact H2 | exact (IH0 true _ _ _ _ H2 eq_refl)].
  - destruct t.
    + eapply (Hin j TE id l r n TE TE Hn H1 H2 H1); [exact (IH0 true _ _ _ _ H1 eq_refl) | exact H2 | exact (IH0 true _ _ _ _ H2 eq_refl) | exact I | exact I | discriminate].
    + eapply (Hin j TN id l r n TN TN Hn H1 H2 H1); [exact (IH0 true _ _ _ _ H1 eq_refl) | exact H2 | exact (IH0 true _ _ _ _ H2 eq_refl) | exact I | exact I | discriminate].
    + destruct (Hc eq_refl) as [[Ha Hb]|[Ha|Ha]].
      * eapply (Hin j TA id l r n TN TN Hn H1 H2 Ha); [exact (IH0 true _ _ _ _ Ha eq_refl) | exact Hb | exact (IH0 true _ _ _ _ Hb eq_refl) | exact I | exact I | auto].
      * eapply (Hin j TA id l r n TE TA Hn H1 H2 Ha); [exact (IH0 true _ _ _ _ Ha eq_refl) | exact H2 | exact (IH0 true _ _ _ _ H2 eq_refl) | exact I | exact I | auto].
      * eapply (Hin j TA id l r n TA TE Hn H1 H2 H1); [exact (IH0 true _ _ _ _ H1 eq_refl) | exact Ha | exact (IH0 true _ _ _ _ Ha eq_refl) | exact I | exact I | auto].
  - eapply Hmo; [exact Hn | exact H1 | exact (IH0 true _ _ _ _ H1 eq_refl)].
  - eapply Hle; [exact Hn | exact I].
  - eapply Hle; [exact Hn | exact I].
  - eapply Hle; [exact Hn | exact I].
  - eapply Hel; exact Hn.
  - eapply Hle; [exact Hn | exact I].
  - eapply Hle; [exact Hn | exact I].
  - eapply Hle; [exact Hn | exact I].
  - eapply Hle; [exact Hn | exact I].
Qed.
Notation K_mono := (K_mono O allowed).
Lemma Kj {m} st j j' t ts id : j <= j' -> KM st m j t ts id -> KM st m j' t ts id.
Proof. intros Hj H; eapply K_mono; [exact Hj | apply tle_refl | exact H]. Qed.

(** ** apply_after *)
Definition AA (st : store) (id : pid) (R : list item -> list item -> list (list item) -> Prop) (i : pid) : Prop :=
  inr_ st id /\ inr_ st i /\
  forall a w ks, LF st i a w ks <-> exists k' ks' k, ks = k' :: ks' /\ LF st id a w [k] /\ R k k' ks'.
Lemma AA_ext st st' id R i : G st -> ext st st' -> AA st id R i -> AA st' id R i.
Proof.
  intros HG E (Hid & Hi & H). do 2 (split; [eapply ext_inr; eassumption|]).
  intros a w ks. rewrite (LF_ext_iff O allowed T st st' i) by assumption. rewrite H.
  split; intros (k' & ks' & k & E1 & H1 & H2); exists k', ks', k;
    rewrite (LF_ext_iff O allowed T st st' id) in * by assumption; auto.
Qed.
Ltac up := cbn beta in *;
  match goal with
  | E : ext ?s ?s', HG : Lang.G _ _ _ ?s |- _ =>
    repeat match goal with
    | H : nth_error (pats s) _ = Some _ |- _ => apply (ext_nth _ _ _ _ E) in H
    | H : inr_ s _ |- _ => apply (ext_inr _ _ _ E) in H
    | H : Lang.KM _ _ s _ _ _ _ _ |- _ => apply (K_ext _ _ _ _ _ _ _ _ E) in H
    | H : AA s _ _ _ |- _ => apply (AA_ext _ _ _ _ _ HG E) in H
    | H : TextProof.TD _ _ s _ _ _ |- _ => apply (TD_ext _ _ _ _ _ _ _ HG E) in H
    | H : TextProof.Choice _ _ s _ _ _ |- _ => apply (Choice_ext _ _ _ _ _ _ _ _ HG E) in H
    | H : TextProof.Group _ _ s _ _ _ |- _ => apply (Group_ext _ _ _ _ _ _ _ _ HG E) in H
    | H : TextProof.Inter _ _ s _ _ _ |- _ => apply (Inter_ext _ _ _ _ _ _ _ _ HG E) in H
    | H : TextProof.After _ _ s _ _ _ |- _ => apply (After_ext _ _ _ _ _ _ _ _ HG E) in H
    | H : ext ?b s |- _ => apply (fun x => ext_trans _ _ _ x E) in H
    end; clear HG E
  end.

Definition Fspec (base : store) (j : nat) (t t2 : ctype) (ts2 : list ctype) (f : pid -> M pid)
    (R : list item -> list item -> list (list item) -> Prop) : Prop :=
  forall q st, ext base st -> G st -> K st j t [] q ->
    wp (fun _ => f q) st (fun i st' => K st' j t2 ts2 i /\
      forall w ks, LF st' i [] w ks <-> exists k, L st' q [] k /\ R k w ks).

Lemma apply_after_ok {m} base j t0 tsx id : KM base m j t0 tsx id -> forall t f R t2 ts2, tsx = [t] ->
  Fspec base j t t2 ts2 f R ->
  forall st p, ext base st -> G st -> nth_error (pats st) id = Some p ->
  wp (fun fu => apply_after fu p f) st (fun i st' => KM st' m j t0 (t2 :: ts2) i /\ AA st' id R i).
Proof.
  intros HK; induction HK as [m j t0 ts id l r n Hn HKl IHl HKr IHr Hf|m j t0 ts id Hn|m j t0 t' ts id p1 p2 Hn H1 IH1 H2 IH2
    | | | | | | | | | | | ]; intros tc f R t2 ts2 Et HF st p' E HG Hp; try discriminate Et;
    pose proof (ext_nth _ _ _ _ E Hn) as Hp'; rewrite Hp' in Hp; injection Hp as <-;
    apply wp_S; cbn [apply_after].
  - assert (Hl : inr_ st l) by (eapply ext_inr; [exact E | eapply K_inr; exact HKl]).
    assert (Hr : inr_ st r) by (eapply ext_inr; [exact E | eapply K_inr; exact HKr]).
    destruct (inr_nth _ _ Hl) as [pl Hpl]. destruct (inr_nth _ _ Hr) as [pr Hpr].
    eapply wp_pattb; [exact Hpl|]. eapply wp_pattb; [exact Hpr|].
    eapply wp_bind; [eapply IHl; eassumption|]. intros a st1 E1 HG1 [HKa HAa]; up.
    eapply wp_bind; [eapply IHr; eassumption|]. intros b st2 E2 HG2 [HKb HAb]; up.
    eapply wp_mono; [apply wpc; [assumption | assumption | apply HAa | apply HAb]|].
    intros i st3 E3 HG3 Hi; up. destruct Hi as (_ & _ & Hi & _ & HKi & HLi). split; [apply HKi; assumption|].
    split; [eapply nth_inr; eassumption|]. split; [exact Hi|].
    intros a0 w ks. destruct HAa as (_ & _ & HAa). destruct HAb as (_ & _ & HAb).
    rewrite HLi, HAa, HAb. split.
    + intros [(k' & ks' & k & Ek & H1 & H2)|(k' & ks' & k & Ek & H1 & H2)]; exists k', ks', k; repeat split; auto;
        apply (LF_choice_inv _ _ _ _ _ _ _ _ _ Hp'); auto.
    + intros (k' & ks' & k & Ek & H1 & H2). apply (LF_choice_inv _ _ _ _ _ _ _ _ _ Hp') in H1.
      destruct H1 as [H1|H1]; [left | right]; exists k', ks', k; auto.
  - eapply wp_mono; [apply wpn; assumption|]. intros i st1 E1 HG1 Hi; up.
    split; [eapply K_na; exact Hi|]. split; [eapply nth_inr; eassumption|]. split; [eapply nth_inr; eassumption|].
    intros a w ks. rewrite (LF_na_inv _ _ _ _ _ _ Hi). split; [tauto|].
    intros (k' & ks' & k & Ek & H1 & H2). apply (LF_na_inv _ _ _ _ _ _ Hp') in H1; exact H1.
  - injection Et as -> ->.
    assert (Hr : K st j tc [] p2) by (eapply K_ext; eassumption).
    assert (Hl : KM st m j t0 [] p1) by (eapply K_ext; eassumption).
    eapply wp_bind; [apply (HF p2 st E HG Hr)|]. intros q st1 E1 HG1 [HKq HLq]; up.
    eapply wp_mono; [apply wpa; [assumption | assumption | eapply K_inr; exact Hl | eapply K_inr; exact HKq]|].
    intros i st2 E2 HG2 Hi.
    assert (HLq' : forall w ks, LF st2 q [] w ks <-> exists k, L st2 p2 [] k /\ R k w ks).
    { intros w ks. rewrite (LF_ext_iff O allowed T st1 st2 q) by (try assumption; eapply K_inr; eassumption).
      rewrite HLq. split; intros (k & H3 & H4); exists k; split; auto;
        eapply (L_ext_iff O allowed T st1 st2); try eassumption; eapply K_inr; eassumption. }
    clear HLq. up. destruct Hi as (_ & _ & Hi & HKi & HLi). split; [apply HKi; assumption|].
    split; [eapply nth_inr; eassumption|]. split; [exact Hi|].
    intros a w ks. rewrite (HLi j t0 m) by assumption. split.
    + intros (k' & ks' & -> & H3 & H4). apply HLq' in H4. destruct H4 as (k & H4 & H5).
      exists k', ks', k; repeat split; auto. apply (LF_after_inv _ _ _ _ _ _ _ _ Hp').
      exists k, []; repeat split; auto. apply LF_nil; exact H4.
    + intros (k' & ks' & k & -> & H3 & H4). apply (LF_after_inv _ _ _ _ _ _ _ _ Hp') in H3.
      destruct H3 as (k0 & ks0 & Ek & H3 & H5). injection Ek as <- <-.
      exists k', ks'; repeat split; auto. apply HLq'. exists k; split; [apply LF_nil in H5; exact H5 | exact H4].
Qed.

(** ** start tag *)
Definition OD (st : store) (id : pid) (nm : qname) (i : pid) : Prop :=
  inr_ st id /\ inr_ st i /\
  forall a w ks, LF st i a w ks <-> exists k ks', ks = k :: ks' /\ LF st id [] (Elm nm a w :: k) ks'.
Lemma OD_ext st st' id nm i : G st -> ext st st' -> OD st id nm i -> OD st' id nm i.
Proof.
  intros HG E (Hid & Hi & H). do 2 (split; [eapply ext_inr; eassumption|]).
  intros a w ks. rewrite (LF_ext_iff O allowed T st st' i) by assumption. rewrite H.
  split; intros (k & ks' & E1 & H1); exists k, ks';
    rewrite (LF_ext_iff O allowed T st st' id) in * by assumption; auto.
Qed.
Ltac up ::= cbn beta in *;
  match goal with
  | E : ext ?s ?s', HG : Lang.G _ _ _ ?s |- _ =>
    repeat match goal with
    | H : nth_error (pats s) _ = Some _ |- _ => apply (ext_nth _ _ _ _ E) in H
    | H : inr_ s _ |- _ => apply (ext_inr _ _ _ E) in H
    | H : Lang.KM _ _ s _ _ _ _ _ |- _ => apply (K_ext _ _ _ _ _ _ _ _ E) in H
    | H : AA s _ _ _ |- _ => apply (AA_ext _ _ _ _ _ HG E) in H
    | H : OD s _ _ _ |- _ => apply (OD_ext _ _ _ _ _ HG E) in H
    | H : TextProof.TD _ _ s _ _ _ |- _ => apply (TD_ext _ _ _ _ _ _ _ HG E) in H
    | H : TextProof.Choice _ _ s _ _ _ |- _ => apply (Choice_ext _ _ _ _ _ _ _ _ HG E) in H
    | H : TextProof.Group _ _ s _ _ _ |- _ => apply (Group_ext _ _ _ _ _ _ _ _ HG E) in H
    | H : TextProof.Inter _ _ s _ _ _ |- _ => apply (Inter_ext _ _ _ _ _ _ _ _ HG E) in H
    | H : TextProof.After _ _ s _ _ _ |- _ => apply (After_ext _ _ _ _ _ _ _ _ HG E) in H
    | H : ext ?b s |- _ => apply (fun x => ext_trans _ _ _ x E) in H
    end; clear HG E
  end.

(** specifications of the continuations passed to apply_after *)
Lemma F_group base j t r : G base -> K base j t [] r ->
  Fspec base j t t [] (fun q => group q r) (fun k k' ks' => ks' = [] /\ exists w2, k' = k ++ w2 /\ L base r [] w2).
Proof.
  intros HGb HKr q st E HG HKq.
  assert (Hr : inr_ st r) by (eapply ext_inr; [exact E | eapply K_inr; exact HKr]).
  assert (HL : forall st' a w, ext base st' -> (L st' r a w <-> L base r a w)).
  { intros; apply (L_ext_iff O allowed T base); auto; eapply K_inr; exact HKr. }
  pose proof (K_ext _ _ _ _ _ _ _ _ E HKr) as HKr'.
  eapply wp_mono; [apply wpg; [assumption | assumption | eapply K_inr; exact HKq | exact Hr]|].
  intros i st' E' HG' Hi. up. destruct Hi as (_ & _ & Hi & HKi & HLi).
  assert (HKi' : K st' j t [] i) by (apply HKi; assumption).
  split; [exact HKi'|]. intros w ks. rewrite (@K_LF_nil O allowed true st' j t i) by exact HKi'. rewrite HLi. split.
  - intros [-> (a1 & a2 & w1 & w2 & -> & Hm & H1 & H2)]. apply merge_nil_inv in Hm; destruct Hm as [-> ->].
    exists w1; split; [exact H1|]. split; [reflexivity|]. exists w2; split; [reflexivity | apply (HL st'); assumption].
  - intros (k & H1 & -> & w2 & -> & H2). split; [reflexivity|].
    exists [], [], k, w2; repeat split; auto; [constructor | apply (HL st'); assumption].
Qed.
Lemma F_inter_l base j tl t r : G base -> K base j t [] r -> tle tl t ->
  (t = TA -> tl = TN /\ K base j TN [] r \/ tl = TE \/ K base j TE [] r) ->
  Fspec base j tl t [] (fun q => interleave q r) (fun k k' ks' => ks' = [] /\ exists w2, merge k w2 k' /\ L base r [] w2).
Proof.
  intros HGb HKr Ht Hc q st E HG HKq.
  assert (Hr : inr_ st r) by (eapply ext_inr; [exact E | eapply K_inr; exact HKr]).
  assert (HL : forall st' a w, ext base st' -> (L st' r a w <-> L base r a w)).
  { intros; apply (L_ext_iff O allowed T base); auto; eapply K_inr; exact HKr. }
  pose proof (K_ext _ _ _ _ _ _ _ _ E HKr) as HKr'.
  eapply wp_mono; [apply wpi; [assumption | assumption | eapply K_inr; exact HKq | exact Hr]|].
  intros i st' E' HG' Hi. up. destruct Hi as (_ & _ & Hi & HKi & HLi).
  assert (HKi' : K st' j t [] i).
  { apply HKi; [eapply K_mono; [apply le_n | exact Ht | exact HKq] | assumption |].
    intros Et; destruct (Hc Et) as [[-> H]|[-> |H]].
    - left; split; [assumption | eapply K_ext; eassumption].
    - right; left; assumption.
    - right; right; eapply K_ext; eassumption. }
  split; [exact HKi'|]. intros w ks. rewrite (@K_LF_nil O allowed true st' j t i) by exact HKi'. rewrite HLi. split.
  - intros [-> (a1 & a2 & w1 & w2 & Hw & Hm & H1 & H2)]. apply merge_nil_inv in Hm; destruct Hm as [-> ->].
    exists w1; split; [exact H1|]. split; [reflexivity|]. exists w2; split; [exact Hw | apply (HL st'); assumption].
  - intros (k & H1 & -> & w2 & Hw & H2). split; [reflexivity|].
    exists [], [], k, w2; repeat split; auto; [constructor | apply (HL st'); assumption].
Qed.
Lemma F_inter_r base j tr t l : G base -> K base j t [] l -> tle tr t ->
  (t = TA -> tr = TN /\ K base j TN [] l \/ tr = TE \/ K base j TE [] l) ->
  Fspec base j tr t [] (fun q => interleave l q) (fun k k' ks' => ks' = [] /\ exists w2, merge w2 k k' /\ L base l [] w2).
Proof.
  intros HGb HKr Ht Hc q st E HG HKq.
  assert (Hr : inr_ st l) by (eapply ext_inr; [exact E | eapply K_inr; exact HKr]).
  assert (HL : forall st' a w, ext base st' -> (L st' l a w <-> L base l a w)).
  { intros; apply (L_ext_iff O allowed T base); auto; eapply K_inr; exact HKr. }
  pose proof (K_ext _ _ _ _ _ _ _ _ E HKr) as HKr'.
  eapply wp_mono; [apply wpi; [assumption | assumption | exact Hr | eapply K_inr; exact HKq]|].
  intros i st' E' HG' Hi. up. destruct Hi as (_ & _ & Hi & HKi & HLi).
  assert (HKi' : K st' j t [] i).
  { apply HKi; [assumption | eapply K_mono; [apply le_n | exact Ht | exact HKq] |].
    intros Et; destruct (Hc Et) as [[-> H]|[-> |H]].
    - left; split; [eapply K_ext; eassumption | assumption].
    - right; right; assumption.
    - right; left; eapply K_ext; eassumption. }
  split; [exact HKi'|]. intros w ks. rewrite (@K_LF_nil O allowed true st' j t i) by exact HKi'. rewrite HLi. split.
  - intros [-> (a1 & a2 & w1 & w2 & Hw & Hm & H1 & H2)]. apply merge_nil_inv in Hm; destruct Hm as [-> ->].
    exists w2; split; [exact H2|]. split; [reflexivity|]. exists w1; split; [exact Hw | apply (HL st'); assumption].
  - intros (k & H1 & -> & w2 & Hw & H2). split; [reflexivity|].
    exists [], [], w2, k; repeat split; auto; [constructor | apply (HL st'); assumption].
Qed.
Lemma F_after base j t t' ts' r : G base -> K base j t' ts' r ->
  Fspec base j t t (t' :: ts') (fun q => after q r)
    (fun k k' ks' => k' = k /\ exists k2 ks2, ks' = k2 :: ks2 /\ LF base r [] k2 ks2).
Proof.
  intros HGb HKr q st E HG HKq.
  assert (Hr : inr_ st r) by (eapply ext_inr; [exact E | eapply K_inr; exact HKr]).
  assert (HL : forall st' a w ks, ext base st' -> (LF st' r a w ks <-> LF base r a w ks)).
  { intros; apply (LF_ext_iff O allowed T base); auto; eapply K_inr; exact HKr. }
  pose proof (K_ext _ _ _ _ _ _ _ _ E HKr) as HKr'.
  eapply wp_mono; [apply wpa; [assumption | assumption | eapply K_inr; exact HKq | exact Hr]|].
  intros i st' E' HG' Hi. up. destruct Hi as (_ & _ & Hi & HKi & HLi).
  split; [apply HKi; assumption|]. intros w ks. rewrite (HLi j t true) by assumption. split.
  - intros (k & ks' & -> & H1 & H2). exists w; repeat split; auto. exists k, ks'; split; [reflexivity | apply (HL st'); assumption].
  - intros (k & H1 & -> & k2 & ks2 & -> & H2). exists k2, ks2; repeat split; auto. apply (HL st'); assumption.
Qed.
Lemma F_more base j t id p n : G base -> K base j t [] p -> nth_error (pats base) id = Some (POneOrMore p n) ->
  Fspec base j t t [] (fun q => let* o := one_or_more p in let* e := empty in let* c := choice o e in group q c)
    (fun k k' ks' => ks' = [] /\ exists w2, k' = k ++ w2 /\ (all_ws w2 = true \/ L base id [] w2)).
Proof.
  intros HGb HKp Hn q st E HG HKq.
  assert (Hp : inr_ st p) by (eapply ext_inr; [exact E | eapply K_inr; exact HKp]).
  assert (HL : forall st' a w, ext base st' -> (L st' id a w <-> L base id a w)).
  { intros; apply (L_ext_iff O allowed T base); auto; eapply nth_inr; exact Hn. }
  pose proof (K_ext _ _ _ _ _ _ _ _ E HKp) as HKp'. pose proof (ext_nth _ _ _ _ E Hn) as Hn'.
  eapply wp_bind; [apply wp_one_or_more; assumption|]. intros o st2 E2 HG2 Ho; up.
  eapply wp_bind; [apply wpe; assumption|]. intros e st3 E3 HG3 He.
  rewrite <- (ext_nul _ _ _ E3 Hp) in Ho. up.
  eapply wp_bind; [apply wpc; [assumption | assumption | eapply nth_inr; eassumption | eapply nth_inr; eassumption]|].
  intros c st4 E4 HG4 Hcc. rewrite <- (ext_nul _ _ _ E4 Hp) in Ho. up.
  pose proof (Star_intro _ _ _ _ _ _ _ Ho He Hcc) as HS.
  eapply wp_mono; [apply wpg; [assumption | assumption | eapply K_inr; exact HKq | apply HS]|]. intros i st5 E5 HG5 Hi.
  apply (Star_ext _ _ _ _ _ _ _ HG4 Hp E5) in HS; [|eauto]. up.
  destruct HS as (Hc & HKc & HLc). destruct Hi as (_ & _ & Hi & HKi & HLi).
  assert (HKi' : K st5 j t [] i) by (apply HKi; [assumption | apply HKc; assumption]).
  split; [exact HKi'|]. intros w ks. rewrite (@K_LF_nil O allowed true st5 j t i) by exact HKi'. rewrite HLi. split.
  - intros [-> (a1 & a2 & w1 & w2 & -> & Hm & H1 & H2)]. apply merge_nil_inv in Hm; destruct Hm as [-> ->].
    exists w1; split; [exact H1|]. split; [reflexivity|]. exists w2; split; [reflexivity|].
    apply (HLc id n _ _ Hn') in H2. destruct H2 as [H2|[_ H2]]; [right; apply (HL st5); assumption | left; exact H2].
  - intros (k & H1 & -> & w2 & -> & H2). split; [reflexivity|].
    exists [], [], k, w2; repeat split; auto; [constructor|]. apply (HLc id n _ _ Hn').
    destruct H2 as [H2|H2]; [right; auto | left; apply (HL st5); assumption].
Qed.

(** reading [LF] of an [AA] result over an [OD] result *)
Lemma AA_OD st id nm d R i : OD st id nm d -> AA st d R i -> forall a w ks,
  LF st i a w ks <-> exists k' ks' k, ks = k' :: ks' /\ L st id [] (Elm nm a w :: k) /\ R k k' ks'.
Proof.
  intros (_ & _ & HO) (_ & _ & HA) a w ks. rewrite HA. split.
  - intros (k' & ks' & k & -> & H1 & H2). exists k', ks', k; repeat split; auto.
    apply HO in H1. destruct H1 as (k0 & ks0 & Ek & H1). injection Ek as <- <-. apply LF_nil in H1; exact H1.
  - intros (k' & ks' & k & -> & H1 & H2). exists k', ks', k; repeat split; auto.
    apply HO. exists k, []; split; [reflexivity | apply LF_nil; exact H1].
Qed.
Lemma L_elm_head (st : store) nm a w k : forall w1 x v1 b v2, Elm nm a w :: k = w1 ++ Elm x v1 b :: v2 -> all_ws w1 = true ->
  w1 = [] /\ x = nm /\ v1 = a /\ b = w /\ v2 = k.
Proof.
  intros w1 x v1 b v2 E Hw. destruct w1 as [|y w1]; cbn in E; [injection E as <- <- <- <-; auto|].
  injection E as <- _. discriminate Hw.
Qed.

Theorem open_ok base nm t0 j t ts id : (forall nc, contains nc nm = true -> tle (T nc) t0) -> K base j t ts id -> forall st p, ext base st -> G st ->
  nth_error (pats st) id = Some p ->
  wp (fun m => start_tag_open_deriv m p nm) st
     (fun i st' => (exists j', KM st' false j' t0 (t :: ts) i) /\ OD st' id nm i).
Proof.
  intros HT0 HK. revert j t ts id HK.
  apply (K_ind' base (fun j t ts id => forall st p, ext base st -> G st -> nth_error (pats st) id = Some p ->
    wp (fun m => start_tag_open_deriv m p nm) st
     (fun i st' => (exists j', KM st' false j' t0 (t :: ts) i) /\ OD st' id nm i))).
  - (* choice *)
    intros j t ts id l r n Hn HKl IHl HKr IHr st p E HG Hp.
    pose proof (ext_nth _ _ _ _ E Hn) as Hp'; rewrite Hp' in Hp; injection Hp as <-.
    apply wp_S; cbn [start_tag_open_deriv].
    assert (Hl : inr_ st l) by (eapply ext_inr; [exact E | eapply K_inr; exact HKl]).
    assert (Hr : inr_ st r) by (eapply ext_inr; [exact E | eapply K_inr; exact HKr]).
    destruct (inr_nth _ _ Hl) as [pl Hpl]. destruct (inr_nth _ _ Hr) as [pr Hpr].
    eapply wp_pattb; [exact Hpl|]. eapply wp_pattb; [exact Hpr|].
    eapply wp_bind; [apply IHl; assumption|]. intros a st1 E1 HG1 [[ja HKa] HOa]; up.
    eapply wp_bind; [apply IHr; assumption|]. intros b st2 E2 HG2 [[jb HKb] HOb]; up.
    eapply wp_mono; [apply wpc; [assumption | assumption | apply HOa | apply HOb]|]. intros i st3 E3 HG3 Hi; up.
    destruct Hi as (_ & _ & Hi & _ & HKi & HLi). split.
    + exists (max ja jb). apply HKi; [eapply (Kj _ ja); [lia | exact HKa] | eapply (Kj _ jb); [lia | exact HKb]].
    + split; [eapply nth_inr; exact Hp'|]. split; [exact Hi|]. intros a0 w ks.
      destruct HOa as (_ & _ & HOa). destruct HOb as (_ & _ & HOb). rewrite HLi, HOa, HOb. split.
      * intros [(k & ks' & Ek & H)|(k & ks' & Ek & H)]; exists k, ks'; split; auto;
          apply (LF_choice_inv _ _ _ _ _ _ _ _ _ Hp'); auto.
      * intros (k & ks' & Ek & H). apply (LF_choice_inv _ _ _ _ _ _ _ _ _ Hp') in H.
        destruct H; [left | right]; exists k, ks'; auto.
  - (* notAllowed *)
    intros j t ts id Hn st p E HG Hp.
    pose proof (ext_nth _ _ _ _ E Hn) as Hp'; rewrite Hp' in Hp; injection Hp as <-.
    apply wp_S; cbn [start_tag_open_deriv].
    eapply wp_mono; [apply wpn; assumption|]. intros i st1 E1 HG1 Hi; up.
    split; [exists 0; eapply K_na; exact Hi|]. split; [eapply nth_inr; exact Hp'|]. split; [eapply nth_inr; exact Hi|].
    intros a w ks. rewrite (LF_na_inv _ _ _ _ _ _ Hi). split; [tauto|].
    intros (k & ks' & _ & H). apply (LF_na_inv _ _ _ _ _ _ Hp') in H; exact H.
  - (* after *)
    intros j t t' ts id p1 p2 Hn HKl IHl HKr st p E HG Hp.
    pose proof (ext_nth _ _ _ _ E Hn) as Hp'; rewrite Hp' in Hp; injection Hp as <-.
    apply wp_S; cbn [start_tag_open_deriv].
    assert (Hl : inr_ st p1) by (eapply ext_inr; [exact E | eapply K_inr; exact HKl]).
    pose proof (K_ext _ _ _ _ _ _ _ _ E HKr) as HKr'. clear HKr.
    destruct (inr_nth _ _ Hl) as [pl Hpl]. eapply wp_pattb; [exact Hpl|].
    eapply wp_bind; [apply IHl; assumption|]. intros d st1 E1 HG1 [[jd HKd] HOd]; up.
    destruct (inr_nth _ _ (K_inr _ _ _ _ _ _ _ HKd)) as [pd Hpd]. eapply wp_pattb; [exact Hpd|].
    eapply wp_mono; [eapply (apply_after_ok st1 (max j jd) t0 [t] d); [ | reflexivity | | apply ext_refl | exact HG1 | exact Hpd]|].
    + eapply Kj; [|exact HKd]; lia.
    + apply F_after; [exact HG1 | eapply Kj; [|exact HKr']; lia].
    + intros i st2 E2 HG2 [HKi HAi].
      assert (HL : forall a w ks, LF st2 p2 a w ks <-> LF st1 p2 a w ks).
      { intros; apply (LF_ext_iff O allowed T st1); auto; eapply K_inr; exact HKr'. }
      up. split; [eauto|]. split; [eapply nth_inr; exact Hp'|]. split; [apply HAi|].
      intros a w ks. rewrite (AA_OD _ _ _ _ _ _ HOd HAi). split.
      * intros (k' & ks' & k & -> & H1 & -> & k2 & ks2 & -> & H2). exists k, (k2 :: ks2); split; [reflexivity|].
        apply (LF_after_inv _ _ _ _ _ _ _ _ Hp'). exists k2, ks2; repeat split; auto. apply HL; exact H2.
      * intros (k & ks' & -> & H). apply (LF_after_inv _ _ _ _ _ _ _ _ Hp') in H.
        destruct H as (k2 & ks2 & -> & H1 & H2). exists k, (k2 :: ks2), k; repeat split; auto.
        exists k2, ks2; split; [reflexivity | apply HL; exact H2].
  - (* group *)
    intros j t id l r n Hn HKl IHl HKr IHr st p E HG Hp.
    pose proof (ext_nth _ _ _ _ E Hn) as Hp'; rewrite Hp' in Hp; injection Hp as <-.
    apply wp_S; cbn [start_tag_open_deriv].
    pose proof (K_ext _ _ _ _ _ _ _ _ E HKr) as HKr'. pose proof (K_ext _ _ _ _ _ _ _ _ E HKl) as HKl'. clear HKr HKl.
    destruct (inr_nth _ _ (K_inr _ _ _ _ _ _ _ HKl')) as [pl Hpl].
    destruct (inr_nth _ _ (K_inr _ _ _ _ _ _ _ HKr')) as [pr Hpr].
    eapply wp_pattb; [exact Hpl|]. eapply wp_pattb; [exact Hpr|].
    eapply wp_bind; [apply IHl; assumption|]. intros d st1 E1 HG1 [[jd HKd] HOd]; up.
    destruct (inr_nth _ _ (K_inr _ _ _ _ _ _ _ HKd)) as [pd Hpd]. eapply wp_pattb; [exact Hpd|].
    eapply wp_bind; [eapply (apply_after_ok st1 (max j jd) t0 [t] d); [ | reflexivity | | apply ext_refl | exact HG1 | exact Hpd]|].
    { eapply Kj; [|exact HKd]; lia. }
    { apply F_group; [exact HG1 | eapply Kj; [|exact HKr']; lia]. }
    intros x st2 E2 HG2 [HKx HAx].
    assert (HL : forall st3 a w, ext st2 st3 -> L st3 r a w <-> L st1 r a w).
    { intros; apply (L_ext_iff O allowed T st1); [assumption | eapply ext_trans; eassumption | eapply K_inr; exact HKr']. }
    up.
    destruct (is_nullable pl) eqn:Enul.
    + eapply wp_pattb; [exact Hpr|].
      eapply wp_bind; [apply IHr; assumption|]. intros b st3 E3 HG3 [[jb HKb] HOb]. pose proof E3 as E3'. up.
      eapply wp_mono; [apply wpc; [assumption | assumption | apply HAx | apply HOb]|]. intros i st4 E4 HG4 Hi.
      pose proof (ext_trans _ _ _ E3 E4) as E4'. up.
      destruct Hi as (_ & _ & Hi & _ & HKi & HLi). split.
      * exists (max (max j jd) jb). apply HKi; [eapply Kj; [|exact HKx]; lia | eapply Kj; [|exact HKb]; lia].
      * split; [eapply nth_inr; exact Hp'|]. split; [exact Hi|]. intros a w ks.
        destruct HOb as (_ & _ & HOb). rewrite HLi, (AA_OD _ _ _ _ _ _ HOd HAx), HOb. split.
        -- intros [(k' & ks' & k & -> & H1 & -> & w2 & -> & H2)|(k & ks' & -> & H)].
           ++ exists (k ++ w2), []; split; [reflexivity|]. apply LF_base. apply (L_group_inv _ _ _ _ _ _ _ _ Hp').
              exists [], [], (Elm nm a w :: k), w2; repeat split; auto; [constructor | apply (HL st4 _ _ E4'); exact H2].
           ++ apply (@K_LF_nil O allowed true st4 j t) in H; [|assumption]. destruct H as [-> H].
              exists k, []; split; [reflexivity|]. apply LF_base. apply (L_group_inv _ _ _ _ _ _ _ _ Hp').
              exists [], [], [], (Elm nm a w :: k); repeat split; auto; [constructor|].
              apply (K_nul O allowed st4 j t [] l HKl' eq_refl). rewrite (nul_at _ _ _ Hpl); exact Enul.
        -- intros (k & ks' & -> & H).
           assert (HKid : exists n', nth_error (pats st4) id = Some (PGroup l r n')) by eauto.
           inversion H; subst; try congruence.
           match goal with HH : Lang.L _ _ id _ _ |- _ => apply (L_group_inv _ _ _ _ _ _ _ _ Hp') in HH; 
             destruct HH as (a1 & a2 & w1 & w2 & Ew & Hm & H1 & H2) end.
           apply merge_nil_inv in Hm; destruct Hm as [-> ->]. destruct w1 as [|y w1]; cbn in Ew.
           ++ right. subst w2. exists k, []; split; [reflexivity | apply LF_base; exact H2].
           ++ left. injection Ew as <- ->. exists (w1 ++ w2), [], w1; repeat split; auto.
              exists w2; split; [reflexivity | apply (HL st4 _ _ E4'); exact H2].
    + apply wp_ret; [assumption|]. split; [eauto|]. split; [eapply nth_inr; exact Hp'|]. split; [apply HAx|].
      intros a w ks. rewrite (AA_OD _ _ _ _ _ _ HOd HAx). split.
      * intros (k' & ks' & k & -> & H1 & -> & w2 & -> & H2).
        exists (k ++ w2), []; split; [reflexivity|]. apply LF_base. apply (L_group_inv _ _ _ _ _ _ _ _ Hp').
        exists [], [], (Elm nm a w :: k), w2; repeat split; auto; [constructor | apply (HL st2 _ _ (ext_refl _)); exact H2].
      * intros (k & ks' & -> & H). inversion H; subst; try congruence.
        match goal with HH : Lang.L _ _ id _ _ |- _ => apply (L_group_inv _ _ _ _ _ _ _ _ Hp') in HH; 
             destruct HH as (a1 & a2 & w1 & w2 & Ew & Hm & H1 & H2) end.
        apply merge_nil_inv in Hm; destruct Hm as [-> ->]. destruct w1 as [|y w1]; cbn in Ew.
        -- exfalso. apply (K_nul O allowed st2 j t [] l HKl' eq_refl) in H1. rewrite (nul_at _ _ _ Hpl) in H1; congruence.
        -- injection Ew as <- ->. exists (w1 ++ w2), [], w1; repeat split; auto.
           exists w2; split; [reflexivity | apply (HL st2 _ _ (ext_refl _)); exact H2].
  - (* interleave *)
    intros j t id l r n tl tr Hn HKl0 HKr0 HKl IHl HKr IHr Htl Htr Hc st p E HG Hp.
    pose proof (ext_nth _ _ _ _ E Hn) as Hp'; rewrite Hp' in Hp; injection Hp as <-.
    apply wp_S; cbn [start_tag_open_deriv].
    apply (K_ext _ _ _ _ _ _ _ _ E) in HKl, HKr, HKl0, HKr0.
    destruct (inr_nth _ _ (K_inr _ _ _ _ _ _ _ HKl)) as [pl Hpl].
    destruct (inr_nth _ _ (K_inr _ _ _ _ _ _ _ HKr)) as [pr Hpr].
    eapply wp_pattb; [exact Hpl|]. eapply wp_pattb; [exact Hpr|].
    eapply wp_bind; [apply IHl; assumption|]. intros d st1 E1 HG1 [[jd HKd] HOd]; up.
    destruct (inr_nth _ _ (K_inr _ _ _ _ _ _ _ HKd)) as [pd Hpd]. eapply wp_pattb; [exact Hpd|].
    eapply wp_bind; [eapply (apply_after_ok st1 (max j jd) t0 [tl] d); [ | reflexivity | | apply ext_refl | exact HG1 | exact Hpd]|].
    { eapply Kj; [|exact HKd]; lia. }
    { apply (F_inter_l st1 _ tl t r); [exact HG1 | eapply Kj; [|exact HKr0]; lia | exact Htl |].
      intros Et; destruct (Hc Et) as [[-> ->]|[->| ->]]; auto.
      - left; split; [reflexivity | eapply Kj; [|exact HKr]; lia].
      - right; right; eapply Kj; [|exact HKr]; lia. }
    intros x st2 E2 HG2 [HKx HAx].
    assert (HLr : forall st3 a w, ext st2 st3 -> L st3 r a w <-> L st1 r a w).
    { intros; apply (L_ext_iff O allowed T st1); [assumption | eapply ext_trans; eassumption | eapply K_inr; exact HKr]. }
    up.
    eapply wp_bind; [apply IHr; assumption|]. intros d2 st3 E3 HG3 [[jd2 HKd2] HOd2].
    assert (HLr' : forall st4 a w, ext st3 st4 -> L st4 r a w <-> L st1 r a w).
    { intros; apply HLr; eapply ext_trans; eassumption. }
    clear HLr. up.
    destruct (inr_nth _ _ (K_inr _ _ _ _ _ _ _ HKd2)) as [pd2 Hpd2]. eapply wp_pattb; [exact Hpd2|].
    eapply wp_bind; [eapply (apply_after_ok st3 (max j jd2) t0 [tr] d2); [ | reflexivity | | apply ext_refl | exact HG3 | exact Hpd2]|].
    { eapply Kj; [|exact HKd2]; lia. }
    { apply (F_inter_r st3 _ tr t l); [exact HG3 | eapply Kj; [|exact HKl0]; lia | exact Htr |].
      intros Et; destruct (Hc Et) as [[-> ->]|[->| ->]]; auto.
      - left; split; [reflexivity | eapply Kj; [|exact HKl]; lia].
      - right; right; eapply Kj; [|exact HKl]; lia. }
    intros x2 st4 E4 HG4 [HKx2 HAx2].
    assert (HLl : forall st5 a w, ext st4 st5 -> L st5 l a w <-> L st3 l a w).
    { intros; apply (L_ext_iff O allowed T st3); [assumption | eapply ext_trans; eassumption | eapply K_inr; exact HKl]. }
    assert (HLr : forall st5 a w, ext st4 st5 -> L st5 r a w <-> L st1 r a w).
    { intros; apply HLr'; eapply ext_trans; eassumption. }
    clear HLr'. up.
    eapply wp_mono; [apply wpc; [assumption | assumption | apply HAx | apply HAx2]|]. intros i st5 E5 HG5 Hi.
    specialize (HLl st5). specialize (HLr st5). pose proof E5 as E5'. up.
    destruct Hi as (_ & _ & Hi & _ & HKi & HLi). split.
    { exists (max (max j jd) (max j jd2)). apply HKi; [eapply Kj; [|exact HKx]; lia | eapply Kj; [|exact HKx2]; lia]. }
    split; [eapply nth_inr; exact Hp'|]. split; [exact Hi|]. intros a w ks.
    rewrite HLi, (AA_OD _ _ _ _ _ _ HOd HAx), (AA_OD _ _ _ _ _ _ HOd2 HAx2). split.
    + intros [(k' & ks' & k & -> & H1 & -> & w2 & Hw & H2)|(k' & ks' & k & -> & H1 & -> & w2 & Hw & H2)];
        exists k', []; (split; [reflexivity|]); apply LF_base; apply (L_interleave_inv _ _ _ _ _ _ _ _ Hp').
      * exists [], [], (Elm nm a w :: k), w2; repeat split; auto; [constructor; exact Hw | constructor | apply HLr; assumption].
      * exists [], [], w2, (Elm nm a w :: k); repeat split; auto; [constructor; exact Hw | constructor | apply HLl; assumption].
    + intros (k & ks' & -> & H). inversion H; subst; try congruence.
      match goal with HH : Lang.L _ _ id _ _ |- _ => apply (L_interleave_inv _ _ _ _ _ _ _ _ Hp') in HH; 
             destruct HH as (a1 & a2 & w1 & w2 & Hw & Hm & H1 & H2) end.
      apply merge_nil_inv in Hm; destruct Hm as [-> ->].
      apply merge_cons_inv in Hw. destruct Hw as [(w1' & -> & Hw)|(w2' & -> & Hw)].
      * left. exists k, [], w1'; repeat split; auto. exists w2; split; [exact Hw | apply HLr; assumption].
      * right. exists k, [], w2'; repeat split; auto. exists w1; split; [exact Hw | apply HLl; assumption].
  - (* one or more *)
    intros j t id p0 n Hn HKp IHp st p E HG Hp.
    pose proof (ext_nth _ _ _ _ E Hn) as Hp'; rewrite Hp' in Hp; injection Hp as <-.
    apply wp_S; cbn [start_tag_open_deriv]. apply (K_ext _ _ _ _ _ _ _ _ E) in HKp.
    destruct (inr_nth _ _ (K_inr _ _ _ _ _ _ _ HKp)) as [pl Hpl]. eapply wp_pattb; [exact Hpl|].
    eapply wp_bind; [apply IHp; assumption|]. intros d st1 E1 HG1 [[jd HKd] HOd]; up.
    destruct (inr_nth _ _ (K_inr _ _ _ _ _ _ _ HKd)) as [pd Hpd]. eapply wp_pattb; [exact Hpd|].
    eapply wp_mono; [eapply (apply_after_ok st1 (max j jd) t0 [t] d); [ | reflexivity | | apply ext_refl | exact HG1 | exact Hpd]|].
    { eapply Kj; [|exact HKd]; lia. }
    { apply (F_more st1 _ t id p0 n); [exact HG1 | eapply Kj; [|exact HKp]; lia | exact Hp']. }
    intros i st2 E2 HG2 [HKi HAi].
    assert (HL : forall a w, L st2 id a w <-> L st1 id a w).
    { intros; apply (L_ext_iff O allowed T st1); [assumption | assumption | eapply nth_inr; exact Hp']. }
    up. split; [eauto|]. split; [eapply nth_inr; exact Hp'|]. split; [apply HAi|].
    intros a w ks. rewrite (AA_OD _ _ _ _ _ _ HOd HAi). split.
    + intros (k' & ks' & k & -> & H1 & -> & w2 & -> & H2). exists (k ++ w2), []; split; [reflexivity|].
      apply LF_base. apply (L_more_cons_inv _ _ _ _ _ _ _ Hp'). exists k, w2; repeat split; auto.
      destruct H2 as [H2|H2]; [left; exact H2 | right; apply HL; exact H2].
    + intros (k & ks' & -> & H). inversion H; subst; try congruence.
      match goal with HH : Lang.L _ _ id _ _ |- _ => apply (L_more_cons_inv _ _ _ _ _ _ _ Hp') in HH; 
             destruct HH as (w1 & w2 & -> & H1 & H2) end.
      exists (w1 ++ w2), [], w1; repeat split; auto. exists w2; split; [reflexivity|].
      destruct H2 as [H2|H2]; [left; exact H2 | right; apply HL; exact H2].
  - (* leaves *)
    intros j t id p0 Hn Hleaf st p E HG Hp.
    pose proof (ext_nth _ _ _ _ E Hn) as Hp'; rewrite Hp' in Hp; injection Hp as <-.
    apply wp_S.
    assert (Eq : (fun m => start_tag_open_deriv (S m) p0 nm) = (fun _ => not_allowed)).
    { destruct p0; try contradiction; reflexivity. }
    rewrite Eq. eapply wp_mono; [apply wpn; assumption|]. intros i st1 E1 HG1 Hi; up.
    split; [exists 0; eapply K_na; exact Hi|]. split; [eapply nth_inr; exact Hp'|]. split; [eapply nth_inr; exact Hi|].
    intros a w ks. rewrite (LF_na_inv _ _ _ _ _ _ Hi). split; [tauto|].
    intros (k & ks' & _ & H). assert (H' : L st1 id [] (Elm nm a w :: k)) by (destruct p0; try contradiction; inversion H; subst; try congruence; assumption).
    clear H. destruct p0; try contradiction.
    + apply (L_empty_inv _ _ _ _ _ Hp') in H'. cbn in H'; destruct H'; discriminate.
    + apply (L_text_inv _ _ _ _ _ Hp') in H'. cbn in H'; destruct H'; discriminate.
    + apply (L_attr_inv _ _ _ _ _ _ _ Hp') in H'. destruct H' as (x & Ex & _); discriminate.
    + apply (L_data_inv _ _ _ _ _ _ Hp') in H'. destruct H' as (_ & s & w1 & w2 & Ew & _ & Hw & _).
      destruct w1 as [|y w1]; cbn in Ew; [discriminate|]. injection Ew as <- _; discriminate Hw.
    + apply (L_value_inv _ _ _ _ _ _ Hp') in H'. destruct H' as (_ & s & w1 & w2 & Ew & _ & Hw & _).
      destruct w1 as [|y w1]; cbn in Ew; [discriminate|]. injection Ew as <- _; discriminate Hw.
    + apply (L_except_inv _ _ _ _ _ _ _ Hp') in H'. destruct H' as (_ & s & w1 & w2 & Ew & _ & _ & Hw & _).
      destruct w1 as [|y w1]; cbn in Ew; [discriminate|]. injection Ew as <- _; discriminate Hw.
    + apply (L_list_inv _ _ _ _ _ _ Hp') in H'. destruct H' as (_ & ss & Ew & _). destruct ss; discriminate.
  - (* element *)
    intros j t id nc p0 Hn st p E HG Hp.
    pose proof (ext_nth _ _ _ _ E Hn) as Hp'; rewrite Hp' in Hp; injection Hp as <-.
    apply wp_S; cbn [start_tag_open_deriv].
    destruct (contains nc nm) eqn:Ec.
    + destruct (G_elem _ _ _ _ HG _ _ _ Hp') as [j' HKp]. apply (Wp.K_mono O allowed st j' j' (T nc) t0 _ _ (le_n _) (HT0 nc Ec)) in HKp.
      eapply wp_bind; [apply wpe; assumption|]. intros e st1 E1 HG1 He; up.
      eapply wp_mono; [apply wpa; [assumption | assumption | eapply K_inr; exact HKp | eapply nth_inr; exact He]|].
      intros i st2 E2 HG2 Hi; up. destruct Hi as (_ & _ & Hi & HKi & HLi). split.
      * exists j'. apply HKi; [exact HKp | eapply K_empty; exact He].
      * split; [eapply nth_inr; exact Hp'|]. split; [exact Hi|]. intros a w ks. rewrite (HLi j' t0 false) by exact HKp. split.
        -- intros (k & ks' & -> & H1 & H2).
           assert (HKe : K st2 0 TE [] e) by (eapply K_empty; exact He).
           apply (K_LF_nil O allowed st2 _ _ _ _ _ _ HKe) in H2. destruct H2 as [-> H2].
           apply (L_empty_inv _ _ _ _ _ He) in H2. exists k, []; split; [reflexivity|]. apply LF_base.
           apply (L_element_inv _ _ _ _ _ _ _ Hp'). split; [reflexivity|]. exists nm, a, w, [], k; tauto.
        -- intros (k & ks' & -> & H). inversion H; subst; try congruence.
           match goal with HH : Lang.L _ _ id _ _ |- _ => apply (L_element_inv _ _ _ _ _ _ _ Hp') in HH; 
             destruct HH as (_ & nm' & b & k' & w1 & w2 & Ew & Hcc & H1 & Hw1 & Hw2) end.
           destruct (L_elm_head st2 _ _ _ _ _ _ _ _ _ Ew Hw1) as (-> & -> & -> & -> & ->).
           exists k, []; repeat split; auto. apply LF_base, L_empty; assumption.
    + eapply wp_mono; [apply wpn; assumption|]. intros i st1 E1 HG1 Hi; up.
      split; [exists 0; eapply K_na; exact Hi|]. split; [eapply nth_inr; exact Hp'|]. split; [eapply nth_inr; exact Hi|].
      intros a w ks. rewrite (LF_na_inv _ _ _ _ _ _ Hi). split; [tauto|].
      intros (k & ks' & _ & H). inversion H; subst; try congruence.
      match goal with HH : Lang.L _ _ id _ _ |- _ => apply (L_element_inv _ _ _ _ _ _ _ Hp') in HH; 
             destruct HH as (_ & nm' & b & k' & w1 & w2 & Ew & Hcc & H1 & Hw1 & Hw2) end.
      destruct (L_elm_head st1 _ _ _ _ _ _ _ _ _ Ew Hw1) as (-> & -> & -> & -> & ->). congruence.
Qed.
End Tag.
