(** * CompactRead: the compact parser reads every text described in CompactText.v. *)
From Coq Require Import String.
From Verif Require Import Base Datatype Syntax CompactParse CompactText CompactTotal CompactLex.
#[local] Existing Instance strict_mode.

Ltac lens :=
  rewrite ?app_length in *;
  repeat match goal with
  | H : context [List.length (lit ?x)] |- _ => let v := eval compute in (List.length (lit x)) in change (List.length (lit x)) with v in H
  | |- context [List.length (lit ?x)] => let v := eval compute in (List.length (lit x)) in change (List.length (lit x)) with v
  end; cbn [List.length] in *; lia.
Ltac flat := rewrite <- ?app_assoc.
(** run the next parser of a sequence *)
Ltac ok H := erewrite bind_ok; [|H].
Ltac fstr := apply F_str; [assumption | exact eq_refl].

(** ** White space separated sequences *)
Section Sequences.
Context {A : Type} (X : A -> str -> Prop) (p : parser A) (F : str -> Prop) (B : nat) (P : N -> bool).
Hypothesis HP : forall c, P c = true -> gapc c = false.
Hypothesis Hitem : forall x s r, X x s -> F r -> List.length (s ++ r) < B -> p (s ++ r) = POk x r.
Hypothesis Hst : forall x s, X x s -> starts P s.
Hypothesis Hnext : forall g y s t, Gap1 g -> X y s -> F (g ++ s ++ t).

Definition Ends (r : str) : Prop := sc1 r = PErr \/ exists t, sc1 r = POk tt t /\ p t = PErr.
Lemma Ends_gap g t : Gap g -> nohd gapc t -> p t = PErr -> Ends (g ++ t).
Proof.
  intros Hg Ht Hp. destruct g as [|c g]; [left; apply sc1_stop; exact Ht|]. right. exists t. split; [|exact Hp].
  apply sc1_gap; [split; [exact Hg | discriminate] | exact Ht].
Qed.
Lemma Seq_starts l s : Seq X l s -> l <> [] -> starts P s.
Proof. intros [|x s' H|x s' g l' t H _ _ _] Hl; [congruence | eapply Hst; exact H | apply starts_app; eapply Hst; exact H]. Qed.
Lemma seq_tail l s : Seq X l s -> l <> [] -> forall g n r, Gap1 g -> F r -> Ends r -> List.length (g ++ s ++ r) < n ->
  List.length (s ++ r) < B -> sep_loop n sc1 p (g ++ s ++ r) = POk l r.
Proof.
  induction 1 as [|x s Hx|x s h l t Hx Hh Hl' Hs IH]; intros Hl g n r Hg Hf He Hn HB; [congruence | |].
  - destruct n as [|n]; [lia|]. cbn [sep_loop]. pose proof (Hst _ _ Hx) as Hxs. pose proof (starts_len _ _ Hxs).
    rewrite sc1_gap; [|exact Hg | eapply starts_nohd; [exact Hxs | exact HP]]. rewrite (Hitem _ _ _ Hx) by assumption.
    destruct (Nat.eqb_spec (List.length r) (List.length (g ++ s ++ r))) as [E|_]; [lens|]. destruct n as [|n]; [lens|]. cbn [sep_loop].
    destruct He as [-> | (t & -> & ->)]; reflexivity.
  - destruct n as [|n]; [lia|]. revert Hn HB. rewrite <- !app_assoc. intros Hn HB. cbn [sep_loop].
    pose proof (Hst _ _ Hx) as Hxs. pose proof (starts_len _ _ Hxs).
    rewrite sc1_gap; [|exact Hg | eapply starts_nohd; [exact Hxs | exact HP]].
    destruct (Seq_starts _ _ Hs Hl') as (c & u & Et & Hc).
    assert (Hfn : F (h ++ t ++ r)).
    { destruct Hs as [|y sy Hy|y sy gy ly ty Hy _ _ _]; [congruence | apply Hnext with (y := y); assumption | rewrite <- !app_assoc; apply Hnext with (y := y); assumption]. }
    rewrite (Hitem _ _ _ Hx) by assumption.
    destruct (Nat.eqb_spec (List.length (h ++ t ++ r)) (List.length (g ++ s ++ h ++ t ++ r))) as [E|_]; [lens|].
    rewrite IH; [reflexivity | assumption.. | lens | lens].
Qed.
Lemma seq_first l s r : Seq X l s -> l <> [] -> F r -> Ends r -> List.length (s ++ r) < B ->
  exists x l' r', l = x :: l' /\ p (s ++ r) = POk x r' /\ sep_loop (S (List.length r')) sc1 p r' = POk l' r.
Proof.
  intros [|x s' Hx|x s' h l' t Hx Hh Hl' Hs] Hl Hf He HB; [congruence | |].
  - exists x, [], r. split; [reflexivity|]. split; [apply Hitem; assumption|]. cbn [sep_loop]. destruct He as [-> | (t & -> & ->)]; reflexivity.
  - exists x, l', (h ++ t ++ r). split; [reflexivity|]. revert HB. rewrite <- !app_assoc. intros HB. split.
    + apply Hitem; [exact Hx | | exact HB].
      destruct Hs as [|y sy Hy|y sy gy ly ty Hy _ _ _]; [congruence | apply Hnext with (y := y); assumption | rewrite <- !app_assoc; apply Hnext with (y := y); assumption].
    + apply seq_tail; try assumption; lens.
Qed.
Lemma seq_sep1 l s r : Seq X l s -> l <> [] -> F r -> Ends r -> List.length (s ++ r) < B -> psep1 sc1 p (s ++ r) = POk l r.
Proof.
  intros H1 H2 H3 H4 H5. destruct (seq_first l s r H1 H2 H3 H4 H5) as (x & l' & r' & -> & E1 & E2). unfold psep1.
  rewrite (bind_ok _ _ _ _ _ E1). erewrite bind_ok; [|exact E2]. reflexivity.
Qed.
Lemma seq_sep0 l s r : Seq X l s -> l <> [] -> F r -> Ends r -> List.length (s ++ r) < B -> psep0 sc1 p (s ++ r) = POk l r.
Proof.
  intros H1 H2 H3 H4 H5. destruct (seq_first l s r H1 H2 H3 H4 H5) as (x & l' & r' & -> & E1 & E2). unfold psep0. rewrite E1, E2. reflexivity.
Qed.
Lemma block0 {C} l s g t (K : list A -> parser C) : Seq X l s -> (l = [] -> g = []) -> Gap g -> nohd gapc t -> p t = PErr ->
  (l <> [] -> F (g ++ t)) -> List.length (s ++ g ++ t) < B ->
  pbind (psep0 sc1 p) (fun l => pbind sc0 (fun _ => K l)) (s ++ g ++ t) = K l t.
Proof.
  intros Hs H0 Hg Ht Hp Hf HB. destruct l as [|x l].
  - inversion Hs; subst. rewrite (H0 eq_refl). cbn [app]. erewrite bind_ok; [|unfold psep0; rewrite Hp; reflexivity].
    erewrite bind_ok; [|apply sc0_nil; exact Ht]. reflexivity.
  - erewrite bind_ok; [|eapply (seq_sep0 (x :: l)); [exact Hs | discriminate | apply Hf; discriminate | apply Ends_gap; assumption | exact HB]].
    erewrite bind_ok; [|apply sc0_gap; assumption]. reflexivity.
Qed.
Lemma block {C} l s g0 g t (K : list A -> parser C) : Gap g0 -> Seq X l s -> Gap g -> nohd gapc t -> p t = PErr ->
  (l <> [] -> F (g ++ t)) -> List.length (s ++ g ++ t) < B ->
  pbind sc0 (fun _ => pbind (psep0 sc1 p) (fun l => pbind sc0 (fun _ => K l))) (g0 ++ s ++ g ++ t) = K l t.
Proof.
  intros Hg0 Hs Hg Ht Hp Hf HB. destruct l as [|x l].
  - inversion Hs; subst. cbn [app]. rewrite app_assoc. erewrite bind_ok; [|apply sc0_gap; [apply gap_app; assumption | exact Ht]].
    erewrite bind_ok; [|unfold psep0; rewrite Hp; reflexivity]. erewrite bind_ok; [|apply sc0_nil; exact Ht]. reflexivity.
  - erewrite bind_ok; [|apply sc0_gap; [exact Hg0 | eapply starts_nohd; [eapply Seq_starts; [exact Hs | discriminate] | exact HP]]].
    apply block0; try assumption. discriminate.
Qed.
End Sequences.

(** ** Annotations *)
Definition LitF (r : str) : Prop := Follow (lit "~") r /\ nohd quotec r.
Lemma AnnAttr_starts a s : AnnAttr a s -> starts idstart s.
Proof. intros [n s' g1 g2 l t Hn _ _ _]. apply starts_app. eapply Name_starts; exact Hn. Qed.
Lemma LitF_next (P : N -> bool) g s t : Gap1 g -> starts P s -> (forall c, P c = true -> gapc c = false /\ among (lit "~") c = false) -> LitF (g ++ s ++ t).
Proof.
  intros Hg Hs HP. split; [eapply F_starts; eassumption|]. destruct Hg as [Hg Hn]. destruct (gap_head _ Hg Hn) as (c & u & -> & Hc).
  cbn. destruct (quotec c) eqn:E; [|reflexivity]. apply quotec_gapc in E. congruence.
Qed.
Lemma LitF_str g k t : Gap g -> ok_head (lit "~" ++ [34; 39]%N) k = true -> LitF (g ++ k ++ t).
Proof.
  intros Hg Hk. split; [eapply F_weaken; [|apply F_str; [exact Hg | exact Hk]]; intros x Hx; apply in_or_app; left; exact Hx|].
  apply gap_noquote; [exact Hg|]. destruct k as [|c k]; [discriminate|]. cbn in Hk |- *.
  apply andb_prop in Hk as [Hk _]. apply andb_prop in Hk as [_ Hk]. apply negb_true_iff in Hk.
  destruct (quotec c) eqn:E; [|reflexivity]. unfold quotec in E. rewrite orb_true_iff, !N.eqb_eq in E. destruct E as [-> | ->]; discriminate Hk.
Qed.
Lemma LitF_end g : Gap g -> LitF g.
Proof. intros Hg. split; [apply F_end; exact Hg|]. rewrite <- (app_nil_r g). apply gap_noquote; [exact Hg | exact I]. Qed.
Lemma lit_ok l s r : Lit l s -> LitF r -> p_literal (s ++ r) = POk l r.
Proof. intros H [H1 H2]. apply literal_ok; assumption. Qed.
Lemma idstart_tilde c : idstart c = true -> gapc c = false /\ among (lit "~") c = false.
Proof.
  intros H. split; [apply idstart_gapc; exact H|]. unfold idstart in H. apply orb_prop in H as [H | H].
  - apply nc_char_among; [apply start_is_char; exact H | reflexivity].
  - apply N.eqb_eq in H. subst. reflexivity.
Qed.
Lemma attr_ok a s r : AnnAttr a s -> LitF r -> annotation_attribute (s ++ r) = POk a r.
Proof.
  intros [n t g1 g2 l u Hn G1 G2 Hl] Hr. flat. unfold annotation_attribute.
  pose proof (F_str [58%N] g1 (lit "=") (g2 ++ u ++ r) G1 eq_refl) as Hf.
  erewrite bind_ok; [|apply name_ok; [exact Hn | eapply F_nc; exact Hf | eapply F_hd; [exact Hf | left; reflexivity | reflexivity]]].
  erewrite bind_ok; [|apply sc0_gap; [exact G1 | exact eq_refl]]. erewrite bind_ok; [|apply ptag_app].
  erewrite bind_ok; [|apply sc0_gap; [exact G2 | eapply starts_nohd; [eapply Lit_starts; exact Hl | apply quotec_gapc]]].
  erewrite bind_ok; [|apply lit_ok; eassumption]. reflexivity.
Qed.
Lemma attr_no r : nohd idstart r -> annotation_attribute r = PErr.
Proof. intros H. apply nogap_nostart in H as [H1 H2]. unfold annotation_attribute. apply bind_err, name_no; assumption. Qed.
Lemma AnnElem_starts a s : AnnElem a s -> starts idstart s.
Proof. intros [n s' ? ? ? ? ? ? ? ? Hn]. apply starts_app. eapply Name_starts; exact Hn. Qed.
Lemma attr_no_elem a s r : AnnElem a s -> annotation_attribute (s ++ r) = PErr.
Proof.
  intros [n t g1 g2 atts t1 g3 kids t2 g4 Hn G1 _ _ _ _ _ _]. flat. unfold annotation_attribute.
  pose proof (F_str [58%N] g1 (lit "[") (g2 ++ t1 ++ g3 ++ t2 ++ g4 ++ lit "]" ++ r) G1 eq_refl) as Hf.
  erewrite bind_ok; [|apply name_ok; [exact Hn | eapply F_nc; exact Hf | eapply F_hd; [exact Hf | left; reflexivity | reflexivity]]].
  erewrite bind_ok; [|apply sc0_gap; [exact G1 | exact eq_refl]]. apply bind_err. reflexivity.
Qed.
Definition kidstart (c : N) : bool := idstart c || quotec c.
Lemma AnnKid_starts a s : AnnKid a s -> starts kidstart s.
Proof.
  intros [a' s' H | l s' H]; (eapply starts_imp; [|first [eapply AnnElem_starts; exact H | eapply Lit_starts; exact H]]);
    intros c E; unfold kidstart; rewrite E; [reflexivity | apply orb_true_r].
Qed.
Lemma kidstart_ok c : kidstart c = true -> gapc c = false /\ among (lit "~") c = false.
Proof.
  unfold kidstart. intros H. apply orb_prop in H as [H | H]; [apply idstart_tilde; exact H|].
  unfold quotec in H. rewrite orb_true_iff, !N.eqb_eq in H. destruct H as [-> | ->]; split; reflexivity.
Qed.
Lemma elem_no n r : nohd idstart r -> annotation_element (S n) r = PErr.
Proof. intros H. apply nogap_nostart in H as [H1 H2]. cbn [annotation_element]. apply bind_err, name_no; assumption. Qed.
Lemma attr_no_kids kids t2 r : Seq AnnKid kids t2 -> kids <> [] -> annotation_attribute (t2 ++ r) = PErr.
Proof.
  assert (Hk : forall k s r, AnnKid k s -> annotation_attribute (s ++ r) = PErr).
  { intros k s r' [a s' H | l s' H]; [eapply attr_no_elem; exact H|]. apply attr_no. eapply starts_nohd; [eapply Lit_starts; exact H|].
    intros c E. unfold quotec in E. rewrite orb_true_iff, !N.eqb_eq in E. destruct E as [-> | ->]; reflexivity. }
  intros [|x s H|x s g l t H _ _ _] Hne; [congruence | eapply Hk; exact H | rewrite <- app_assoc; eapply Hk; exact H].
Qed.
Lemma attr_no_elems els t2 r : Seq AnnElem els t2 -> els <> [] -> annotation_attribute (t2 ++ r) = PErr.
Proof. intros [|x s H|x s g l t H _ _ _] Hne; [congruence | | rewrite <- app_assoc]; eapply attr_no_elem; exact H. Qed.

(** the body of an annotation: attributes, then other items *)
Lemma ann_body {A C} (X : A -> str -> Prop) (p : parser A) (F : str -> Prop) (B : nat) (P : N -> bool)
  (K : list annot_attr -> list A -> parser C) atts t1 g2 g3 kids t2 g4 r :
  (forall c, P c = true -> gapc c = false /\ among (lit "~") c = false) ->
  (forall x s r, X x s -> F r -> List.length (s ++ r) < B -> p (s ++ r) = POk x r) ->
  (forall x s, X x s -> starts P s) ->
  (forall g y s t, Gap1 g -> X y s -> F (g ++ s ++ t)) ->
  (forall r, Seq X kids t2 -> kids <> [] -> annotation_attribute (t2 ++ r) = PErr) ->
  p (lit "]" ++ r) = PErr -> F (g4 ++ lit "]" ++ r) ->
  Gap g2 -> Seq AnnAttr atts t1 -> Gap g3 -> (atts <> [] -> kids <> [] -> g3 <> []) -> Seq X kids t2 -> Gap g4 ->
  List.length (t1 ++ g3 ++ t2 ++ g4 ++ lit "]" ++ r) < B ->
  (sc0 ;* let* atts := psep0 sc1 annotation_attribute in sc0 ;* let* kids := psep0 sc1 p in sc0 ;* K atts kids)
    (g2 ++ t1 ++ g3 ++ t2 ++ g4 ++ lit "]" ++ r) = K atts kids (lit "]" ++ r).
Proof.
  intros HP Hitem Hst Hnext Hattr Hclose HF G2 Ha G3 Hsep Hk G4 HB.
  assert (Hat : forall x s t, AnnAttr x s -> LitF t -> List.length (s ++ t) < B -> annotation_attribute (s ++ t) = POk x t)
    by (intros; apply attr_ok; assumption).
  assert (Han : forall g (y : annot_attr) s t, Gap1 g -> AnnAttr y s -> LitF (g ++ s ++ t)).
  { intros g y s t Hg Hy. eapply LitF_next; [exact Hg | eapply AnnAttr_starts; exact Hy | apply idstart_tilde]. }
  destruct kids as [|k kids].
  - inversion Hk; subst t2. cbn [app] in *.
    replace (g2 ++ t1 ++ g3 ++ g4 ++ lit "]" ++ r) with (g2 ++ t1 ++ (g3 ++ g4) ++ lit "]" ++ r) by (rewrite <- app_assoc; reflexivity).
    rewrite (block AnnAttr annotation_attribute LitF B idstart idstart_gapc Hat AnnAttr_starts Han atts t1 g2 (g3 ++ g4) (lit "]" ++ r)
              (fun atts => let* kids := psep0 sc1 p in sc0 ;* K atts kids)).
    + rewrite <- (block0 X p F B P (fun c H => proj1 (HP c H)) Hitem Hst Hnext [] [] [] (lit "]" ++ r) (fun kids => K atts kids)).
      * reflexivity.
      * constructor.
      * reflexivity.
      * constructor.
      * exact eq_refl.
      * exact Hclose.
      * congruence.
      * cbn [app]. revert HB. rewrite !app_length. lia.
    + exact G2.
    + exact Ha.
    + apply gap_app; assumption.
    + exact eq_refl.
    + reflexivity.
    + intros _. apply LitF_str; [apply gap_app; assumption | reflexivity].
    + revert HB. rewrite !app_length. lia.
  - assert (Hks : starts P t2) by (eapply (Seq_starts X P Hst); [exact Hk | discriminate]).
    rewrite (block AnnAttr annotation_attribute LitF B idstart idstart_gapc Hat AnnAttr_starts Han atts t1 g2 g3 (t2 ++ g4 ++ lit "]" ++ r)
              (fun atts => let* kids := psep0 sc1 p in sc0 ;* K atts kids)).
    + apply (block0 X p F B P (fun c H => proj1 (HP c H)) Hitem Hst Hnext (k :: kids) t2 g4 (lit "]" ++ r) (fun kids => K atts kids)).
      * exact Hk.
      * discriminate.
      * exact G4.
      * exact eq_refl.
      * exact Hclose.
      * intros _. exact HF.
      * revert HB. rewrite !app_length. lia.
    + exact G2.
    + exact Ha.
    + exact G3.
    + eapply starts_nohd; [exact Hks|]. intros c Hc. apply HP; exact Hc.
    + apply Hattr; [exact Hk | discriminate].
    + intros Hne. eapply LitF_next; [split; [exact G3 | apply Hsep; [exact Hne | discriminate]] | exact Hks | exact HP].
    + exact HB.
Qed.
Lemma elem_ok n : forall a s r, AnnElem a s -> List.length (s ++ r) < n -> annotation_element n (s ++ r) = POk a r.
Proof.
  induction n as [|n IH]; intros a s r Ha Hn; [lia|].
  destruct Ha as [nm t g1 g2 atts t1 g3 kids t2 g4 Hnm G1 G2 Hatts G3 Hsep Hkids G4]. revert Hn. flat. intros Hn. cbn [annotation_element].
  pose proof (F_str [58%N] g1 (lit "[") (g2 ++ t1 ++ g3 ++ t2 ++ g4 ++ lit "]" ++ r) G1 eq_refl) as Hf.
  pose proof (starts_len _ _ (Name_starts _ _ Hnm)) as Hl.
  erewrite bind_ok; [|apply name_ok; [exact Hnm | eapply F_nc; exact Hf | eapply F_hd; [exact Hf | left; reflexivity | reflexivity]]].
  erewrite bind_ok; [|apply sc0_gap; [exact G1 | exact eq_refl]]. erewrite bind_ok; [|apply ptag_app].
  assert (Hsep' : atts <> [] -> kids <> [] -> g3 <> []) by (intros X1 X2; destruct (Hsep X1 X2) as [[] | H]; exact H).
  destruct n as [|n]; [lens|].
  rewrite (ann_body AnnKid (pmap inl (annotation_element (S n)) <|> pmap inr p_literal) LitF (S n) kidstart
            (fun atts kids => ptag (lit "]") ;* pret (Annot nm atts kids)) atts t1 g2 g3 kids t2 g4 r); try assumption.
  - erewrite bind_ok; [|apply ptag_app]. reflexivity.
  - exact kidstart_ok.
  - intros x s0 u Hx Hu Hlen. destruct Hx as [a' s' Ha' | l s' Hl'].
    + erewrite por_ok; [reflexivity|]. apply pmap_ok. apply IH; assumption.
    + rewrite por_err; [apply pmap_ok, lit_ok; assumption|]. apply pmap_err, elem_no. eapply starts_nohd; [eapply Lit_starts; exact Hl'|].
      intros c E. unfold quotec in E. rewrite orb_true_iff, !N.eqb_eq in E. destruct E as [-> | ->]; reflexivity.
  - exact AnnKid_starts.
  - intros g y s0 u Hg Hy. eapply LitF_next; [exact Hg | eapply AnnKid_starts; exact Hy | exact kidstart_ok].
  - intros u. apply attr_no_kids.
  - reflexivity.
  - apply LitF_str; [exact G4 | reflexivity].
  - lens.
Qed.
Lemma initial_ok n i s r : Initial_ i s -> List.length (s ++ r) < n -> initial_annotation n (s ++ r) = POk i r.
Proof.
  intros [g1 atts t1 g2 els t2 g3 G1 Ha G2 Hsep He G3] Hn. revert Hn. flat. intros Hn. unfold initial_annotation.
  erewrite bind_ok; [|apply ptag_app]. destruct n as [|n]; [lens|].
  assert (Hsep' : atts <> [] -> els <> [] -> g2 <> []) by (intros X1 X2; destruct (Hsep X1 X2) as [[] | H]; exact H).
  rewrite (ann_body AnnElem (annotation_element (S n)) (fun _ => True) (S n) idstart
            (fun atts els => ptag (lit "]") ;* pret (Initial atts els)) atts t1 g1 g2 els t2 g3 r); try assumption.
  - erewrite bind_ok; [|apply ptag_app]. reflexivity.
  - exact idstart_tilde.
  - intros x s0 u Hx _ Hlen. apply elem_ok; assumption.
  - exact AnnElem_starts.
  - intros; exact I.
  - intros u. apply attr_no_elems.
  - reflexivity.
  - exact I.
  - lens.
Qed.
Lemma maybe_ok n i an r : Ann i an -> nohd gapc r -> nohd (N.eqb 91) r -> List.length (an ++ r) < n ->
  maybe_initial_annotation n (an ++ r) = POk i r.
Proof.
  intros [|i' s g Hi Hg] H1 H2 Hn; unfold maybe_initial_annotation.
  - cbn [app]. apply opt_err. apply bind_err. unfold initial_annotation. apply bind_err. apply ptag_hd. exact H2.
  - revert Hn. flat. intros Hn. apply opt_ok. erewrite bind_ok; [|apply initial_ok; eassumption].
    erewrite bind_ok; [|apply sc0_gap; assumption]. reflexivity.
Qed.
Lemma follow1_no0 n r : nohd gapc r -> nohd (N.eqb 62) r -> follow_annotation n r = PErr.
Proof.
  intros H1 H2. unfold follow_annotation. apply bind_err. erewrite bind_ok by (apply sc0_nil; exact H1). apply bind_err.
  apply ptag_hd. exact H2.
Qed.
Lemma follow1_no n r : Follow (lit ">") r -> follow_annotation n r = PErr.
Proof.
  intros H. apply F_sc0 in H as (t & H1 & H2 & H3). unfold follow_annotation. apply bind_err. erewrite bind_ok by exact H1. apply bind_err.
  apply ptag_hd. eapply nohd_imp; [|exact H2]. intros c E. apply among_in. apply N.eqb_eq in E. subst. left; reflexivity.
Qed.
Lemma follows_nil n r : Follow (lit ">") r -> follow_annotation_list n r = POk [] r.
Proof. intros H. unfold follow_annotation_list, psep0. rewrite follow1_no by exact H. reflexivity. Qed.
Lemma follow1_ok n g1 g2 a s r : Gap g1 -> Gap g2 -> AnnElem a s -> List.length (s ++ r) < n ->
  follow_annotation n (g1 ++ lit ">>" ++ g2 ++ s ++ r) = POk a r.
Proof.
  intros G1 G2 Ha Hn. unfold follow_annotation. erewrite bind_ok.
  - apply elem_ok; eassumption.
  - erewrite bind_ok; [|apply sc0_gap; [exact G1 | exact eq_refl]]. erewrite bind_ok; [|apply ptag_app]. apply sc0_gap; [exact G2|].
    eapply starts_nohd; [eapply AnnElem_starts; exact Ha | apply idstart_gapc].
Qed.
Lemma follows_loop n f : Follows f -> forall m r, Follow (lit ">") r -> List.length (f ++ r) < n -> List.length (f ++ r) < m ->
  exists l, sep_loop m sc0 (follow_annotation n) (f ++ r) = POk l r.
Proof.
  induction 1 as [|g1 g2 a s t G1 G2 Ha Hf IH]; intros m r Hr Hn Hm; (destruct m as [|m]; [lia|]); cbn [sep_loop].
  - cbn [app]. destruct (F_sc0 _ _ Hr) as (u & H1 & H2 & H3). rewrite H1. rewrite follow1_no0; [exists []; reflexivity | exact H3 |].
    eapply nohd_imp; [|exact H2]. intros c E. apply among_in. apply N.eqb_eq in E. subst. left; reflexivity.
  - revert Hn Hm. flat. intros Hn Hm. rewrite sc0_gap; [|exact G1 | exact eq_refl].
    change (lit ">>" ++ g2 ++ s ++ t ++ r) with ([] ++ lit ">>" ++ g2 ++ s ++ t ++ r) at 1.
    rewrite (follow1_ok n [] g2 a s (t ++ r) Gap_nil G2 Ha) by lens.
    destruct (Nat.eqb_spec (List.length (t ++ r)) (List.length (g1 ++ lit ">>" ++ g2 ++ s ++ t ++ r))) as [E|_]; [lens|].
    destruct (IH m r Hr) as [l Hl]; [lens | lens |]. rewrite Hl. eauto.
Qed.
Lemma follows_ok n f r : Follows f -> Follow (lit ">") r -> List.length (f ++ r) < n -> exists l, follow_annotation_list n (f ++ r) = POk l r.
Proof.
  intros [|g1 g2 a s t G1 G2 Ha Hf] Hr Hn; [exists []; apply follows_nil; exact Hr|]. revert Hn. flat. intros Hn.
  unfold follow_annotation_list, psep0. rewrite (follow1_ok n g1 g2 a s (t ++ r) G1 G2 Ha) by lens.
  destruct (follows_loop n t Hf (S (List.length (t ++ r))) r Hr) as [l Hl]; [lens | lia |]. rewrite Hl. eauto.
Qed.

(** ** Name classes *)
Definition badnc : list N := lit ":|->".
Definition badncp : list N := lit ":-".
Definition ncstart (c : N) : bool := idstart c || among (lit "*([") c.
Definition ncpstart (c : N) : bool := idstart c || among (lit "*(") c.
Lemma start_cases (P : N -> bool) l c : (idstart c || among l c) = true ->
  (forall c, nc_char c = true -> P c = false) -> P 92%N = false -> forallb (fun d => negb (P d)) l = true -> P c = false.
Proof.
  intros H H1 H2 H3. apply orb_prop in H as [H | H].
  - unfold idstart in H. apply orb_prop in H as [H | H]; [apply H1, start_is_char, H|]. apply N.eqb_eq in H. subst; exact H2.
  - apply among_in in H. rewrite forallb_forall in H3. specialize (H3 c H). apply negb_true_iff in H3. exact H3.
Qed.
Lemma nc_not c d : nc_char c = true -> nc_char d = false -> (d =? c)%N = false.
Proof. intros H1 H2. apply N.eqb_neq. intros ->. congruence. Qed.
Lemma ncpstart_gapc c : ncpstart c = true -> gapc c = false.
Proof. intros H. eapply start_cases; [exact H | apply nc_char_gapc | reflexivity | reflexivity]. Qed.
Lemma ncstart_gapc c : ncstart c = true -> gapc c = false.
Proof. intros H. eapply start_cases; [exact H | apply nc_char_gapc | reflexivity | reflexivity]. Qed.
Lemma ncpstart_bracket c : ncpstart c = true -> (91 =? c)%N = false.
Proof. intros H. eapply (start_cases (N.eqb 91)); [exact H | intros d Hd; apply nc_not; [exact Hd | reflexivity] | reflexivity | reflexivity]. Qed.
Lemma NcPrim_starts a s : NcPrim a s -> starts ncpstart s.
Proof.
  intros [n t Hn | p Hp | | g1 b t g2 _ _ _ | p g1 g2 e t [] | g1 g2 e t []].
  - eapply starts_imp; [|eapply Name_starts; exact Hn]. intros c E. unfold ncpstart. rewrite E. reflexivity.
  - apply starts_app. eapply starts_imp; [|apply NCName_starts; exact Hp]. intros c E. unfold ncpstart, idstart. rewrite E. reflexivity.
  - exists 42%N, []. split; reflexivity.
  - eexists 40%N, _. split; reflexivity.
Qed.
Lemma Ann_starts (P : N -> bool) i an s : Ann i an -> starts P s -> P 91%N = true -> starts P (an ++ s).
Proof.
  intros [|i' t g Hi _] Hs HP; [exact Hs|]. destruct Hi. eexists 91%N, _. split; [reflexivity | exact HP].
Qed.
Lemma Nc_starts a s : Nc a s -> starts ncstart s.
Proof.
  assert (Hi : forall c, ncpstart c = true -> ncstart c = true).
  { intros c H. unfold ncpstart, ncstart in *. apply orb_prop in H as [-> | H]; [reflexivity|]. rewrite orb_true_iff. right.
    apply among_in in H. apply among_in. destruct H as [<- | [<- | []]]; cbn; tauto. }
  intros [i an b t f Ha Hp _ _ | i an p g1 g2 e t Ha Hp _ _ _ | i an g1 g2 e t Ha _ _ _ | i an b t f g1 g2 c u Ha Hp _ _ _ _ _];
    (eapply Ann_starts; [exact Ha | | reflexivity]).
  - apply starts_app. eapply starts_imp; [exact Hi | eapply NcPrim_starts; exact Hp].
  - apply starts_app. eapply starts_imp; [|apply NCName_starts; exact Hp]. intros c E. unfold ncstart, idstart. rewrite E. reflexivity.
  - eexists 42%N, _. split; reflexivity.
  - apply starts_app. eapply starts_imp; [exact Hi | eapply NcPrim_starts; exact Hp].
Qed.
Lemma sc0_tag_no {B} bad r d k (f : unit -> parser B) : Follow bad r -> In d bad -> (sc0 ;* pbind (ptag (d :: k)) f) r = PErr.
Proof.
  intros H Hd. apply F_sc0 in H as (t & H1 & H2 & H3). erewrite bind_ok by exact H1. apply bind_err. apply ptag_hd.
  eapply nohd_imp; [|exact H2]. intros c E. apply among_in. apply N.eqb_eq in E. subst. exact Hd.
Qed.
Lemma except_nc_no nc r : Follow (lit "-") r -> except_nc nc r = POk None r.
Proof. intros H. unfold except_nc. apply opt_err. eapply (sc0_tag_no (lit "-") r 45%N []); [exact H | left; reflexivity]. Qed.
Lemma except_nc_ok nc g1 g2 e s r : Gap g1 -> Gap g2 -> nohd gapc (s ++ r) -> nc (s ++ r) = POk e r ->
  except_nc nc (g1 ++ lit "-" ++ g2 ++ s ++ r) = POk (Some e) r.
Proof.
  intros G1 G2 Hs Hn. unfold except_nc. apply opt_ok. erewrite bind_ok; [|apply sc0_gap; [exact G1 | exact eq_refl]].
  erewrite bind_ok; [|apply ptag_app]. erewrite bind_ok; [|apply sc0_gap; [exact G2 | exact Hs]]. exact Hn.
Qed.
Lemma ns_no_name nc n s r : Name n s -> nohd nc_char r -> nohd (N.eqb 58) r -> ns_name_nc nc (s ++ r) = PErr.
Proof.
  intros Hn Hr Hc. unfold ns_name_nc. destruct Hn as [i t [j Hj | j Hj] | p l Hp Hl].
  - destruct Hj as [[H _] | (k & Hk & ->)].
    + erewrite bind_ok; [|apply nc_name_ok; [exact H | exact Hr]]. apply bind_err, ptag_hd, Hc.
    + apply bind_err, nc_name_no. reflexivity.
  - erewrite bind_ok; [|apply nc_name_ok; [apply kw_word; exact Hj | exact Hr]]. apply bind_err, ptag_hd, Hc.
  - flat. erewrite bind_ok; [|apply nc_name_ok; [exact Hp | exact eq_refl]]. apply bind_err.
    destruct (NCName_starts _ Hl) as (c & t & -> & Hc'). change (ptag (lit ":*") (lit ":" ++ (c :: t) ++ r)) with (ptag [42%N] (c :: t ++ r)).
    apply ptag_hd. cbn [nohd]. apply nc_not; [apply start_is_char; exact Hc' | reflexivity].
Qed.
Lemma ns_ok nc p e r r' : NCName p -> except_nc nc r = POk e r' -> ns_name_nc nc (p ++ lit ":*" ++ r) = POk (CNs (NsPrefix p) e) r'.
Proof.
  intros Hp He. unfold ns_name_nc. erewrite bind_ok; [|apply nc_name_ok; [exact Hp | exact eq_refl]]. erewrite bind_ok; [|apply ptag_app].
  erewrite bind_ok by exact He. reflexivity.
Qed.
Lemma incl_b (a b : list N) : forallb (fun x => among b x) a = true -> incl a b.
Proof. rewrite forallb_forall. intros H x Hx. apply among_in. apply H; exact Hx. Qed.
Lemma prim_nc_ok n (IH : forall a s r, Nc a s -> Follow badnc r -> List.length (s ++ r) < n -> name_class n (s ++ r) = POk a r) a s r :
  NcPrim a s -> Follow badncp r -> List.length (s ++ r) < S n -> prim_nc (name_class n) (s ++ r) = POk a r.
Proof.
  intros Hp Hr Hn. pose proof (F_nc _ _ Hr) as Hnc. pose proof (F_hd _ _ 58%N Hr ltac:(cbn; tauto) eq_refl) as Hcol.
  unfold prim_nc. destruct Hp as [nm t Hnm | p Hp | | g1 b t g2 G1 Hb G2 | p g1 g2 e t [] | g1 g2 e t []].
  - rewrite por_err by (eapply ns_no_name; eassumption). erewrite por_ok; [reflexivity|]. apply pmap_ok. apply name_ok; assumption.
  - flat. erewrite por_ok; [reflexivity|]. apply ns_ok; [exact Hp|]. apply except_nc_no. eapply F_weaken; [|exact Hr]. apply incl_b; reflexivity.
  - rewrite por_err by reflexivity. rewrite por_err by reflexivity. erewrite por_ok; [reflexivity|].
    unfold any_name_nc. erewrite bind_ok; [|apply ptag_app]. erewrite bind_ok; [reflexivity|]. apply except_nc_no.
    eapply F_weaken; [|exact Hr]. apply incl_b; reflexivity.
  - rewrite por_err by reflexivity. rewrite por_err by reflexivity. rewrite por_err by reflexivity. revert Hn. flat. intros Hn.
    unfold paren_nc. erewrite bind_ok; [|apply ptag_app].
    erewrite bind_ok; [|apply sc0_gap; [exact G1 | eapply starts_nohd; [eapply Nc_starts; exact Hb | apply ncstart_gapc]]].
    erewrite bind_ok; [|apply IH; [exact Hb | apply F_str; [exact G2 | reflexivity] | lens]].
    erewrite bind_ok; [|apply sc0_gap; [exact G2 | exact eq_refl]]. erewrite bind_ok; [|apply ptag_app]. reflexivity.
Qed.
Lemma Fol_nc f r : Follows f -> Follow badncp r -> Follow badncp (f ++ r).
Proof. intros [|g1 g2 a s t G1 G2 Ha Hf] Hr; [exact Hr|]. flat. apply F_str; [exact G1 | reflexivity]. Qed.
Lemma alt_step_no nc a r : Follow (lit "|") r -> alt_step nc a r = POk a r.
Proof. intros H. unfold alt_step, alt_nc. rewrite (sc0_tag_no (lit "|") r 124%N []); [reflexivity | exact H | left; reflexivity]. Qed.
Lemma nc_ok n : forall a s r, Nc a s -> Follow badnc r -> List.length (s ++ r) < n -> name_class n (s ++ r) = POk a r.
Proof.
  induction n as [|n IH]; intros a s r Ha Hr Hn; [lia|]. cbn [name_class].
  assert (Hfin : forall a (an' : option initial), pbind (follow_annotation_list (S n)) (fun fl => match fl, an' with | _ :: _, None => fun _ => PPanic PUnwrapNone | _, _ => alt_step (name_class n) a end) r = POk a r).
  { intros b an'. erewrite bind_ok; [|apply follows_nil; eapply F_weaken; [|exact Hr]; apply incl_b; reflexivity]. cbn beta iota.
    assert (H : alt_step (name_class n) b r = POk b r) by (apply alt_step_no; eapply F_weaken; [|exact Hr]; apply incl_b; reflexivity).
    destruct an'; exact H. }
  destruct Ha as [i an b t f Hi Hp Hf Hif | i an p g1 g2 e t Hi Hp G1 G2 He | i an g1 g2 e t Hi G1 G2 He | i an b t f g1 g2 c u Hi Hp Hf Hif G1 G2 Hc];
    revert Hn; flat; intros Hn.
  - pose proof (NcPrim_starts _ _ Hp) as Hs. pose proof (starts_len _ _ Hs).
    erewrite bind_ok; [|apply maybe_ok; [exact Hi | eapply starts_nohd; [exact Hs | apply ncpstart_gapc] | eapply starts_nohd; [exact Hs | apply ncpstart_bracket] | exact Hn]].
    erewrite bind_ok; [|apply (prim_nc_ok n IH); [exact Hp | apply Fol_nc; [exact Hf | eapply F_weaken; [|exact Hr]; apply incl_b; reflexivity] | lens]].
    destruct i as [i|]; [|rewrite (Hif eq_refl); exact (Hfin b None)].
    destruct (follows_ok (S n) f r Hf) as [fl Hfl]; [eapply F_weaken; [|exact Hr]; apply incl_b; reflexivity | lens |].
    erewrite bind_ok by exact Hfl. assert (H1 : alt_step (name_class n) b r = POk b r) by (apply alt_step_no; eapply F_weaken; [|exact Hr]; apply incl_b; reflexivity).
    destruct fl; exact H1.
  - pose proof (NCName_starts _ Hp) as Hs. pose proof (starts_len _ _ Hs).
    erewrite bind_ok; [|apply maybe_ok; [exact Hi | eapply starts_nohd; [exact Hs | intros c Hc; apply nc_char_gapc, start_is_char, Hc] | eapply starts_nohd; [exact Hs | intros c Hc; apply nc_not; [apply start_is_char, Hc | reflexivity]] | exact Hn]].
    erewrite bind_ok; [apply Hfin|]. unfold prim_nc. erewrite por_ok; [reflexivity|]. apply ns_ok; [exact Hp|].
    apply except_nc_ok; [exact G1 | exact G2 | eapply starts_nohd; [eapply Nc_starts; exact He | apply ncstart_gapc]|].
    apply IH; [exact He | exact Hr | lens].
  - erewrite bind_ok; [|apply maybe_ok; [exact Hi | exact eq_refl | exact eq_refl | exact Hn]].
    erewrite bind_ok; [apply Hfin|]. unfold prim_nc. rewrite por_err by reflexivity. rewrite por_err by reflexivity. erewrite por_ok; [reflexivity|].
    unfold any_name_nc. erewrite bind_ok; [|apply ptag_app]. erewrite bind_ok; [reflexivity|].
    apply except_nc_ok; [exact G1 | exact G2 | eapply starts_nohd; [eapply Nc_starts; exact He | apply ncstart_gapc]|].
    apply IH; [exact He | exact Hr | lens].
  - pose proof (NcPrim_starts _ _ Hp) as Hs. pose proof (starts_len _ _ Hs).
    erewrite bind_ok; [|apply maybe_ok; [exact Hi | eapply starts_nohd; [exact Hs | apply ncpstart_gapc] | eapply starts_nohd; [exact Hs | apply ncpstart_bracket] | exact Hn]].
    erewrite bind_ok; [|apply (prim_nc_ok n IH); [exact Hp | apply Fol_nc; [exact Hf | apply F_str; [exact G1 | reflexivity]] | lens]].
    destruct (follows_ok (S n) f (g1 ++ lit "|" ++ g2 ++ u ++ r) Hf) as [fl Hfl]; [apply F_str; [exact G1 | reflexivity] | lens |].
    assert (Hfl' : i = None -> fl = []).
    { intros ->. rewrite (Hif eq_refl) in Hfl. cbn [app] in Hfl. rewrite follows_nil in Hfl by (apply F_str; [exact G1 | reflexivity]). congruence. }
    erewrite bind_ok by exact Hfl.
    assert (H1 : alt_step (name_class n) b (g1 ++ lit "|" ++ g2 ++ u ++ r) = POk (CAlt b c) r).
    { unfold alt_step, alt_nc. erewrite bind_ok; [|apply sc0_gap; [exact G1 | exact eq_refl]]. erewrite bind_ok; [|apply ptag_app].
      erewrite bind_ok; [|apply sc0_gap; [exact G2 | eapply starts_nohd; [eapply Nc_starts; exact Hc | apply ncstart_gapc]]].
      rewrite (IH _ _ _ Hc Hr) by lens. reflexivity. }
    destruct i as [i|]; [destruct fl; exact H1 | rewrite (Hfl' eq_refl); exact H1].
Qed.
