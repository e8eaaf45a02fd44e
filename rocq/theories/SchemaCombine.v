(** * SchemaCombine: two definitions of one name are one definition by their choice or interleave (C29). *)
From Coq Require Import Permutation String.
From Verif Require Import Base Datatype Facets Store Lang Compile Syntax SchemaCompile Spec SourceSpec SourceScope SourceTr SourceSem SourceCompile SchemaOrder SchemaSpec SchemaMain.

(** the pattern and the method that stand for two definitions: [both MChoiceC] is [|], [both MInterleaveC] is [&] *)
Definition both (c : method) (p q : spat) : spat := match c with MInterleaveC => SInterleavePair p q | _ => SChoicePair p q end.
Definition one_method (h1 h2 : method) : method := match h1, h2 with MAssign, _ | _, MAssign => MAssign | h, _ => h end.
Definition combining (h1 h2 c : method) : Prop := (h1 = c \/ h2 = c) /\ c <> MAssign.

Section Combine.
Variable fs : filesys.
Inductive cstep : list sdef -> list sdef -> Prop :=
| Cs n h1 h2 c e p q rest : combining h1 h2 c ->
    combinable (map d_how (defs_named n (SDef n h1 e p :: SDef n h2 e q :: rest))) ->
    cstep (SDef n h1 e p :: SDef n h2 e q :: rest) (SDef n (one_method h1 h2) e (both c p q) :: rest).
Definition crel (g g' : list sdef) : Prop := g' = g \/ cstep g g'.
Definition brel (g g' : list sdef) : Prop := g' = g \/ cstep g' g.

Variable O : oracles.
Variable C : coracles.
Variable w3 : bool.
Notation SM := (SM fs O C w3). Notation SW := (SW fs O C w3). Notation SN := (SN fs O C w3). Notation SI := (SI fs O C w3).
Notation SX := (SX fs O C). Notation SXN := (SXN fs O C). Notation SXD := (SXD fs O C).

Lemma defs_here n h e p g : defs_named n (SDef n h e p :: g) = SDef n h e p :: defs_named n g.
Proof. unfold defs_named. cbn. unfold is_named. cbn. rewrite str_eqb_refl. reflexivity. Qed.
Lemma defs_other n m h e p g : n <> m -> defs_named n (SDef m h e p :: g) = defs_named n g.
Proof. intros H. unfold defs_named. cbn. unfold is_named at 1. cbn. destruct (str_eqb m n) eqn:E; [apply str_eqb_eq in E; congruence | reflexivity]. Qed.
Lemma comb_cases h1 h2 c hs : combining h1 h2 c -> combinable (h1 :: h2 :: hs) ->
  (c = MChoiceC /\ h1 <> MInterleaveC /\ h2 <> MInterleaveC /\ ~ In MInterleaveC hs \/ c = MInterleaveC /\ h1 <> MChoiceC /\ h2 <> MChoiceC /\ ~ In MChoiceC hs) /\
  (one_method h1 h2 = MAssign /\ ~ In MAssign hs \/ one_method h1 h2 = c).
Proof.
  intros [H1 H2] [H3 H4]. assert (HA : h1 = MAssign \/ h2 = MAssign -> ~ In MAssign hs).
  { intros HA Hin. apply (count_occ_In method_eq_dec) in Hin. cbn [count_occ] in H3. destruct (method_eq_dec h1 MAssign), (method_eq_dec h2 MAssign); try lia. intuition. }
  cbn [In] in H4. destruct c; [congruence| |]; (split; [|destruct h1, h2; cbn [one_method]; intuition congruence]).
  - left. repeat split; intuition (subst; eauto; try congruence).
  - right. repeat split; intuition (subst; eauto; try congruence).
Qed.
Lemma SI_two G a m n h1 h2 h e p q ds :
  SI G a m (SDef n h1 e p :: SDef n h2 e q :: ds) <-> SI G a m (SDef n h e (SInterleavePair p q) :: ds).
Proof.
  rewrite !SI_cons. cbn [d_env d_body]. destruct ds as [|d ds].
  - split.
    + intros (a1 & a2 & m1 & m2 & H1 & H2 & H3 & H4). inversion H4; subst. econstructor; eassumption.
    + intros H. inversion H; subst. exists a1, a2, m1, m2. repeat split; try assumption. constructor. assumption.
  - split.
    + intros (a1 & a2 & m1 & m2 & H1 & H2 & H3 & H4). apply SI_cons in H4. destruct H4 as (a3 & a4 & m3 & m4 & L1 & L2 & L3 & L4). cbn [d_env d_body] in *.
      apply LangFacts.merge_comm in H2, L2. destruct (SourceTr.merge_assoc' m4 m3 m1 m2 m L2 H2) as (m' & N1 & N2).
      exists (a1 ++ a3), a4, m', m4. split; [etransitivity; [exact H1|]; rewrite <- app_assoc; apply Permutation_app_head; exact L1|].
      split; [apply LangFacts.merge_comm; exact N2|]. split; [|exact L4]. econstructor; [apply Permutation_refl | apply LangFacts.merge_comm; exact N1 | exact H3 | exact L3].
    + intros (a1 & a2 & m1 & m2 & H1 & H2 & H3 & H4). inversion H3 as [ | | | |? ? ? b1 b2 ? n1 n2 ? ? B1 B2 B3 B4| | | | | | | | | | | | | | | | | | |]; subst.
      destruct (SourceTr.merge_assoc' n1 n2 m2 m1 m B2 H2) as (m' & N1 & N2). exists b1, (b2 ++ a2), n1, m'.
      split; [etransitivity; [exact H1|]; rewrite app_assoc; apply Permutation_app_tail; exact B1|]. split; [exact N2|]. split; [exact B3|].
      econstructor; [apply Permutation_refl | exact N1 | exact B4 | exact H4].
Qed.
Lemma SXD_two G s b n h1 h2 h e p q ds :
  SXD G (SDef n h1 e p :: SDef n h2 e q :: ds) s b <-> SXD G (SDef n h e (SChoicePair p q) :: ds) s b.
Proof.
  rewrite !SXD_cons. cbn [d_env d_body]. destruct ds as [|d ds].
  - split.
    + intros (b1 & b2 & -> & H1 & H2). inversion H2; subst. constructor; assumption.
    + intros H. inversion H; subst. exists b1, b2. repeat split; try assumption. constructor. assumption.
  - split.
    + intros (b1 & b2 & -> & H1 & H2). apply SXD_cons in H2. destruct H2 as (b3 & b4 & -> & L1 & L2). cbn [d_env d_body] in *. exists (b1 || b3), b4. split; [apply orb_assoc|]. split; [constructor; assumption | exact L2].
    + intros (b1 & b2 & -> & H1 & H2). inversion H1; subst. exists b0, (b3 || b2). split; [symmetry; apply orb_assoc|]. split; [assumption|]. constructor; assumption.
Qed.

Lemma SXN_fold g g' G n s b : cstep g g' -> (forall d, In d (defs_named n g) -> d_how d <> MInterleaveC) -> SXD (g' :: G) (defs_named n g) s b -> SXN (g' :: G) n s b.
Proof.
  intros [m h1 h2 c e p q rest Hc Hb] Hn HD. destruct (str_eq_dec n m) as [->|Hnm].
  - rewrite !defs_here in *. cbn [map d_how] in Hb. destruct (comb_cases _ _ _ _ Hc Hb) as [[(-> & H1 & H2 & H3)|(-> & H1 & H2 & H3)] HO].
    + constructor; rewrite defs_here; [|eapply SXD_two; exact HD]. intros d [<-|Hd]; [|apply Hn; right; right; exact Hd]. cbn [d_how]. destruct HO as [[-> _]| ->]; congruence.
    + exfalso. destruct Hc as [[->| ->] _]; [apply (Hn (SDef m MInterleaveC e p)) | apply (Hn (SDef m MInterleaveC e q))]; cbn; auto.
  - rewrite !(defs_other n m) in * by assumption. constructor; rewrite defs_other by assumption; assumption.
Qed.
Lemma SXN_unfold g g' G n s b : cstep g' g -> (forall d, In d (defs_named n g) -> d_how d <> MInterleaveC) -> SXD (g' :: G) (defs_named n g) s b -> SXN (g' :: G) n s b.
Proof.
  intros [m h1 h2 c e p q rest Hc Hb] Hn HD. destruct (str_eq_dec n m) as [->|Hnm].
  - rewrite !defs_here in *. cbn [map d_how] in Hb. destruct (comb_cases _ _ _ _ Hc Hb) as [[(-> & H1 & H2 & H3)|(-> & H1 & H2 & H3)] HO].
    + constructor; rewrite !defs_here; [|eapply SXD_two; exact HD]. intros d [<-|[<-|Hd]]; [exact H1 | exact H2 | apply Hn; right; exact Hd].
    + exfalso. cbn [both] in HD. apply SXD_cons in HD. destruct (defs_named m rest); [inversion HD | destruct HD as (b1 & b2 & _ & HD & _); inversion HD].
  - rewrite !(defs_other n m) in * by assumption. constructor; rewrite !defs_other by assumption; assumption.
Qed.
Lemma SX_rel (R : list sdef -> list sdef -> Prop) : (forall g, R g g) ->
  (forall g g' G n s b, R g g' -> (forall d, In d (defs_named n g) -> d_how d <> MInterleaveC) -> SXD (g' :: G) (defs_named n g) s b -> SXN (g' :: G) n s b) ->
  (forall e G p s b, SX e G p s b -> forall G', Forall2 R G G' -> SX e G' p s b) /\
  (forall G n s b, SXN G n s b -> forall G', Forall2 R G G' -> SXN G' n s b) /\
  (forall G ds s b, SXD G ds s b -> forall G', Forall2 R G G' -> SXD G' ds s b).
Proof.
  intros Rr HR. apply SX_mutual; intros; try (econstructor; eauto; fail).
  - match goal with H : Forall2 _ _ _ |- _ => inversion H; subst end. constructor; auto.
  - match goal with H : Forall2 _ _ _ |- _ => inversion H as [|g0 g' G0 G1 Hg HG]; subst end. eapply HR; eauto.
Qed.
Lemma SN_fold g g' G n a m : cstep g g' ->
  (exists d, (forall d', In d' (defs_named n g) -> d_how d' <> MInterleaveC) /\ In d (defs_named n g) /\ SM (d_env d) (g' :: G) a m (d_body d)) \/
  (forall d', In d' (defs_named n g) -> d_how d' <> MChoiceC) /\ SI (g' :: G) a m (defs_named n g) -> SN (g' :: G) a m n.
Proof.
  intros [x h1 h2 c e p q rest Hc Hb] HD. destruct (str_eq_dec n x) as [->|Hnm].
  - rewrite !defs_here in *. cbn [map d_how] in Hb. destruct (comb_cases _ _ _ _ Hc Hb) as [[(-> & H1 & H2 & H3)|(-> & H1 & H2 & H3)] HO].
    + destruct HD as [(d & D1 & D2 & D3)|[D1 _]].
      * assert (HI : forall d', In d' (defs_named x (SDef x (one_method h1 h2) e (both MChoiceC p q) :: rest)) -> d_how d' <> MInterleaveC).
        { rewrite defs_here. intros d' [<-|Hd]; [cbn [d_how]; destruct HO as [[-> _]| ->]; congruence | apply D1; right; right; exact Hd]. }
        destruct D2 as [<-|[<-|D2]].
        -- eapply SN_choice; [exact HI | rewrite defs_here; left; reflexivity | apply SM_choice_l; exact D3].
        -- eapply SN_choice; [exact HI | rewrite defs_here; left; reflexivity | apply SM_choice_r; exact D3].
        -- eapply SN_choice; [exact HI | rewrite defs_here; right; exact D2 | exact D3].
      * exfalso. destruct Hc as [[->| ->] _]; [apply (D1 (SDef x MChoiceC e p)) | apply (D1 (SDef x MChoiceC e q))]; cbn; auto.
    + destruct HD as [(d & D1 & _)|[D1 D2]].
      * exfalso. destruct Hc as [[->| ->] _]; [apply (D1 (SDef x MInterleaveC e p)) | apply (D1 (SDef x MInterleaveC e q))]; cbn; auto.
      * apply SN_interleave; rewrite defs_here; [|eapply SI_two; exact D2].
        intros d' [<-|Hd]; [cbn [d_how]; destruct HO as [[-> _]| ->]; congruence | apply D1; right; right; exact Hd].
  - rewrite !(defs_other n x) in * by assumption. destruct HD as [(d & D1 & D2 & D3)|[D1 D2]]; [eapply SN_choice | apply SN_interleave]; try rewrite defs_other by assumption; eassumption.
Qed.
Lemma SN_unfold g g' G n a m : cstep g' g ->
  (exists d, (forall d', In d' (defs_named n g) -> d_how d' <> MInterleaveC) /\ In d (defs_named n g) /\ SM (d_env d) (g' :: G) a m (d_body d)) \/
  (forall d', In d' (defs_named n g) -> d_how d' <> MChoiceC) /\ SI (g' :: G) a m (defs_named n g) -> SN (g' :: G) a m n.
Proof.
  intros [x h1 h2 c e p q rest Hc Hb] HD. destruct (str_eq_dec n x) as [->|Hnm].
  - rewrite !defs_here in *. cbn [map d_how] in Hb.
    assert (Hrest : forall d', In d' (defs_named x rest) -> In (d_how d') (map d_how (defs_named x rest))) by (intros d' K; apply in_map; exact K).
    destruct (comb_cases _ _ _ _ Hc Hb) as [[(-> & H1 & H2 & H3)|(-> & H1 & H2 & H3)] HO].
    + assert (HI : forall d', In d' (defs_named x (SDef x h1 e p :: SDef x h2 e q :: rest)) -> d_how d' <> MInterleaveC).
      { rewrite !defs_here. intros d' [<-|[<-|Hd]]; [exact H1 | exact H2|]. intros E. apply H3. rewrite <- E. auto. }
      assert (HC : SM e ((SDef x h1 e p :: SDef x h2 e q :: rest) :: G) a m (SChoicePair p q) -> SN ((SDef x h1 e p :: SDef x h2 e q :: rest) :: G) a m x).
      { intros K. inversion K; subst; (eapply SN_choice; [exact HI | rewrite !defs_here |]).
        - left; reflexivity.
        - assumption.
        - right; left; reflexivity.
        - assumption. }
      destruct HD as [(d & D1 & D2 & D3)|[D1 D2]].
      * destruct D2 as [<-|D2]; [apply HC; exact D3|]. eapply SN_choice; [exact HI | rewrite !defs_here; right; right; exact D2 | exact D3].
      * destruct HO as [[EO HA]|EO]; [|exfalso; apply (D1 _ (or_introl eq_refl)); exact EO].
        assert (Er : defs_named x rest = []).
        { destruct (defs_named x rest) as [|d0 l0]; [reflexivity|]. exfalso.
          pose proof (D1 d0 (or_intror (or_introl eq_refl))) as K1. cbn in HA, H3. destruct (d_how d0); intuition congruence. }
        rewrite Er in D2. inversion D2; subst. apply HC. assumption.
    + assert (HI : forall d', In d' (defs_named x (SDef x h1 e p :: SDef x h2 e q :: rest)) -> d_how d' <> MChoiceC).
      { rewrite !defs_here. intros d' [<-|[<-|Hd]]; [exact H1 | exact H2|]. intros E. apply H3. rewrite <- E. auto. }
      destruct HD as [(d & D1 & D2 & D3)|[D1 D2]].
      * destruct HO as [[EO HA]|EO]; [|exfalso; apply (D1 _ (or_introl eq_refl)); exact EO].
        assert (Er : defs_named x rest = []).
        { destruct (defs_named x rest) as [|d0 l0]; [reflexivity|]. exfalso.
          pose proof (D1 d0 (or_intror (or_introl eq_refl))) as K1. cbn in HA, H3. destruct (d_how d0); intuition congruence. }
        rewrite Er in D2. destruct D2 as [<-|[]]. apply SN_interleave; [exact HI|]. rewrite !defs_here, Er. apply (SI_two _ _ _ _ _ _ MAssign). constructor. exact D3.
      * apply SN_interleave; [exact HI|]. rewrite !defs_here. eapply SI_two. exact D2.
  - rewrite !(defs_other n x) in * by assumption. destruct HD as [(d & D1 & D2 & D3)|[D1 D2]]; [eapply SN_choice | apply SN_interleave]; try rewrite !defs_other by assumption; eassumption.
Qed.
Lemma SM_rel (R : list sdef -> list sdef -> Prop) : (forall g, R g g) ->
  (forall g g' G n s b, R g g' -> (forall d, In d (defs_named n g) -> d_how d <> MInterleaveC) -> SXD (g' :: G) (defs_named n g) s b -> SXN (g' :: G) n s b) ->
  (forall g g' G n a m, R g g' ->
  (exists d, (forall d', In d' (defs_named n g) -> d_how d' <> MInterleaveC) /\ In d (defs_named n g) /\ SM (d_env d) (g' :: G) a m (d_body d)) \/
  (forall d', In d' (defs_named n g) -> d_how d' <> MChoiceC) /\ SI (g' :: G) a m (defs_named n g) -> SN (g' :: G) a m n) ->
  (forall e G a m p, SM e G a m p -> forall G', Forall2 R G G' -> SM e G' a m p) /\
  (forall e G a m p, SW e G a m p -> forall G', Forall2 R G G' -> SW e G' a m p) /\
  (forall G a m n, SN G a m n -> forall G', Forall2 R G G' -> SN G' a m n) /\
  (forall G a m ds, SI G a m ds -> forall G', Forall2 R G G' -> SI G' a m ds).
Proof.
  intros Rr HX HR. apply SM_mutual; intros; try (econstructor; eauto; fail).
  - eapply SM_except; eauto. eapply (proj1 (SX_rel R Rr HX)); eassumption.
  - match goal with H : Forall2 _ _ _ |- _ => inversion H; subst end. constructor; auto.
  - match goal with H : Forall2 _ _ _ |- _ => inversion H as [|g0 g' G0 G1 Hg HG]; subst end. eapply HR; [exact Hg|]. left. exists d. auto.
  - match goal with H : Forall2 _ _ _ |- _ => inversion H as [|g0 g' G0 G1 Hg HG]; subst end. eapply HR; [exact Hg|]. right. auto.
Qed.
Lemma SN_plain g G n a m : 
  (exists d, (forall d', In d' (defs_named n g) -> d_how d' <> MInterleaveC) /\ In d (defs_named n g) /\ SM (d_env d) (g :: G) a m (d_body d)) \/
  (forall d', In d' (defs_named n g) -> d_how d' <> MChoiceC) /\ SI (g :: G) a m (defs_named n g) -> SN (g :: G) a m n.
Proof. intros [(d & D1 & D2 & D3)|[D1 D2]]; [eapply SN_choice | apply SN_interleave]; eassumption. Qed.
Lemma SN_step g g' a m n : cstep g g' -> SN [g] a m n <-> SN [g'] a m n.
Proof.
  intros H. split; intros K.
  - eapply (proj1 (proj2 (proj2 (SM_rel crel ltac:(left; reflexivity) ltac:(intros x y G i s b [->|Hs]; [constructor; assumption | eapply SXN_fold; eassumption])
      ltac:(intros x y G i b c [->|Hs] Hd; [apply SN_plain; exact Hd | eapply SN_fold; eassumption]))))); [exact K|]. constructor; [right; exact H | constructor].
  - eapply (proj1 (proj2 (proj2 (SM_rel brel ltac:(left; reflexivity) ltac:(intros x y G i s b [->|Hs]; [constructor; assumption | eapply SXN_unfold; eassumption])
      ltac:(intros x y G i b c [->|Hs] Hd; [apply SN_plain; exact Hd | eapply SN_unfold; eassumption]))))); [exact K|]. constructor; [right; exact H | constructor].
Qed.
End Combine.

(** C29: writing two definitions of a name as one changes nothing *)
Theorem combined_meaning O C fs (Hfs : files_ok fs) f f' ds n h1 h2 c p q l l' rest d d' r r' st st' :
  fs f = inl (Schema ds (TGrammar l)) -> Permutation l (GDefine n h1 p :: GDefine n h2 q :: rest) ->
  fs f' = inl (Schema ds (TGrammar l')) -> Permutation l' (GDefine n (one_method h1 h2) (both c p q) :: rest) ->
  combining h1 h2 c -> same_dir f f' ->
  compile_grammar O C fs d f = fok (r, st) -> compile_grammar O C fs d' f' = fok (r', st') ->
  forall root, rng_valid O (cell_defs st) (start_of r st) root <-> rng_valid O (cell_defs st') (start_of r' st') root.
Proof.
  intros E HP E' HP' Hcm Hd Hc Hc' root. pose proof (compiled_combinable O C fs Hfs _ _ _ _ Hc) as HCb.
  rewrite (compiled_meaning O C fs Hfs _ _ _ _ Hc), (compiled_meaning O C fs Hfs _ _ _ _ Hc').
  apply (compile_correct O C fs Hfs) in Hc. destruct Hc as (g & Hg & _). apply (compile_correct O C fs Hfs) in Hc'. destruct Hc' as (g' & Hg' & _).
  pose proof (proj2 (Hg g) eq_refl) as K. specialize (HCb g n K).
  inversion K as [ds0 l0 es H1 H2|ds0 p0 H1]; [|congruence]. rewrite E in H1. injection H1 as <- <-. subst es.
  destruct (Expand_perm fs _ _ _ HP _ H2) as (g1 & K1 & K2).
  inversion K1 as [|e0 n0 h0 p0 l0 d1 K3| | | ]; subst. inversion K3 as [|e0 n0 h0 p0 l0 d2 K4| | | ]; subst. clear K3.
  set (e := FEnv f ds []) in *.
  assert (Hcs : cstep (SDef n h1 e p :: SDef n h2 e q :: d2) (SDef n (one_method h1 h2) e (both c p q) :: d2)).
  { constructor; [exact Hcm|]. destruct HCb as [B1 B2]. assert (HPm : Permutation (map d_how (defs_named n g)) (map d_how (defs_named n (SDef n h1 e p :: SDef n h2 e q :: d2)))) by (apply Permutation_map, perm_filter; exact K2).
    split; [rewrite <- (proj1 (Permutation_count_occ method_eq_dec _ _) HPm); exact B1|]. intros [B3 B4]. apply B2. split; eapply Permutation_in; try (apply Permutation_sym; exact HPm); assumption. }
  assert (HS1 : same_gram g (SDef n h1 e p :: SDef n h2 e q :: d2)).
  { destruct (same_gram_refl (SDef n h1 e p :: SDef n h2 e q :: d2)) as (h & P & F). exists h. split; [etransitivity; [exact K2 | exact P] | exact F]. }
  assert (HS2 : same_gram (SDef n (one_method h1 h2) e (both c p q) :: d2) g').
  { assert (K5 : Expand fs e (GDefine n (one_method h1 h2) (both c p q) :: rest) (SDef n (one_method h1 h2) e (both c p q) :: d2)) by (constructor; exact K4).
    destruct (Expand_perm fs _ _ _ (Permutation_sym HP') _ K5) as (g2 & L1 & L2).
    destruct (Expand_same fs _ _ _ L1 (FEnv f' ds [])) as (g3 & L3 & L4); [constructor; [exact Hd | reflexivity..]|].
    assert (g3 = g') by (apply Hg'; eapply Fg_grammar; eassumption). subst g3. exists g2. auto. }
  assert (HT : forall x y a m, same_gram x y -> SN fs O C true [x] a m (lit "start") -> SN fs O C true [y] a m (lit "start")).
  { intros x y a m HS J. eapply (proj1 (proj2 (proj2 (SM_same fs O C true)))); [exact J|]. constructor; [exact HS | constructor]. }
  unfold schema_valid. split; intros (x & J1 & J2).
  - apply Hg in J1. subst x. exists g'. split; [apply Hg'; reflexivity|]. eapply HT; [exact HS2|]. eapply (proj1 (SN_step fs O C true _ _ _ _ _ Hcs)). eapply HT; [exact HS1 | exact J2].
  - apply Hg' in J1. subst x. exists g. split; [apply Hg; reflexivity|]. eapply HT; [apply same_gram_sym; exact HS1|]. eapply (proj2 (SN_step fs O C true _ _ _ _ _ Hcs)). eapply HT; [apply same_gram_sym; exact HS2 | exact J2].
Qed.
