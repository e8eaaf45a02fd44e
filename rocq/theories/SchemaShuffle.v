(** * SchemaShuffle: the order of the definitions, divs and includes of a file does not matter for whether a schema compiles either (C29). *)
From Coq Require Import Permutation String.
From Verif Require Import Base Datatype Facets Store Lang Compile Syntax SchemaCompile Spec SourceSpec SourceScope SourceTr SourceSem SourceCompile SchemaSpec SchemaMain SchemaOrder SchemaVisit SchemaTerm SchemaLocal SchemaGood SchemaProgress SchemaKept.

(** ** The same files, but for the order of what stands in grammar files *)
Inductive same_top : top -> top -> Prop :=
| St_grammar l l' : Permutation l l' -> same_top (TGrammar l) (TGrammar l')
| St_pattern p : same_top (TPattern p) (TPattern p).
Inductive same_answer : schema + nat -> schema + nat -> Prop :=
| Sa_schema ds t t' : same_top t t' -> same_answer (inl (Schema ds t)) (inl (Schema ds t'))
| Sa_error e : same_answer (inr e) (inr e).
Definition shuffled (fs fs' : filesys) : Prop := forall f, same_answer (fs f) (fs' f).
Lemma shuffled_sym fs fs' : shuffled fs fs' -> shuffled fs' fs.
Proof. intros H f. destruct (H f) as [ds t t' [l l' P|p]|e]; repeat constructor. apply Permutation_sym. exact P. Qed.

Section Shuffle.
Variable fs fs' : filesys.
Hypothesis HS : shuffled fs fs'.
Lemma sh_pattern f ds p : fs f = inl (Schema ds (TPattern p)) -> fs' f = inl (Schema ds (TPattern p)).
Proof. intros E. pose proof (HS f) as H. rewrite E in H. inversion H as [? ? ? T|]; subst. inversion T; subst. reflexivity. Qed.
Lemma sh_grammar f ds l : fs f = inl (Schema ds (TGrammar l)) -> exists l', fs' f = inl (Schema ds (TGrammar l')) /\ Permutation l l'.
Proof. intros E. pose proof (HS f) as H. rewrite E in H. inversion H as [? ? ? T|]; subst. inversion T; subst. eauto. Qed.
Lemma sh_error f e : fs f = inr e -> fs' f = inr e.
Proof. intros E. pose proof (HS f) as H. rewrite E in H. inversion H; subst. reflexivity. Qed.
Lemma sh_contents f s c : fs f = inl s -> file_contents s c -> exists s' c', fs' f = inl s' /\ s_decls s' = s_decls s /\ file_contents s' c' /\ Permutation c c'.
Proof.
  intros E H. destruct H as [ds l|ds l].
  - destruct (sh_grammar _ _ _ E) as (l' & E' & P). exists (Schema ds (TGrammar l')), l'. repeat split; [exact E' | constructor | exact P].
  - exists (Schema ds (TPattern (SGrammar l))), l. repeat split; [apply sh_pattern; exact E | constructor | apply Permutation_refl].
Qed.
Lemma sh_names : (forall f k n p, Names fs f k n p -> Names fs' f k n p) /\ (forall f k n g, NamesC fs f k n g -> NamesC fs' f k n g).
Proof.
  pose proof (names_mut fs (fun f k n p _ => Names fs' f k n p) (fun f k n g _ => NamesC fs' f k n g)) as H.
  apply H; clear H; intros.
  - constructor.
  - constructor.
  - eapply Na_child; eassumption.
  - eapply Na_grammar; eassumption.
  - eapply Na_external; eauto using sh_pattern.
  - match goal with E : fs _ = _ |- _ => destruct (sh_grammar _ _ _ E) as (l' & E' & P) end. eapply Na_external_grammar; [eassumption | exact E' | eapply Permutation_in; eassumption | assumption].
  - constructor; assumption.
  - eapply Nc_div; eassumption.
  - eapply Nc_override; eassumption.
  - match goal with E : fs _ = _, F : file_contents _ _ |- _ => destruct (sh_contents _ _ _ E F) as (s' & c' & E' & _ & F' & P) end. eapply Nc_include; [eassumption | exact E' | exact F' | eapply Permutation_in; eassumption | assumption].
Qed.
Lemma sh_shows f p : Shows fs f p -> Shows fs' f p.
Proof. induction 1; [apply Sh_here | eapply Sh_child; eassumption | eapply Sh_external; eauto using sh_pattern]. Qed.
Lemma sh_mentioned r h f s : fs f = inl s -> mentioned r h s -> exists s', fs' f = inl s' /\ mentioned r h s'.
Proof.
  intros E H. destruct s as [ds [p|l]]; [exists (Schema ds (TPattern p)); split; [apply sh_pattern; exact E | exact H]|].
  destruct (sh_grammar _ _ _ E) as (l' & E' & P). exists (Schema ds (TGrammar l')). split; [exact E'|].
  destruct r; cbn [mentioned] in *; inversion H; subst; econstructor; try eassumption; eapply Permutation_in; eassumption.
Qed.
Lemma sh_occurs q f s : fs f = inl s -> file_occurs q s -> exists s', fs' f = inl s' /\ file_occurs q s'.
Proof.
  intros E H. destruct s as [ds [p|l]]; [exists (Schema ds (TPattern p)); split; [apply sh_pattern; exact E | exact H]|].
  destruct (sh_grammar _ _ _ E) as (l' & E' & P). exists (Schema ds (TGrammar l')). split; [exact E'|]. inversion H; subst; econstructor; try eassumption; eapply Permutation_in; eassumption.
Qed.
Lemma sh_opens f f' : Opens fs f f' -> Opens fs' f f'.
Proof. intros (s & r & h & E & M & R). destruct (sh_mentioned _ _ _ _ E M) as (s' & E' & M'). exists s', r, h. auto. Qed.
Lemma sh_trail n f f' : Trail fs n f f' -> Trail fs' n f f'.
Proof. induction 1; [constructor | econstructor; eauto using sh_opens]. Qed.
Lemma sh_expand e l ds : Expand fs e l ds -> exists ds', Expand fs' e l ds' /\ Permutation ds ds'.
Proof.
  induction 1 as [e|e n h p l ds H (d' & K1 & K2)|e l1 l ds1 ds H1 (d1 & K1 & K2) H (d2 & K3 & K4)|e a l ds H (d' & K1 & K2)|e href inh ov l f s c u ds inner Hr Hf Hc Hi H1 (d1 & K1 & K2) os Hos H (d2 & K3 & K4)].
  - exists []. split; constructor.
  - eexists. split; [constructor; exact K1 | constructor; exact K2].
  - eexists. split; [constructor; eassumption | apply Permutation_app; assumption].
  - eexists. split; [constructor; exact K1 | exact K2].
  - destruct (sh_contents _ _ _ Hf Hc) as (s' & c' & E' & Ed & Fc & P). rewrite <- Ed in K1. destruct (Expand_perm fs' _ _ _ P _ K1) as (d3 & K5 & K6).
    assert (K7 : Permutation inner d3) by (etransitivity; eassumption). eexists. split.
    + eapply Ex_include; [exact Hr | exact E' | exact Fc | exact Hi | exact K5 | | exact K3]. intros x Hx. apply (Permutation_in _ (Permutation_map d_name K7)). apply Hos. exact Hx.
    + apply Permutation_app_head, Permutation_app; [apply perm_filter; exact K7 | exact K4].
Qed.
Lemma sh_expand_perm e l l' ds : Permutation l l' -> Expand fs e l ds -> exists ds', Expand fs' e l' ds' /\ Permutation ds ds'.
Proof.
  intros P H. destruct (sh_expand _ _ _ H) as (d1 & K1 & K2). destruct (Expand_perm fs' _ _ _ P _ K1) as (d2 & K3 & K4). exists d2. split; [exact K3 | etransitivity; eassumption].
Qed.

(** ** The rules of SchemaGood.v *)
Variable O : oracles.
Variable C : coracles.
Variable st : bool.
Lemma combinable_perm hs hs' : Permutation hs hs' -> combinable hs -> combinable hs'.
Proof.
  intros P [A B]. split; [|intros [K1 K2]; apply B; split; eapply Permutation_in; try eassumption; apply Permutation_sym; exact P].
  rewrite <- (proj1 (Permutation_count_occ method_eq_dec hs hs') P MAssign). exact A.
Qed.
Lemma sh_grammar_fine pl e l l' : Permutation l l' -> grammar_fine fs st pl e l -> (forall f k n g, NamesC fs' f k n g -> NamesC fs f k n g) -> grammar_fine fs' st pl e l'.
Proof.
  intros P (ds & H1 & H2 & H3 & H4) HN. destruct (sh_expand_perm _ _ _ _ P H1) as (ds' & K1 & K2). exists ds'. split; [exact K1|]. split; [|split].
  - intros n. eapply combinable_perm; [|apply (H2 n)]. apply Permutation_map, perm_filter. exact K2.
  - apply (Permutation_in _ (Permutation_map d_name K2)). exact H3.
  - intros g n Hg Hn. apply HN in Hn. destruct (H4 g n) as [A B]; [eapply Permutation_in; [apply Permutation_sym; exact P | exact Hg] | exact Hn|]. split; [|exact B].
    intros K. apply (Permutation_in _ (Permutation_map d_name K2)). apply A, K.
Qed.
End Shuffle.

Section Rules.
Variable fs fs' : filesys.
Hypothesis HS : shuffled fs fs'.
Variable O : oracles.
Variable C : coracles.
Variable st : bool.
Let HS' := shuffled_sym _ _ HS.
Let names_back := proj1 (sh_names _ _ HS').
Let namesc_back := proj2 (sh_names _ _ HS').
Notation fine1 := (fine O C fs st). Notation fine2 := (fine O C fs' st).
Definition F_pat (p : spat) : Prop := forall f ds ov attr self, fine1 f ds ov attr self p -> fine2 f ds ov attr self p.
Definition F_con (g : gcontent) : Prop := forall f ds ov, content_fine O C fs st f ds ov g -> content_fine O C fs' st f ds ov g.
Definition F_ovr (i : icontent) : Prop := forall f ds h, override_fine O C fs st f ds h i -> override_fine O C fs' st f ds h i.
Lemma all_fine gs f ds ov l : (fix all (l : list gcontent) : Prop := match l with [] => True | g :: l' => content_fine O C gs st f ds ov g /\ all l' end) l <-> contents_fine O C gs st f ds ov l.
Proof. induction l as [|g l IH]; [reflexivity|]. cbn. rewrite IH. reflexivity. Qed.
Lemma contents_all gs f ds ov l : contents_fine O C gs st f ds ov l <-> forall g, In g l -> content_fine O C gs st f ds ov g.
Proof.
  induction l as [|g l IH]; cbn; [split; [intros _ g [] | auto]|]. rewrite IH. split; [intros [A B] x [<-|H]; auto | intros H; split; [apply H; left; reflexivity | intros x Hx; apply H; right; exact Hx]].
Qed.
Lemma sh_contents_fine l l' : Permutation l l' -> (forall g, F_con g) -> forall f ds ov, contents_fine O C fs st f ds ov l -> contents_fine O C fs' st f ds ov l'.
Proof. intros P HF f ds ov H. apply contents_all. intros g Hg. apply HF. apply (proj1 (contents_all fs f ds ov l) H). eapply Permutation_in; [apply Permutation_sym; exact P | exact Hg]. Qed.
Lemma all_content l : Forall F_con l -> forall f ds ov, (fix all (l : list gcontent) : Prop := match l with [] => True | g :: l' => content_fine O C fs st f ds ov g /\ all l' end) l ->
  (fix all (l : list gcontent) : Prop := match l with [] => True | g :: l' => content_fine O C fs' st f ds ov g /\ all l' end) l.
Proof. intros H f ds ov K. induction H as [|g l Hg Hl IH]; [exact I|]. destruct K as [K1 K2]. split; [apply Hg; exact K1 | apply IH; exact K2]. Qed.
Lemma sh_fine : (forall p, F_pat p) /\ (forall g, F_con g) /\ (forall i, F_ovr i).
Proof.
  assert (H_gr : forall l, Forall F_con l -> F_pat (SGrammar l)).
  { intros l Hl f ds ov attr self (K1 & K2 & K3). split; [|split].
    - eapply sh_grammar_fine; [exact HS | apply Permutation_refl | exact K1 | exact namesc_back].
    - intros n g E Hg Hn. apply namesc_back in Hn. exact (K2 n g E Hg Hn).
    - apply all_content; assumption. }
  assert (H_ex : forall h i, F_pat (SExternal h i)).
  { intros h i f ds ov attr self (-> & f' & s' & K1 & K2 & K3). split; [reflexivity|]. destruct s' as [sd [q|l]]; cbn [s_top s_decls] in K3.
    - exists f', (Schema sd (TPattern q)). split; [exact K1|]. split; [apply (sh_pattern _ _ HS); exact K2|]. cbn [s_top]. intros E K. apply (sh_shows _ _ HS') in K. exact (K3 E K).
    - destruct (sh_grammar _ _ HS _ _ _ K2) as (l' & E' & P). exists f', (Schema sd (TGrammar l')). split; [exact K1|]. split; [exact E'|]. cbn [s_top s_decls]. destruct K3 as (K3 & K4 & K5). split; [exact K3|]. split.
      + eapply sh_grammar_fine; [exact HS | exact P | exact K4 | exact namesc_back].
      + intros n g E Hg Hn. apply namesc_back in Hn. eapply K5; [exact E | eapply Permutation_in; [apply Permutation_sym; exact P | exact Hg] | exact Hn]. }
  assert (H_gi : forall h inh ov, (match ov with Some l => Forall F_ovr l | None => True end) -> F_con (GInclude h inh ov)).
  { intros h inh [l|] Hl f ds ov K; [|exact I]. destruct K as [K1 K2]. split; [exact K1|]. clear K1. induction Hl as [|i l Hi Hl IH]; [exact I|]. destruct K2 as [K2 K3]. split; [apply Hi; exact K2 | apply IH; exact K3]. }
  assert (H_gv : forall l, Forall F_con l -> F_con (GDiv l)) by (intros l Hl f ds ov K; cbn [content_fine] in *; apply all_content; assumption).
  assert (H_gd : forall n how p, F_pat p -> F_con (GDefine n how p)) by (intros n how p IH f ds ov K; cbn [content_fine] in *; apply IH, K).
  assert (H_if : forall n how p, F_pat p -> F_ovr (IDefine n how p)).
  { intros n how p IH f ds h [K1 K2]. split; [apply IH; exact K1|]. intros r h' f' f'' k M1 M2 M3 HT. apply (sh_trail _ _ HS') in HT. exact (K2 r h' f' f'' k M1 M2 M3 HT). }
  assert (H_da : forall n ps ex, (match ex with Some e => F_pat e | None => True end) -> F_pat (SData n ps ex)).
  { intros n ps [ex|] IH f ds ov attr self [K1 K2]; (split; [exact K1|]); [|exact I]. apply IH, K2. }
  assert (H_iv : forall l, Forall F_ovr l -> F_ovr (IDiv l)) by (intros l _ f ds h K; exact K).
  split; [|split]; [apply (spat_ind' F_pat F_con F_ovr) | apply (gcontent_ind' F_pat F_con F_ovr) | apply (icontent_ind' F_pat F_con F_ovr)]; auto.
  all: try (intros; intros f ds ov attr self K; cbn [fine] in *; repeat match goal with K : _ /\ _ |- _ => destruct K end; repeat split; try assumption;
    match goal with H : F_pat _ |- _ => apply H; assumption end).
  all: try (intros; intros f ds ov attr self K; exact K).
  all: intros; intros f ds x; intros; assumption.
Qed.
Lemma sh_file_fine f s s' : fs f = inl s -> fs' f = inl s' -> file_fine O C fs st f s -> file_fine O C fs' st f s'.
Proof.
  intros E E' [K1 K2]. pose proof (HS f) as H. rewrite E, E' in H. inversion H as [ds t t' T|]; subst. split; [exact K1|]. cbn [s_top s_decls] in *. destruct T as [l l' P|p].
  - eapply sh_contents_fine; [exact P | apply sh_fine | exact K2].
  - destruct p; try (apply (proj1 sh_fine); exact K2). eapply sh_contents_fine; [apply Permutation_refl | apply sh_fine | exact K2].
Qed.
Lemma sh_role_fine r f s s' : fs f = inl s -> fs' f = inl s' -> role_fine O C fs st r f s -> role_fine O C fs' st r f s'.
Proof.
  intros E E' K. destruct r; [eapply sh_file_fine; eassumption|]. pose proof (HS f) as H. rewrite E, E' in H. inversion H as [ds t t' T|]; subst. cbn [role_fine s_top s_decls] in *. destruct T as [l l' P|p].
  - eapply sh_contents_fine; [exact P | apply sh_fine | exact K].
  - apply (proj1 sh_fine), K.
Qed.
Theorem sh_rules name : rules O C fs st name -> rules O C fs' st name.
Proof.
  intros ((L & A1) & A2 & A3 & A4 & A5). split; [|split; [|split; [|split]]].
  - exists L. intros m f K. apply (sh_trail _ _ HS') in K. exact (A1 m f K).
  - intros m f k K1 K2. apply (sh_trail _ _ HS') in K1. apply (sh_trail _ _ HS') in K2. exact (A2 m f k K1 K2).
  - intros s' E'. pose proof (HS name) as H. rewrite E' in H. inversion H as [ds t t' T E|]; subst. eapply sh_file_fine; [symmetry; exact E | exact E' | apply A3; symmetry; exact E].
  - intros m f s' r h f' s'' HT E' HM HR E''. apply (sh_trail _ _ HS') in HT. destruct (sh_mentioned _ _ HS' _ _ _ _ E' HM) as (s & E & HM1).
    pose proof (HS f') as H. rewrite E'' in H. inversion H as [ds t t' T Ef|]; subst. eapply sh_role_fine; [symmetry; exact Ef | exact E'' | eapply A4; [exact HT | exact E | exact HM1 | exact HR | symmetry; exact Ef]].
  - unfold top_fine in *. destruct (fs name) as [[ds [p|l]]|e] eqn:E; [| |destruct A5].
    + rewrite (sh_pattern _ _ HS _ _ _ E). destruct A5 as [K1 K2]. split; [apply (proj1 sh_fine); exact K1|]. intros k n K. apply names_back in K. exact (K2 k n K).
    + destruct (sh_grammar _ _ HS _ _ _ E) as (l' & E' & P). rewrite E'. destruct A5 as [K1 K2]. split; [eapply sh_grammar_fine; [exact HS | exact P | exact K1 | exact namesc_back]|].
      intros g k n Hg K. apply namesc_back in K. eapply K2; [eapply Permutation_in; [apply Permutation_sym; exact P | exact Hg] | exact K].
Qed.
Lemma sh_tidy name : tidy fs name -> tidy fs' name.
Proof.
  intros (T1 & T2 & T3). split; [|split].
  - intros m f s' l g n HT E' HO Hg Hn. apply (sh_trail _ _ HS') in HT. destruct (sh_occurs _ _ HS' _ _ _ E' HO) as (s & E & HO1). apply namesc_back in Hn. destruct (T1 m f s l g n HT E HO1 Hg Hn) as [A B]. split; [exact A|].
    intros ds x HX. destruct (sh_expand _ _ HS' _ _ _ HX) as (x' & K1 & K2). apply (Permutation_in _ (Permutation_map d_name (Permutation_sym K2))). exact (B ds x' K1).
  - intros m f s' h f' ds l HT E' HO HR E''. apply (sh_trail _ _ HS') in HT. destruct (sh_occurs _ _ HS' _ _ _ E' HO) as (s & E & HO1). destruct (sh_grammar _ _ HS' _ _ _ E'') as (l' & K & _). exact (T2 m f s h f' ds l' HT E HO1 HR K).
  - intros ds p k n E' K. apply (sh_pattern _ _ HS') in E'. apply names_back in K. exact (T3 ds p k n E' K).
Qed.
(** ** [files_ok] *)
Lemma sh_ext f ds h inh : ext_ok fs f ds h inh -> ext_ok fs' f ds h inh.
Proof.
  intros [-> H]. split; [reflexivity|]. intros g s' R E'. pose proof (HS g) as K. rewrite E' in K. inversion K as [sd t t' T E|]; subst. specialize (H g _ R (eq_sym E)). destruct T; exact H.
Qed.
Lemma sh_pat_ok : (forall p f ds, pat_ok fs f ds p -> pat_ok fs' f ds p) /\ (forall g f ds, content_ok fs f ds g -> content_ok fs' f ds g) /\ (forall i f ds, override_ok fs f ds i -> override_ok fs' f ds i).
Proof.
  set (PP := fun p => forall f ds, pat_ok fs f ds p -> pat_ok fs' f ds p). set (GG := fun g => forall f ds, content_ok fs f ds g -> content_ok fs' f ds g). set (VV := fun i => forall f ds, override_ok fs f ds i -> override_ok fs' f ds i).
  assert (HL : forall l, Forall GG l -> forall f ds, (fix all (l : list gcontent) : Prop := match l with [] => True | g :: l' => content_ok fs f ds g /\ all l' end) l ->
    (fix all (l : list gcontent) : Prop := match l with [] => True | g :: l' => content_ok fs' f ds g /\ all l' end) l).
  { intros l H f ds K. induction H as [|g l Hg Hl IH]; [exact I|]. destruct K as [K1 K2]. split; [apply Hg; exact K1 | apply IH; exact K2]. }
  assert (HV : forall l, Forall VV l -> forall f ds, (fix all (l : list icontent) : Prop := match l with [] => True | g :: l' => override_ok fs f ds g /\ all l' end) l ->
    (fix all (l : list icontent) : Prop := match l with [] => True | g :: l' => override_ok fs' f ds g /\ all l' end) l).
  { intros l H f ds K. induction H as [|g l Hg Hl IH]; [exact I|]. destruct K as [K1 K2]. split; [apply Hg; exact K1 | apply IH; exact K2]. }
  assert (H_gr : forall l, Forall GG l -> PP (SGrammar l)) by (intros l Hl f ds K; cbn [pat_ok] in *; apply HL; assumption).
  assert (H_ex : forall h i, PP (SExternal h i)) by (intros h i f ds K; cbn [pat_ok] in *; apply sh_ext, K).
  assert (H_gi : forall h inh ov, (match ov with Some l => Forall VV l | None => True end) -> GG (GInclude h inh ov)).
  { intros h inh [l|] Hl f ds [K1 K2]; (split; [exact K1|]); [|exact I]. apply HV; assumption. }
  assert (H_gv : forall l, Forall GG l -> GG (GDiv l)) by (intros l Hl f ds K; cbn [content_ok] in *; apply HL; assumption).
  assert (H_gd : forall n how p, PP p -> GG (GDefine n how p)) by (intros n how p IH f ds K; cbn [content_ok] in *; apply IH, K).
  assert (H_if : forall n how p, PP p -> VV (IDefine n how p)) by (intros n how p IH f ds K; cbn [override_ok] in *; apply IH, K).
  assert (H_iv : forall l, Forall VV l -> VV (IDiv l)) by (intros l Hl f ds K; cbn [override_ok] in *; apply HV; assumption).
  assert (H_da : forall n ps ex, (match ex with Some e => PP e | None => True end) -> PP (SData n ps ex)) by (intros n ps [ex|] IH f ds [K1 K2]; (split; [exact K1|]); [apply IH, K2 | exact I]).
  split; [|split]; [apply (spat_ind' PP GG VV) | apply (gcontent_ind' PP GG VV) | apply (icontent_ind' PP GG VV)]; auto.
  all: try (intros; intros f ds K; cbn [pat_ok content_ok override_ok] in *; first [exact K | match goal with H : PP _ |- _ => apply H; exact K end]; fail).
  all: intros a b Ha Hb f ds [K1 K2]; split; [apply Ha; exact K1 | apply Hb; exact K2].
Qed.
Lemma contents_ok_all gs f ds l : contents_ok gs f ds l <-> forall g, In g l -> content_ok gs f ds g.
Proof.
  induction l as [|g l IH]; cbn; [split; [intros _ g [] | auto]|]. rewrite IH. split; [intros [A B] x [<-|H]; auto | intros H; split; [apply H; left; reflexivity | intros x Hx; apply H; right; exact Hx]].
Qed.
Theorem sh_files_ok : files_ok fs -> files_ok fs'.
Proof.
  intros H f s' E'. pose proof (HS f) as K. rewrite E' in K. inversion K as [ds t t' T E|]; subst. destruct (H f _ (eq_sym E)) as [K1 K2]. split; [exact K1|]. cbn [s_top s_decls] in *. destruct T as [l l' P|p].
  - apply contents_ok_all. intros g Hg. apply sh_pat_ok. apply (proj1 (contents_ok_all fs f ds l) K2). eapply Permutation_in; [apply Permutation_sym; exact P | exact Hg].
  - apply sh_pat_ok, K2.
Qed.
End Rules.

(** ** What the schema means *)
Section Meaning.
Variable fs fs' : filesys.
Hypothesis HS : shuffled fs fs'.
Variable O : oracles.
Variable C : coracles.
Variable w3 : bool.
Notation PG := (Forall2 (@Permutation sdef)).
Lemma perm_same (g g' : list sdef) : Permutation g g' -> same_gram g g'.
Proof. intros P. exists g'. split; [exact P|]. clear. induction g'; constructor; [apply same_def_refl | assumption]. Qed.
Lemma same_self G : Forall2 same_gram G G. Proof. induction G; constructor; [apply same_gram_refl | assumption]. Qed.
Lemma sh_external e h i e' p : External fs e h i e' p -> exists p', External fs' e h i e' p' /\ (p' = p \/ exists l l', p = SGrammar l /\ p' = SGrammar l' /\ Permutation l l').
Proof.
  intros [f s u H1 H2 H3]. pose proof (HS f) as K. rewrite H2 in K. inversion K as [ds t t' T E E'|]; subst. exists (top_pattern (Schema ds t')). split.
  - exact (External_file fs' e h i f (Schema ds t') u H1 (eq_sym E') H3).
  - destruct T as [l l' P|q]; [right; exists l, l'; auto | left; reflexivity].
Qed.
Lemma SX_order e G l l' s b : Permutation l l' -> SX fs' O C e G (SGrammar l) s b -> SX fs' O C e G (SGrammar l') s b.
Proof.
  intros P H. inversion H; subst. match goal with K : Expand _ _ _ _ |- _ => destruct (Expand_perm fs' _ _ _ P _ K) as (d & K1 & K2) end. econstructor; [exact K1|].
  eapply (proj1 (proj2 (SX_same fs' O C))); [eassumption|]. constructor; [apply perm_same; exact K2 | apply same_self].
Qed.
Lemma SM_order e G a m l l' : Permutation l l' -> SM fs' O C w3 e G a m (SGrammar l) -> SM fs' O C w3 e G a m (SGrammar l').
Proof.
  intros P H. inversion H; subst. match goal with K : Expand _ _ _ _ |- _ => destruct (Expand_perm fs' _ _ _ P _ K) as (d & K1 & K2) end. econstructor; [exact K1|].
  eapply (proj1 (proj2 (proj2 (SM_same fs' O C w3)))); [eassumption|]. constructor; [apply perm_same; exact K2 | apply same_self].
Qed.
Lemma sh_SX : (forall e G p s b, SX fs O C e G p s b -> forall G', PG G G' -> SX fs' O C e G' p s b) /\
  (forall G n s b, SXN fs O C G n s b -> forall G', PG G G' -> SXN fs' O C G' n s b) /\
  (forall G ds s b, SXD fs O C G ds s b -> forall G', PG G G' -> SXD fs' O C G' ds s b).
Proof.
  apply SX_mutual; intros; try (econstructor; eauto; fail).
  - match goal with H : PG _ _ |- _ => inversion H; subst end. constructor; auto.
  - match goal with K : Expand _ _ _ _ |- _ => destruct (sh_expand _ _ HS _ _ _ K) as (d & K1 & K2) end. econstructor; [exact K1|]. match goal with H : forall G', _ -> SXN _ _ _ _ _ _ _ |- _ => apply H end. constructor; assumption.
  - match goal with K : External _ _ _ _ _ _ |- _ => destruct (sh_external _ _ _ _ _ K) as (p' & K1 & [->|(l & l' & -> & -> & P)]) end; [econstructor; eauto|]. econstructor; [exact K1|]. eapply SX_order; eauto.
  - match goal with H : PG _ _ |- _ => inversion H as [|? g' ? G1 P]; subst end. constructor.
    + intros d Hd. match goal with H : forall d, _ -> d_how d <> _ |- _ => apply H end. eapply Permutation_in; [apply Permutation_sym, perm_filter; exact P | exact Hd].
    + eapply SXD_perm; [apply perm_filter; exact P|]. match goal with H : forall G', _ -> SXD _ _ _ _ _ _ _ |- _ => apply H end. constructor; assumption.
Qed.
Lemma sh_SM : (forall e G a m p, SM fs O C w3 e G a m p -> forall G', PG G G' -> SM fs' O C w3 e G' a m p) /\
  (forall e G a m p, SW fs O C w3 e G a m p -> forall G', PG G G' -> SW fs' O C w3 e G' a m p) /\
  (forall G a m n, SN fs O C w3 G a m n -> forall G', PG G G' -> SN fs' O C w3 G' a m n) /\
  (forall G a m ds, SI fs O C w3 G a m ds -> forall G', PG G G' -> SI fs' O C w3 G' a m ds).
Proof.
  apply SM_mutual; intros; try (econstructor; eauto; fail).
  - eapply SM_except; eauto. eapply sh_SX; eauto.
  - match goal with H : PG _ _ |- _ => inversion H; subst end. constructor; auto.
  - match goal with K : Expand _ _ _ _ |- _ => destruct (sh_expand _ _ HS _ _ _ K) as (d & K1 & K2) end. econstructor; [exact K1|]. match goal with H : forall G', _ -> SN _ _ _ _ _ _ _ _ |- _ => apply H end. constructor; assumption.
  - match goal with K : External _ _ _ _ _ _ |- _ => destruct (sh_external _ _ _ _ _ K) as (p' & K1 & [->|(l & l' & -> & -> & P)]) end; [econstructor; eauto|]. econstructor; [exact K1|]. eapply SM_order; eauto.
  - match goal with H : PG _ _ |- _ => inversion H as [|? g' ? G1 P]; subst end. eapply SN_choice with (d := d).
    + intros d0 Hd. match goal with H : forall d, _ -> d_how d <> _ |- _ => apply H end. eapply Permutation_in; [apply Permutation_sym, perm_filter; exact P | exact Hd].
    + eapply Permutation_in; [apply perm_filter; exact P | assumption].
    + match goal with H : forall G', _ -> SM _ _ _ _ _ _ _ _ _ |- _ => apply H end. constructor; assumption.
  - match goal with H : PG _ _ |- _ => inversion H as [|? g' ? G1 P]; subst end. apply SN_interleave.
    + intros d0 Hd. match goal with H : forall d, _ -> d_how d <> _ |- _ => apply H end. eapply Permutation_in; [apply Permutation_sym, perm_filter; exact P | exact Hd].
    + eapply SI_perm; [apply perm_filter; exact P|]. match goal with H : forall G', _ -> SI _ _ _ _ _ _ _ _ |- _ => apply H end. constructor; assumption.
Qed.
End Meaning.
Lemma sh_valid fs fs' O C name root : shuffled fs fs' -> schema_valid fs O C name root -> schema_valid fs' O C name root.
Proof.
  intros HS (g & Hg & K). assert (exists g', file_grammar fs' name g' /\ Permutation g g') as (g' & Hg' & P).
  { destruct Hg as [ds l es E HX|ds p E].
    - destruct (sh_grammar _ _ HS _ _ _ E) as (l' & E' & P). destruct (sh_expand_perm _ _ HS _ _ _ _ P HX) as (es' & K1 & K2). exists es'. split; [eapply Fg_grammar; eassumption | exact K2].
    - eexists. split; [eapply Fg_pattern; eapply sh_pattern; eassumption | apply Permutation_refl]. }
  exists g'. split; [exact Hg'|]. eapply (proj1 (proj2 (proj2 (sh_SM fs fs' HS O C true)))); [exact K|]. constructor; [exact P | constructor].
Qed.

(** ** C29 *)
Theorem shuffled_compiles O C fs fs' name : files_ok fs -> tidy fs name -> shuffled fs fs' ->
  ((exists d r st, compile_grammar O C fs d name = fok (r, st)) <-> (exists d r st, compile_grammar O C fs' d name = fok (r, st))).
Proof.
  intros Hok HT HS. rewrite (compiles_iff_correct O C fs Hok name HT), (compiles_iff_correct O C fs' (sh_files_ok _ _ HS Hok) name (sh_tidy _ _ HS name HT)).
  split; apply sh_rules; [exact HS | apply shuffled_sym; exact HS].
Qed.
Theorem shuffled_meaning O C fs fs' : files_ok fs -> shuffled fs fs' -> forall d d' name r st r' st', compile_grammar O C fs d name = fok (r, st) -> compile_grammar O C fs' d' name = fok (r', st') ->
  forall root, rng_valid O (cell_defs st) (start_of r st) root <-> rng_valid O (cell_defs st') (start_of r' st') root.
Proof.
  intros Hok HS d d' name r st r' st' H H' root. rewrite (compiled_meaning O C fs Hok _ _ _ _ H), (compiled_meaning O C fs' (sh_files_ok _ _ HS Hok) _ _ _ _ H').
  split; apply sh_valid; [exact HS | apply shuffled_sym; exact HS].
Qed.

(** every grammar file backwards *)
Definition reversed (fs : filesys) : filesys := fun f => match fs f with inl (Schema ds (TGrammar l)) => inl (Schema ds (TGrammar (rev l))) | a => a end.
Lemma reversed_shuffled fs : shuffled fs (reversed fs).
Proof. intros f. unfold reversed. destruct (fs f) as [[ds [p|l]]|e]; repeat constructor. apply Permutation_rev. Qed.
