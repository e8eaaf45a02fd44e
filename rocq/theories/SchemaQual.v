(** * SchemaQual: a schema whose element names are all prefixed does not depend on its default namespace (C41). *)
From Coq Require Import Permutation String.
From Verif Require Import Base Datatype Facets Store Lang Compile Syntax SchemaCompile Spec SourceSpec SourceScope SourceTr SourceSem SourceCompile SchemaMain SchemaDefault SchemaOrder.

(** ** Vocabulary: no name without prefix in a name class, in the elements of a pattern; no [inherit] *)
Fixpoint prefixed (n : snc) : Prop :=
  match n with
  | CName (NmId _) => False
  | CName _ => True
  | CNs _ ex | CAny ex => match ex with Some e => prefixed e | None => True end
  | CAlt a b => prefixed a /\ prefixed b
  | CParen a => prefixed a
  end.
(** [Q] holds of the name class of every element; nothing is inherited *)
Section Use.
Variable Q : snc -> Prop.
Fixpoint pat_uses (p : spat) : Prop :=
  match p with
  | SExternal _ inh => inh = None
  | SGrammar l => (fix all (l : list gcontent) : Prop := match l with [] => True | g :: l' => content_uses g /\ all l' end) l
  | SData _ _ ex => match ex with Some e => pat_uses e | None => True end
  | SElement nc q => Q nc /\ pat_uses q
  | SAttribute _ q | SList q | SMixed q | SGroup q | SOptional q | SZeroOrMore q | SOneOrMore q => pat_uses q
  | SListPair a b | SInterleavePair a b | SChoicePair a b => pat_uses a /\ pat_uses b
  | SIdent _ | SParent _ | SEmpty | SText | SNotAllowed | SValue _ _ => True
  end
with content_uses (g : gcontent) : Prop :=
  match g with
  | GDefine _ _ p => pat_uses p
  | GDiv l => (fix all (l : list gcontent) : Prop := match l with [] => True | g :: l' => content_uses g /\ all l' end) l
  | GInclude _ inh ov => inh = None /\
      match ov with
      | Some l => (fix all (l : list icontent) : Prop := match l with [] => True | i :: l' => override_uses i /\ all l' end) l
      | None => True
      end
  | GAnnotation _ => True
  end
with override_uses (i : icontent) : Prop :=
  match i with
  | IDefine _ _ p => pat_uses p
  | IDiv l => (fix all (l : list icontent) : Prop := match l with [] => True | i :: l' => override_uses i /\ all l' end) l
  | IAnnotation _ => True
  end.
Fixpoint contents_use (l : list gcontent) : Prop := match l with [] => True | g :: l' => content_uses g /\ contents_use l' end.
Lemma uses_grammar l : pat_uses (SGrammar l) = contents_use l.
Proof. induction l as [|g l IH]; [reflexivity|]. change (pat_uses (SGrammar (g :: l))) with (content_uses g /\ pat_uses (SGrammar l)). rewrite IH. reflexivity. Qed.
Lemma uses_div l : content_uses (GDiv l) = contents_use l.
Proof. induction l as [|g l IH]; [reflexivity|]. change (content_uses (GDiv (g :: l))) with (content_uses g /\ content_uses (GDiv l)). rewrite IH. reflexivity. Qed.
Definition schema_uses (s : schema) : Prop := match s_top s with TPattern p => pat_uses p | TGrammar l => contents_use l end.
End Use.
Definition names (q : bool) (n : snc) : Prop := if q then prefixed n else True.

Ltac simp := repeat match goal with H : pat_uses _ (SGrammar _) |- _ => rewrite uses_grammar in H | H : pat_uses _ _ |- _ => progress cbn [pat_uses] in H end;
  repeat match goal with H : pat_uses _ _ /\ pat_uses _ _ |- _ => destruct H end.
Section Two.
Variables fs fs' : filesys.
Variables Pd Pd' : fenv -> Prop.
Definition same_ns (ds ds' : list decl) : Prop := (forall p u, binds_ns ds p u <-> binds_ns ds' p u) /\ (forall p u, binds_dt ds p u <-> binds_dt ds' p u).
Definition same_default (e e' : fenv) : Prop := forall u, default_ns e u <-> default_ns e' u.
Hypothesis files : forall f s, fs f = inl s -> exists s', fs' f = inl s' /\ s_top s' = s_top s /\ same_ns (s_decls s) (s_decls s') /\
  exists q, schema_uses (names q) s /\ (q = true \/ forall i i', Pd (FEnv f (s_decls s) i) -> Pd' (FEnv f (s_decls s') i') -> same_default (FEnv f (s_decls s) i) (FEnv f (s_decls s') i')).
Hypothesis down : forall e u, Pd e -> default_ns e u -> forall f s, fs f = inl s -> Pd (FEnv f (s_decls s) u).
Hypothesis down' : forall e u, Pd' e -> default_ns e u -> forall f s, fs' f = inl s -> Pd' (FEnv f (s_decls s) u).
Hypothesis has' : forall e, Pd' e -> exists u, default_ns e u.
Record renv (q : bool) (e e' : fenv) : Prop := {
  re_path : fe_path e' = fe_path e;
  re_ns : same_ns (fe_decls e) (fe_decls e');
  re_pd : Pd e; re_pd' : Pd' e';
  re_default : q = true \/ same_default e e' }.
Record rdef (d d' : sdef) : Prop := {
  rd_name : d_name d' = d_name d; rd_how : d_how d' = d_how d; rd_body : d_body d' = d_body d;
  rd_env : exists q, renv q (d_env d) (d_env d') /\ pat_uses (names q) (d_body d) }.
Notation rgram := (Forall2 rdef).

Lemma rnames l l' : Forall2 rdef l l' -> names_of l' = names_of l.
Proof. unfold names_of. induction 1 as [|d d' l l' H _ IH]; [reflexivity|]. cbn. rewrite IH, (rd_name _ _ H). reflexivity. Qed.
Lemma rfilter (f : sdef -> bool) l l' : (forall d d', rdef d d' -> f d' = f d) -> Forall2 rdef l l' -> Forall2 rdef (filter f l) (filter f l').
Proof. intros Hf. induction 1 as [|d d' l l' H _ IH]; [constructor|]. cbn. rewrite (Hf _ _ H). destruct (f d); [constructor; assumption | exact IH]. Qed.
Lemma rnamed n g g' : rgram g g' -> rgram (defs_named n g) (defs_named n g').
Proof. apply rfilter. intros d d' H. unfold is_named. rewrite (rd_name _ _ H). reflexivity. Qed.
Lemma rin g g' d : rgram g g' -> In d g -> exists d', In d' g' /\ rdef d d'.
Proof.
  intros F H. induction F as [|x y h g' Hxy _ IH]; [destruct H|]. destruct H as [->|H]; [exists y; split; [left; reflexivity | exact Hxy]|].
  destruct (IH H) as (d' & K1 & K2). exists d'. split; [right; exact K1 | exact K2].
Qed.
Lemma rin' g g' d' : rgram g g' -> In d' g' -> exists d, In d g /\ rdef d d'.
Proof.
  intros F H. induction F as [|x y h g' Hxy _ IH]; [destruct H|]. destruct H as [->|H]; [exists x; split; [left; reflexivity | exact Hxy]|].
  destruct (IH H) as (d & K1 & K2). exists d. split; [right; exact K1 | exact K2].
Qed.
Lemma overrides_r q e e' ov : renv q e e' -> (fix all (l : list icontent) : Prop := match l with [] => True | i :: l' => override_uses (names q) i /\ all l' end) ov -> Forall2 rdef (overrides e ov) (overrides e' ov).
Proof.
  intros H. assert (H1 : forall i, override_uses (names q) i -> Forall2 rdef (overrides1 e i) (overrides1 e' i)).
  { fix IH 1. intros [n h p|l|a]; cbn; intros Hu.
    - constructor; [|constructor]. constructor; cbn; auto. exists q. auto.
    - revert Hu. induction l as [|x l IHl]; intros Hu; [constructor|]. destruct Hu as [U1 U2]. apply Forall2_app; [apply IH; exact U1 | apply IHl; exact U2].
    - constructor. }
  induction ov as [|x ov IH]; intros Hu; [constructor|]. destruct Hu as [U1 U2]. cbn. apply Forall2_app; auto.
Qed.
(** a file read from related scopes, without [inherit] *)
Lemma into e e' q f s u : renv q e e' -> default_ns e u -> fs f = inl s ->
  exists s' u', fs' f = inl s' /\ s_top s' = s_top s /\ default_ns e' u' /\ exists q', renv q' (FEnv f (s_decls s) u) (FEnv f (s_decls s') u') /\ schema_uses (names q') s.
Proof.
  intros [A B P P' D] Hu Hf. destruct (files f s Hf) as (s' & Hf' & Ht & Hn & q' & Hs & Hd). destruct (has' e' P') as [u' Hu']. exists s', u'. split; [exact Hf'|]. split; [exact Ht|]. split; [exact Hu'|].
  exists q'. split; [|exact Hs]. pose proof (down e u P Hu f s Hf) as K. pose proof (down' e' u' P' Hu' f s' Hf') as K'.
  constructor; [reflexivity | exact Hn | exact K | exact K' |]. destruct Hd as [Hd|Hd]; [left; exact Hd | right; apply Hd; assumption].
Qed.
Lemma contents_of s c : file_contents s c -> forall Q, schema_uses Q s -> contents_use Q c.
Proof. intros [ds l|ds l] Q; unfold schema_uses; cbn [s_top]; intros H; [exact H | rewrite uses_grammar in H; exact H]. Qed.
Lemma contents_top s s' c : s_top s' = s_top s -> file_contents s c -> file_contents s' c.
Proof. intros Ht Hc; destruct Hc as [ds l|ds l]; destruct s' as [ds' t]; cbn in Ht; subst t; constructor. Qed.
Lemma Expand_r e l ds : Expand fs e l ds -> forall q e', renv q e e' -> contents_use (names q) l -> exists ds', Expand fs' e' l ds' /\ Forall2 rdef ds ds'.
Proof.
  induction 1 as [e|e n h p l ds H IH|e l1 l ds1 ds H1 IH1 H IH|e a l ds H IH|e href inh ov l f s c inherited ds inner Hr Hf Hc Hi H1 IH1 os Hos H IH]; intros q e' Se Hu; cbn [contents_use] in Hu.
  - exists []. split; constructor.
  - destruct Hu as [U1 U2]. destruct (IH q e' Se U2) as (ds' & K1 & K2). exists (SDef n h e' p :: ds'). split; [constructor; exact K1|]. constructor; [|exact K2]. constructor; cbn; auto. exists q. auto.
  - destruct Hu as [U1 U2]. rewrite uses_div in U1. destruct (IH1 q e' Se U1) as (d1 & K1 & K2). destruct (IH q e' Se U2) as (d2 & K3 & K4). exists (d1 ++ d2). split; [constructor; assumption | apply Forall2_app; assumption].
  - destruct Hu as [U1 U2]. destruct (IH q e' Se U2) as (ds' & K1 & K2). exists ds'. split; [constructor; exact K1 | exact K2].
  - destruct Hu as [[-> U1] U2]. destruct (IH q e' Se U2) as (ds' & K1 & K2). cbn [hands_down] in Hi.
    destruct (into e e' q f s inherited Se Hi Hf) as (s' & u' & Hf' & Ht & Hu' & q' & Re & Hs).
    destruct (IH1 q' _ Re (contents_of _ _ Hc _ Hs)) as (in' & K3 & K4).
    assert (Ho : Forall2 rdef os (overrides e' (match ov with Some l => l | None => [] end))).
    { apply (overrides_r q); [exact Se|]. destruct ov as [lo|]; [exact U1 | exact I]. }
    pose proof (rnames _ _ Ho) as En. pose proof (rnames _ _ K4) as Ei.
    eexists. split.
    + eapply Ex_include with (s := s'); [rewrite (re_path _ _ _ Se); exact Hr | exact Hf' | eapply contents_top; eassumption | exact Hu' | exact K3 | rewrite En, Ei; exact Hos | exact K1].
    + apply Forall2_app; [exact Ho|]. apply Forall2_app; [|exact K2]. rewrite En. apply rfilter; [|exact K4]. intros d d' Hd. unfold not_among. rewrite (rd_name _ _ Hd). reflexivity.
Qed.
Lemma External_r q e e' h e1 p : renv q e e' -> External fs e h None e1 p -> exists e1' q', External fs' e' h None e1' p /\ renv q' e1 e1' /\ pat_uses (names q') p.
Proof.
  intros Se [f s u Hr Hf Hu]. cbn [hands_down] in Hu. destruct (into e e' q f s u Se Hu Hf) as (s' & u' & Hf' & Ht & Hu' & q' & Re & Hs).
  exists (FEnv f (s_decls s') u'), q'. split; [|split; [exact Re|]].
  - assert (E : top_pattern s = top_pattern s') by (unfold top_pattern; rewrite Ht; reflexivity). rewrite E. econstructor; [rewrite (re_path _ _ _ Se); exact Hr | exact Hf' | exact Hu'].
  - unfold schema_uses in Hs. unfold top_pattern. destruct (s_top s); [exact Hs | rewrite uses_grammar; exact Hs].
Qed.
Lemma in_snc_r q e e' el n x : renv q e e' -> (el = true -> names q n) -> in_snc e el n x <-> in_snc e' el n x.
Proof.
  intros H. destruct (re_ns _ _ _ H) as [Hn _]. revert n. fix IH 1. intros [[i|p l|u l]|nm ex|ex|a b|a] Hq; cbn [in_snc]; cbn [names prefixed] in Hq.
  - clear IH. destruct el; [|reflexivity]. destruct (re_default _ _ _ H) as [->|D]; [destruct (Hq eq_refl)|]. rewrite (D (uri x)). reflexivity.
  - rewrite (Hn p (uri x)). reflexivity.
  - reflexivity.
  - assert (E : match nm with NsPrefix p => binds_ns (fe_decls e) p (uri x) | NsUri u => uri x = lit_value u end <-> match nm with NsPrefix p => binds_ns (fe_decls e') p (uri x) | NsUri u => uri x = lit_value u end)
      by (destruct nm; [apply Hn | reflexivity]).
    rewrite E. destruct ex as [y|]; [|reflexivity]. rewrite (IH y); [reflexivity|]. destruct q; [exact Hq | intros; exact I].
  - destruct ex as [y|]; [|reflexivity]. rewrite (IH y); [reflexivity|]. destruct q; [exact Hq | intros; exact I].
  - rewrite (IH a), (IH b); [reflexivity | |]; (destruct q; [intros E; apply Hq; exact E | intros; exact I]).
  - apply IH. destruct q; [exact Hq | intros; exact I].
Qed.
Lemma denotes_r q e e' n d : renv q e e' -> denotes_dt e n d -> denotes_dt e' n d.
Proof. intros H [| |p l u K|]; constructor. apply (re_ns _ _ _ H). exact K. Qed.

Variable O : oracles.
Variable C : coracles.
Lemma SX_r :
  (forall e G p s b, SX fs O C e G p s b -> forall q e' G', renv q e e' -> pat_uses (names q) p -> Forall2 rgram G G' -> SX fs' O C e' G' p s b) /\
  (forall G n s b, SXN fs O C G n s b -> forall G', Forall2 rgram G G' -> SXN fs' O C G' n s b) /\
  (forall G ds s b, SXD fs O C G ds s b -> forall G' ds', rgram ds ds' -> Forall2 rgram G G' -> SXD fs' O C G' ds' s b).
Proof.
  apply SX_mutual; intros; simp;
    try (econstructor; eauto using denotes_r; fail).
  - match goal with H : Forall2 _ (g :: G) _ |- _ => inversion H; subst end. constructor; auto.
  - match goal with H : Expand _ _ _ _, R : renv _ _ _ |- _ => destruct (Expand_r _ _ _ H _ e' R) as (ds' & K1 & K2) end; [match goal with H : contents_use _ _ |- _ => exact H end|]. econstructor; [exact K1|].
    match goal with H : forall _, _ -> SXN _ _ _ _ _ _ _ |- _ => apply H end. constructor; assumption.
  - subst. match goal with H : External _ _ _ _ _ _, R : renv _ _ _ |- _ => destruct (External_r _ _ _ _ _ _ R H) as (e1' & q' & K1 & K2 & K3) end. econstructor; [exact K1|]. eauto.
  - match goal with H : Forall2 _ (g :: G) _ |- _ => inversion H; subst end.
    match goal with H : rgram g ?y |- _ => pose proof (rnamed n _ _ H) as Hs end. constructor.
    + intros d Hd. destruct (rin' _ _ _ Hs Hd) as (d0 & K1 & K2). rewrite (rd_how _ _ K2). auto.
    + match goal with H : forall _ _, _ -> _ -> SXD _ _ _ _ _ _ _ |- _ => apply H end; assumption.
  - f2 H1. f2 HF0. destruct HF1 as [E1 E2 E3 (q & Rq & Uq)]. constructor. rewrite E3. eapply H0; eassumption.
  - pose proof H3 as H3'. f2 H3. f2 HF0. constructor; [|apply H2; [constructor; assumption | assumption]]. destruct HF1 as [E1 E2 E3 (q & Rq & Uq)]. rewrite E3. eapply H0; eassumption.
Qed.
Lemma SM_r w3 :
  (forall e G a m p, SM fs O C w3 e G a m p -> forall q e' G', renv q e e' -> pat_uses (names q) p -> Forall2 rgram G G' -> SM fs' O C w3 e' G' a m p) /\
  (forall e G a m p, SW fs O C w3 e G a m p -> forall q e' G', renv q e e' -> pat_uses (names q) p -> Forall2 rgram G G' -> SW fs' O C w3 e' G' a m p) /\
  (forall G a m n, SN fs O C w3 G a m n -> forall G', Forall2 rgram G G' -> SN fs' O C w3 G' a m n) /\
  (forall G a m ds, SI fs O C w3 G a m ds -> forall G' ds', rgram ds ds' -> Forall2 rgram G G' -> SI fs' O C w3 G' a m ds').
Proof.
  apply SM_mutual; intros; simp;
    try (econstructor; eauto using denotes_r; fail).
  - constructor; [|eauto]. match goal with R : renv _ _ _ |- _ => refine (proj1 (in_snc_r _ _ _ _ _ _ R _) _) end; [intros E; discriminate E | assumption].
  - match goal with H : names _ _ /\ _ |- _ => destruct H as [Hn Hu] end. apply SM_element; [match goal with R : renv _ _ _ |- _ => refine (proj1 (in_snc_r _ _ _ _ _ _ R _) _) end; [intros _; exact Hn | assumption] | assumption | eauto | assumption | assumption].
  - eapply SM_except; eauto using denotes_r. eapply (proj1 SX_r); eassumption.
  - match goal with H : Forall2 _ (g :: G) _ |- _ => inversion H; subst end. constructor; auto.
  - match goal with H : Expand _ _ _ _, R : renv _ _ _ |- _ => destruct (Expand_r _ _ _ H _ e' R) as (ds' & K1 & K2) end; [match goal with H : contents_use _ _ |- _ => exact H end|]. econstructor; [exact K1|].
    match goal with H : forall _, _ -> SN _ _ _ _ _ _ _ _ |- _ => apply H end. constructor; assumption.
  - subst. match goal with H : External _ _ _ _ _ _, R : renv _ _ _ |- _ => destruct (External_r _ _ _ _ _ _ R H) as (e1' & q' & K1 & K2 & K3) end. econstructor; [exact K1|]. eauto.
  - match goal with H : Forall2 _ (g :: G) _ |- _ => inversion H; subst end.
    match goal with H : rgram g ?y |- _ => pose proof (rnamed n _ _ H) as Hs end.
    match goal with H : In d _ |- _ => destruct (rin _ _ _ Hs H) as (d' & K1 & K2) end. eapply SN_choice; [|exact K1|].
    + intros d0 Hd. destruct (rin' _ _ _ Hs Hd) as (d1 & L1 & L2). rewrite (rd_how _ _ L2). auto.
    + destruct K2 as [E1 E2 E3 (q & Rq & Uq)]. rewrite E3. eauto.
  - match goal with H : Forall2 _ (g :: G) _ |- _ => inversion H; subst end.
    match goal with H : rgram g ?y |- _ => pose proof (rnamed n _ _ H) as Hs end. apply SN_interleave.
    + intros d0 Hd. destruct (rin' _ _ _ Hs Hd) as (d1 & L1 & L2). rewrite (rd_how _ _ L2). auto.
    + eauto.
  - f2 H1. f2 HF0. destruct HF1 as [E1 E2 E3 (q & Rq & Uq)]. constructor. rewrite E3. eapply H0; eassumption.
  - f2 H5. f2 HF0. eapply SI_more; [eassumption | eassumption | |apply H4; [constructor; assumption | assumption]]. destruct HF1 as [E1 E2 E3 (q & Rq & Uq)]. rewrite E3. eapply H2; eassumption.
Qed.
Lemma valid_r f root : Pd (FEnv f (match fs f with inl s => s_decls s | inr _ => [] end) []) -> Pd' (FEnv f (match fs' f with inl s => s_decls s | inr _ => [] end) []) ->
  schema_valid fs O C f root -> schema_valid fs' O C f root.
Proof.
  intros P P' (ds & Hg & Hn).
  assert (HF : forall s, fs f = inl s -> exists s' q, fs' f = inl s' /\ s_top s' = s_top s /\ renv q (FEnv f (s_decls s) []) (FEnv f (s_decls s') []) /\ schema_uses (names q) s).
  { intros s Hf. destruct (files f s Hf) as (s' & Hf' & Ht & Hs & q & Hu & Hd). rewrite Hf in P. rewrite Hf' in P'. exists s', q. repeat split; try assumption.
    - apply Hs. - apply Hs. - apply Hs. - apply Hs. - destruct Hd as [Hd|Hd]; [left; exact Hd | right; apply Hd; assumption]. }
  destruct Hg as [dl l es Hf He|dl p Hf].
  - destruct (HF _ Hf) as ([dl' t] & q & Hf' & Ht & Re & Hu). cbn in Ht. subst t. destruct (Expand_r _ _ _ He q _ Re Hu) as (es' & K1 & K2).
    exists es'. split; [eapply Fg_grammar; eassumption|]. apply (proj1 (proj2 (proj2 (SM_r true))) _ _ _ _ Hn). constructor; [exact K2 | constructor].
  - destruct (HF _ Hf) as ([dl' t] & q & Hf' & Ht & Re & Hu). cbn in Ht. subst t. exists [SDef (lit "start") MAssign (FEnv f dl' []) p]. split; [apply Fg_pattern; exact Hf'|].
    apply (proj1 (proj2 (proj2 (SM_r true))) _ _ _ _ Hn). constructor; [|constructor]. constructor; [|constructor]. constructor; try reflexivity. exists q. split; [exact Re | exact Hu].
Qed.
End Two.

(** ** Files whose default namespace does not matter: no [default namespace = inherit], and either every element name is prefixed or the default namespace is "" *)
Definition blank_default (s : schema) : Prop := exists p l, In (DDefault p (UUri l)) (s_decls s) /\ forall p' l', In (DDefault p' (UUri l')) (s_decls s) -> lit_value l' = [].
Definition indifferent (s : schema) : Prop :=
  (forall p, ~ In (DDefault p UInherit) (s_decls s)) /\ (schema_uses prefixed s \/ (schema_uses (fun _ => True) s /\ blank_default s)).
Lemma in_undefault ds d : In d (flat_map undefault_decl ds) <-> exists d0, In d0 ds /\ In d (undefault_decl d0).
Proof. rewrite in_flat_map. reflexivity. Qed.
Lemma undefault_ns ds : same_ns ds (flat_map undefault_decl ds).
Proof.
  split; intros p u; split; intros H.
  - destruct H as [|p l H|p l H]; [constructor | apply Bn_ns; apply in_undefault; eexists; split; [exact H | left; reflexivity] | apply Bn_ns; apply in_undefault; eexists; split; [exact H | left; reflexivity]].
  - destruct H as [|p l H|p l H]; [constructor| |]; apply in_undefault in H; destruct H as (d0 & H & K); destruct d0 as [p0 [|u0]|[p0|] [|u0]|p0 u0]; cbn in K; try (destruct K; fail); (destruct K as [K|[]]); try discriminate K; injection K as -> ->; first [apply Bn_ns; exact H | apply Bn_default; exact H].
  - destruct H as [|p l H]; [constructor | apply Bd_decl; apply in_undefault; eexists; split; [exact H | left; reflexivity]].
  - destruct H as [|p l H]; [constructor|]. apply in_undefault in H. destruct H as (d0 & H & K). destruct d0 as [p0 [|u0]|[p0|] [|u0]|p0 u0]; cbn in K; try (destruct K; fail); destruct K as [K|[]]; try discriminate K. injection K as -> ->. apply Bd_decl. exact H.
Qed.
Lemma undefault_none ds : (forall p, ~ In (DDefault p UInherit) ds) -> forall p u, ~ In (DDefault p u) (flat_map undefault_decl ds).
Proof.
  intros H p u K. apply in_undefault in K. destruct K as (d0 & K & E). destruct d0 as [p0 [|u0]|[p0|] [|u0]|p0 u0]; cbn in E; try (destruct E; fail); destruct E as [E|[]]; try discriminate E. eapply H; exact K.
Qed.
Lemma default_dec ds : (exists p u, In (DDefault p u) ds) \/ (forall p u, ~ In (DDefault p u) ds).
Proof.
  induction ds as [|d ds [(p & u & H)|H]]; [right; intros ? ? [] | left; exists p, u; right; exact H|]. destruct d as [p0 u0|p0 u0|p0 u0]; try (right; intros p u [K|K]; [discriminate K | eapply H; exact K]).
  left. exists p0, u0. left. reflexivity.
Qed.

Section Main.
Variable fs : filesys.
Hypothesis ind : forall f s, fs f = inl s -> indifferent s.
Definition Po (e : fenv) : Prop := forall p, ~ In (DDefault p UInherit) (fe_decls e).
Definition Pu (e : fenv) : Prop := fe_inherited e = [] /\ forall p u, ~ In (DDefault p u) (fe_decls e).
Lemma Po_has e : Po e -> exists u, default_ns e u.
Proof.
  intros H. destruct (default_dec (fe_decls e)) as [(p & [|u] & K)|K]; [destruct (H p K) | exists (lit_value u); eapply Dn_declared; exact K | eexists; apply Dn_inherited; exact K].
Qed.
Lemma Pu_default e u : Pu e -> default_ns e u <-> u = [].
Proof. intros [H1 H2]. split; [intros [p l K|K]; [destruct (H2 _ _ K) | exact H1] | intros ->; rewrite <- H1; apply Dn_inherited; exact H2]. Qed.
Lemma Pu_has e : Pu e -> exists u, default_ns e u.
Proof. intros H. exists []. apply Pu_default; [exact H | reflexivity]. Qed.
Lemma blank_is s f i : blank_default s -> forall u, default_ns (FEnv f (s_decls s) i) u <-> u = [].
Proof.
  intros (p & l & H & K) u. split; [intros [p' l' H'|H']; cbn in *; [eapply K; exact H' | destruct (H' _ _ H)]|]. intros ->. rewrite <- (K _ _ H). eapply Dn_declared. exact H.
Qed.
Lemma undefaulted_in f s : undefaulted fs f = inl s -> exists s0, fs f = inl s0 /\ s = undefault s0.
Proof. unfold undefaulted. destruct (fs f) as [s0|]; [intros [= <-]; exists s0; auto | discriminate]. Qed.
Lemma class_of s : indifferent s -> exists q, schema_uses (names q) s /\ (q = true \/ blank_default s).
Proof. intros [_ [H|[H K]]]; [exists true; split; [exact H | left; reflexivity] | exists false; split; [exact H | right; exact K]]. Qed.
Lemma indifferent_valid O C f root : schema_valid fs O C f root <-> schema_valid (undefaulted fs) O C f root.
Proof.
  assert (HT : forall s, s_top (undefault s) = s_top s) by reflexivity.
  assert (HO : forall e u, Po e -> default_ns e u -> forall f s, fs f = inl s -> Po (FEnv f (s_decls s) u)) by (intros e u _ _ g s Hf; exact (proj1 (ind _ _ Hf))).
  assert (HU : forall e u, Pu e -> default_ns e u -> forall f s, undefaulted fs f = inl s -> Pu (FEnv f (s_decls s) u)).
  { intros e u He Hu g s Hf. apply undefaulted_in in Hf. destruct Hf as (s0 & Hf & ->). apply (Pu_default _ _ He) in Hu. split; [exact Hu|]. apply undefault_none. exact (proj1 (ind _ _ Hf)). }
  assert (HR : forall g s, fs g = inl s -> Po (FEnv g (s_decls s) []) /\ Pu (FEnv g (s_decls (undefault s)) [])).
  { intros g s Hf. split; [exact (proj1 (ind _ _ Hf)) | split; [reflexivity | apply undefault_none; exact (proj1 (ind _ _ Hf))]]. }
  split; intros H.
  - eapply (valid_r fs (undefaulted fs) Po Pu); [| exact HO | exact HU | exact Pu_has | | | exact H].
    + intros g s Hf. exists (undefault s). split; [unfold undefaulted; rewrite Hf; reflexivity|]. split; [reflexivity|]. split; [apply undefault_ns|].
      destruct (class_of s (ind _ _ Hf)) as (q & Hu & Hq). exists q. split; [exact Hu|]. destruct Hq as [Hq|Hq]; [left; exact Hq | right]. intros i i' _ Hi' u. rewrite (blank_is s g i Hq u), (Pu_default _ u Hi'). reflexivity.
    + destruct (fs f) as [s|e] eqn:Ef; [exact (proj1 (HR _ _ Ef)) | intros p []].
    + unfold undefaulted. destruct (fs f) as [s|e] eqn:Ef; [exact (proj2 (HR _ _ Ef)) | split; [reflexivity | intros p u []]].
  - eapply (valid_r (undefaulted fs) fs Pu Po); [| exact HU | exact HO | exact Po_has | | | exact H].
    + intros g s Hf. apply undefaulted_in in Hf. destruct Hf as (s0 & Hf & ->). exists s0. split; [exact Hf|]. split; [reflexivity|].
      split; [destruct (undefault_ns (s_decls s0)) as [A B]; split; intros p u; symmetry; [apply A | apply B]|].
      destruct (class_of s0 (ind _ _ Hf)) as (q & Hu & Hq). exists q. split; [exact Hu|]. destruct Hq as [Hq|Hq]; [left; exact Hq | right]. intros i i' Hi _ u. rewrite (blank_is s0 g i' Hq u), (Pu_default _ u Hi). reflexivity.
    + unfold undefaulted. destruct (fs f) as [s|e] eqn:Ef; [exact (proj2 (HR _ _ Ef)) | split; [reflexivity | intros p u []]].
    + destruct (fs f) as [s|e] eqn:Ef; [exact (proj1 (HR _ _ Ef)) | intros p []].
Qed.
End Main.
Lemma prefixed_meaning O C fs : (forall f s, fs f = inl s -> indifferent s) -> files_ok (undefaulted fs) -> forall d name r st, compile_grammar O C fs d name = fok (r, st) ->
  forall root, rng_valid O (cell_defs st) (start_of r st) root <-> schema_valid fs O C name root.
Proof. intros Hi Hf d name r st H root. rewrite (indifferent_valid fs Hi). exact (undefault_meaning O C fs Hf d name r st H root). Qed.
