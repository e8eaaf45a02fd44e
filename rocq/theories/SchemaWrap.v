(** * SchemaWrap: a file that is one pattern [grammar { ... }] means what its contents mean as a grammar file (C82). *)
From Coq Require Import Permutation String.
From Verif Require Import Base Datatype Facets Store Lang Compile Syntax SchemaCompile Spec SourceSpec SourceScope SourceSem SourceCompile SchemaSpec SchemaVisit SchemaAttr SchemaReach SchemaMain SchemaCheck SchemaEscape.

(** the files with [grammar { l }] replaced by [l], where it is the whole of a file *)
Definition bare_top (t : top) : top := match t with TPattern (SGrammar l) => TGrammar l | _ => t end.
Definition unwrapped (fs : filesys) : filesys := fun f => match fs f with inl s => inl (Schema (s_decls s) (bare_top (s_top s))) | inr e => inr e end.

(** ** The two systems of files have the same grammars and patterns *)
Definition same_files (fs fs' : filesys) : Prop := forall f s, fs f = inl s -> exists s', fs' f = inl s' /\ s_decls s' = s_decls s /\ top_pattern s' = top_pattern s /\
  forall l, file_contents s l -> file_contents s' l.
Lemma unwrapped_same fs : same_files fs (unwrapped fs).
Proof.
  intros f [ds t] E. exists (Schema ds (bare_top t)). unfold unwrapped. rewrite E. split; [reflexivity|]. split; [reflexivity|]. split.
  - destruct t as [[]|l]; reflexivity.
  - intros l H. inversion H; subst; constructor.
Qed.
Lemma wrapped_same fs : same_files (unwrapped fs) fs.
Proof.
  intros f s E. unfold unwrapped in E. destruct (fs f) as [[ds t]|] eqn:Ef; [|discriminate]. injection E as <-. exists (Schema ds t). split; [reflexivity|]. split; [reflexivity|]. cbn [s_decls s_top]. split.
  - destruct t as [[]|l]; reflexivity.
  - intros l H. destruct t as [[]|l0]; cbn [bare_top] in H; inversion H; subst; constructor.
Qed.
Section Same.
Variable fs fs' : filesys.
Hypothesis HS : same_files fs fs'.
Lemma same_expand e l ds : Expand fs e l ds -> Expand fs' e l ds.
Proof.
  induction 1; try (econstructor; eauto; fail). destruct (HS _ _ H0) as (s' & E1 & E2 & E3 & E4). eapply Ex_include; eauto. rewrite E2. exact IHExpand1.
Qed.
Lemma same_external e h i e' p : External fs e h i e' p -> External fs' e h i e' p.
Proof. intros [f s u H1 H2 H3]. destruct (HS _ _ H2) as (s' & E1 & E2 & E3 & _). rewrite <- E2, <- E3. econstructor; eauto. Qed.
Variable O : oracles.
Variable C : coracles.
Variable w3 : bool.
Lemma same_SX : (forall e G p s b, SX fs O C e G p s b -> SX fs' O C e G p s b) /\ (forall G n s b, SXN fs O C G n s b -> SXN fs' O C G n s b) /\ (forall G ds s b, SXD fs O C G ds s b -> SXD fs' O C G ds s b).
Proof. apply SX_mutual; intros; econstructor; eauto using same_expand, same_external. Qed.
Lemma same_SM : (forall e G a m p, SM fs O C w3 e G a m p -> SM fs' O C w3 e G a m p) /\ (forall e G a m p, SW fs O C w3 e G a m p -> SW fs' O C w3 e G a m p) /\
  (forall G a m n, SN fs O C w3 G a m n -> SN fs' O C w3 G a m n) /\ (forall G a m ds, SI fs O C w3 G a m ds -> SI fs' O C w3 G a m ds).
Proof. apply SM_mutual; intros; try (econstructor; eauto using same_expand, same_external; fail). eapply SM_except; eauto. apply same_SX. assumption. Qed.
End Same.

Section Files.
Variable fs : filesys.
Variable O : oracles.
Variable C : coracles.
Variable w3 : bool.
Notation SM := (SM fs O C w3). Notation SN := (SN fs O C w3). Notation SW := (SW fs O C w3). Notation SI := (SI fs O C w3).
Notation SX := (SX fs O C). Notation SXN := (SXN fs O C). Notation SXD := (SXD fs O C).

(** ** A grammar around the others changes nothing *)
Section Around.
Variable B : grams.
Lemma around_SX : (forall e G p s b, SX e G p s b -> SX e (G ++ B) p s b) /\ (forall G n s b, SXN G n s b -> SXN (G ++ B) n s b) /\ (forall G ds s b, SXD G ds s b -> SXD (G ++ B) ds s b).
Proof. apply SX_mutual; intros; cbn [app] in *; econstructor; eauto. Qed.
Lemma around_SM : (forall e G a m p, SM e G a m p -> SM e (G ++ B) a m p) /\ (forall e G a m p, SW e G a m p -> SW e (G ++ B) a m p) /\
  (forall G a m n, SN G a m n -> SN (G ++ B) a m n) /\ (forall G a m ds, SI G a m ds -> SI (G ++ B) a m ds).
Proof. apply SM_mutual; intros; cbn [app] in *; try (econstructor; eauto; fail). eapply SM_except; eauto. apply around_SX. assumption. Qed.
End Around.

(** ** ... provided that nothing refers to it *)
Section Within.
Variable es : list sdef.
Variable g0 : list sdef.
Hypothesis HE : forall d, In d es -> ~ Escapes fs (fe_path (d_env d)) (d_body d).
Definition stay (e : fenv) (G : grams) (p : spat) : Prop := G = [es] -> ~ Escapes fs (fe_path e) p.
(** the grammars of a pattern: the last is [es] *)
Definition ends (G : grams) : Prop := exists G1, G = G1 ++ [es].
Lemma ends_tail g G : ends (g :: G) -> G <> [] -> ends G.
Proof. intros [[|x G1] E] HG; cbn [app] in E; [injection E as -> ->; congruence|]. injection E as -> ->. exists G1. reflexivity. Qed.
Lemma ends_one g : ends [g] -> g = es.
Proof. intros [[|x [|y G1]] E]; cbn [app] in E; try discriminate. congruence. Qed.
Lemma ends_push g G : ends G -> ends (g :: G). Proof. intros [G1 ->]. exists (g :: G1). reflexivity. Qed.
Lemma ends_not_nil G : ends G -> G <> []. Proof. intros [[|] ->]; discriminate. Qed.
Lemma stay_push g e G p : ends G -> stay e (g :: G) p. Proof. intros HG E. injection E as _ ->. exfalso. exact (ends_not_nil _ HG eq_refl). Qed.
Lemma stay_child e G p q : stay e G p -> child q p -> stay e G q.
Proof. intros H Hc E K. exact (H E (Es_child fs _ _ _ Hc K)). Qed.
Lemma stay_named g G d n : ends (g :: G) -> In d (defs_named n g) -> stay (d_env d) (g :: G) (d_body d).
Proof. intros HG Hd E. injection E as -> ->. apply HE. unfold defs_named in Hd. apply filter_In in Hd. exact (proj1 Hd). Qed.
Lemma stay_external e G h i e' p : stay e G (SExternal h i) -> External fs e h i e' p -> stay e' G p.
Proof.
  intros H [f s u H1 H2 H3] E K. apply (H E). destruct s as [ds [q|l]]; unfold top_pattern in K; cbn [s_top fe_path] in K.
  - eapply Es_external; eauto.
  - inversion K as [| ? ? ? Hc |]; subst. inversion Hc.
Qed.
Hint Resolve ends_push stay_push stay_child : core.
Hint Constructors child : core.
Lemma parent_inside e g G i : stay e (g :: G) (SParent i) -> ends (g :: G) -> G <> [].
Proof. intros H HG ->. apply ends_one in HG. subst g. exact (H eq_refl (Es_here fs _ i)). Qed.
Lemma parent_split e G i x (G' : grams) : x :: G' = G ++ [g0] -> stay e G (SParent i) -> ends G -> exists G1, G = x :: G1 /\ G' = G1 ++ [g0] /\ ends G1.
Proof.
  intros E H HG. destruct G as [|g G]; [destruct (ends_not_nil _ HG eq_refl)|]. cbn [app] in E. injection E as -> ->. exists G. split; [reflexivity|]. split; [reflexivity|].
  eapply ends_tail; [exact HG|]. eapply parent_inside; eassumption.
Qed.
Lemma ends_head G x (G' : grams) : x :: G' = G ++ [g0] -> ends G -> exists G1, G = x :: G1 /\ G' = G1 ++ [g0].
Proof. intros E HG. destruct G as [|g G]; [destruct (ends_not_nil _ HG eq_refl)|]. cbn [app] in E. injection E as -> ->. eauto. Qed.
Lemma within_SX : (forall e G' p s b, SX e G' p s b -> forall G, G' = G ++ [g0] -> ends G -> stay e G p -> SX e G p s b) /\
  (forall G' n s b, SXN G' n s b -> forall G, G' = G ++ [g0] -> ends G -> SXN G n s b) /\
  (forall G' ds s b, SXD G' ds s b -> forall G, G' = G ++ [g0] -> ends G -> (forall d, In d ds -> stay (d_env d) G (d_body d)) -> SXD G ds s b).
Proof.
  apply SX_mutual; intros; subst; try (econstructor; eauto; fail).
  - match goal with E : _ :: _ = _ ++ _ |- _ => destruct (parent_split _ _ _ _ _ E ltac:(eassumption) ltac:(eassumption)) as (G1 & -> & -> & HG1) end. constructor. eauto.
  - eapply SX_external; eauto using stay_external.
  - match goal with E : _ :: _ = _ ++ _ |- _ => pose proof E as E'; apply ends_head in E'; [destruct E' as (G1 & -> & ->)|assumption] end. constructor; [assumption|]. match goal with H : forall G, _ -> _ -> _ -> SXD _ _ _ _ |- _ => apply H; auto end.
    intros d Hd. eapply stay_named; eassumption.
  - constructor. match goal with H : forall G, _ -> _ -> _ -> SX _ _ _ _ _ |- _ => apply H; auto end. match goal with H : forall d, _ -> _ |- _ => apply H; left; reflexivity end.
  - constructor.
    + match goal with H : forall G, _ -> _ -> _ -> SX _ _ _ _ _ |- _ => apply H; auto end. match goal with H : forall d, _ -> stay _ _ _ |- _ => apply H; left; reflexivity end.
    + match goal with H : forall G, _ -> _ -> _ -> SXD _ _ _ _ |- _ => apply H; auto end. intros d0 Hd. match goal with H : forall d, _ -> stay _ _ _ |- _ => apply H; right; exact Hd end.
Qed.
Lemma within_SM : (forall e G' a m p, SM e G' a m p -> forall G, G' = G ++ [g0] -> ends G -> stay e G p -> SM e G a m p) /\
  (forall e G' a m p, SW e G' a m p -> forall G, G' = G ++ [g0] -> ends G -> stay e G p -> SW e G a m p) /\
  (forall G' a m n, SN G' a m n -> forall G, G' = G ++ [g0] -> ends G -> SN G a m n) /\
  (forall G' a m ds, SI G' a m ds -> forall G, G' = G ++ [g0] -> ends G -> (forall d, In d ds -> stay (d_env d) G (d_body d)) -> SI G a m ds).
Proof.
  apply SM_mutual; intros; subst; try (econstructor; eauto; fail).
  - apply SM_plus. match goal with H : forall G, _ -> _ -> _ -> SM _ _ _ _ _ |- _ => apply H; auto end.
    match goal with H : stay _ _ _ |- _ => intros E K; apply (H E) end. inversion K; subst. match goal with H : child _ _ |- _ => inversion H; subst end. eapply Es_child; [apply Ch_zero | assumption].
  - eapply SM_except; eauto. eapply within_SX; eauto.
  - match goal with E : _ :: _ = _ ++ _ |- _ => destruct (parent_split _ _ _ _ _ E ltac:(eassumption) ltac:(eassumption)) as (G1 & -> & -> & HG1) end. constructor. eauto.
  - eapply SM_external; eauto using stay_external.
  - match goal with E : _ :: _ = _ ++ _ |- _ => pose proof E as E'; apply ends_head in E'; [destruct E' as (G1 & -> & ->)|assumption] end. eapply SN_choice; [assumption | eassumption|]. match goal with H : forall G, _ -> _ -> _ -> SM _ _ _ _ _ |- _ => apply H; auto end.
    eapply stay_named; eassumption.
  - match goal with E : _ :: _ = _ ++ _ |- _ => pose proof E as E'; apply ends_head in E'; [destruct E' as (G1 & -> & ->)|assumption] end. apply SN_interleave; [assumption|]. match goal with H : forall G, _ -> _ -> _ -> SI _ _ _ _ |- _ => apply H; auto end.
    intros d Hd. eapply stay_named; eassumption.
  - constructor. match goal with H : forall G, _ -> _ -> _ -> SM _ _ _ _ _ |- _ => apply H; auto end. match goal with H : forall d, _ -> _ |- _ => apply H; left; reflexivity end.
  - econstructor; try eassumption.
    + match goal with H : forall G, _ -> _ -> _ -> SM _ _ _ _ _ |- _ => apply H; auto end. match goal with H : forall d, _ -> stay _ _ _ |- _ => apply H; left; reflexivity end.
    + match goal with H : forall G, _ -> _ -> _ -> SI _ _ _ _ |- _ => apply H; auto end. intros d0 Hd. match goal with H : forall d, _ -> stay _ _ _ |- _ => apply H; right; exact Hd end.
Qed.
End Within.

(** ** The two readings of a file *)
Lemma around_es es g0 a m n : (forall d, In d es -> ~ Escapes fs (fe_path (d_env d)) (d_body d)) -> SN [es; g0] a m n <-> SN [es] a m n.
Proof.
  intros HE. split; intros K.
  - eapply (proj1 (proj2 (proj2 (within_SM es g0 HE)))); [exact K | reflexivity | exists []; reflexivity].
  - exact (proj1 (proj2 (proj2 (around_SM [g0]))) _ _ _ _ K).
Qed.
Lemma start_grammar e l a m : SN [[SDef (lit "start") MAssign e (SGrammar l)]] a m (lit "start") <->
  exists es, Expand fs e l es /\ SN [es; [SDef (lit "start") MAssign e (SGrammar l)]] a m (lit "start").
Proof.
  assert (HN : defs_named (lit "start") [SDef (lit "start") MAssign e (SGrammar l)] = [SDef (lit "start") MAssign e (SGrammar l)]) by reflexivity. split.
  - intros K. assert (K' : SM e [[SDef (lit "start") MAssign e (SGrammar l)]] a m (SGrammar l)).
    { inversion K as [g G a' m' n d H1 H2 H3|g G a' m' n H1 H2]; subst; clear H1.
      - change (In d [SDef (lit "start") MAssign e (SGrammar l)]) in H2. destruct H2 as [<-|[]]. exact H3.
      - change (SI [[SDef (lit "start") MAssign e (SGrammar l)]] a m [SDef (lit "start") MAssign e (SGrammar l)]) in H2. inversion H2; subst. assumption. }
    inversion K'; subst. eauto.
  - intros (es & H1 & H2). eapply SN_choice with (d := SDef (lit "start") MAssign e (SGrammar l)); rewrite ?HN; [intros d [<-|[]]; discriminate | left; reflexivity|]. eapply SM_grammar; eassumption.
Qed.
End Files.

(** ** What compiles has no [parent] outside of its nested grammars *)
(** overriding definitions inside a [div] of the override block: never compiled ([C44_div_refuted]) *)
Inductive odd : gcontent -> Prop :=
| Od_here h inh l i : In (IDiv i) l -> odd (GInclude h inh (Some l))
| Od_div g l : In g l -> odd g -> odd (GDiv l).
Section Compiled.
Variable O : oracles.
Variable C : coracles.
Variable fs : filesys.
Lemma content_odd d g : odd g -> forall c st st', compile_content O C fs (fst (nested O C fs d)) (snd (nested O C fs d)) c g st = fok (tt, st') -> False.
Proof.
  induction 1 as [h inh l i Hin|g l Hin _ IH]; intros c st st' H; cbn [SchemaCompile.compile_content] in H.
  - cinv H. cinv H. cinv H. cinv H. cinv H. destruct x3. destruct (citer_in _ _ _ Hin _ _ E3) as (s1 & s2 & K). apply cmap_err_ok in K. cbn [SchemaCompile.compile_override] in K. cbad K.
  - destruct (citer_in _ _ _ Hin _ _ H) as (s1 & s2 & K). exact (IH _ _ _ K).
Qed.
Lemma overrides_in e l x : In x (overrides e l) -> (forall i, ~ In (IDiv i) l) -> exists n how, In (IDefine n how (d_body x)) l /\ d_env x = e.
Proof.
  induction l as [|i l IH]; [intros []|]. cbn [overrides]. intros H Hn. apply in_app_or in H. destruct H as [H|H].
  - destruct i as [n how p|l0|a]; cbn [overrides1] in H.
    + destruct H as [<-|[]]. exists n, how. split; [left; reflexivity | reflexivity].
    + destruct (Hn l0). left. reflexivity.
    + destruct H.
  - destruct IH as (n & how & K & E); [exact H | intros j K; apply (Hn j); right; exact K|]. exists n, how. split; [right; exact K | exact E].
Qed.
Variable name : path.
Variable d : nat.
Variable r : nat.
Variable st : cst.
Hypothesis HC : compile_grammar O C fs d name = fok (r, st).
Hypothesis HW : forall f s l, fs f = inl s -> file_contents s l -> exists ds, s = Schema ds (TGrammar l).
Definition outer (f : path) (l : list gcontent) : Prop := 
  (forall g p, In g l -> top_body p g -> ~ Escapes fs f p) /\ (forall g h f', In g l -> top_include h g -> resolve f (lit_value h) = Some f' -> Outer fs name f') /\ (forall g, In g l -> ~ odd g).
Lemma outer_file f s l : Outer fs name f -> fs f = inl s -> file_contents s l -> outer f l.
Proof.
  intros HO Hs Hl. assert (HT : f = name -> exists ds, s = Schema ds (TGrammar l)) by (intros _; eapply HW; eassumption). split; [|split].
  - exact (no_outer_escape O C fs name d r st HC f HO s l Hs HT Hl).
  - intros g h f' Hg Hi Hr. eapply Ou_include; eassumption.
  - intros g Hg Hd. destruct (outer_visited _ _ _ _ _ _ _ HC f HO s l Hs HT Hl) as (d1 & c & st1 & st2 & HB & Hf & HK). destruct (citer_in _ _ _ Hg _ _ HK) as (st3 & st4 & K).
    exact (content_odd d1 _ Hd _ _ _ K).
Qed.
Lemma outer_bodies e l es : Expand fs e l es -> outer (fe_path e) l -> forall x, In x es -> ~ Escapes fs (fe_path (d_env x)) (d_body x).
Proof.
  assert (HT : forall f g l, outer f (g :: l) -> outer f l).
  { intros f g l0 (H1 & H2 & H3). split; [|split]; intros; [eapply H1 | eapply H2 | eapply H3]; try (right; eassumption); eassumption. }
  induction 1 as [e|e n how p l ds H IH|e l1 l ds1 ds H1 IH1 H IH|e a l ds H IH|e h inh ov l f s c u ds inner H1 H2 H3 H4 H5 IH5 os H6 H IH]; intros HO x Hx.
  - destruct Hx.
  - destruct Hx as [<-|Hx]; [|eapply IH; eauto]. destruct HO as [HA _]. cbn [d_env d_body]. eapply HA; [left; reflexivity | constructor].
  - apply in_app_or in Hx. destruct Hx as [Hx|Hx]; [|eapply IH; eauto]. apply IH1; [|exact Hx]. destruct HO as (HA & HB & HD). split; [|split]; intros.
    + eapply HA; [left; reflexivity | econstructor; eassumption].
    + eapply HB; [left; reflexivity | econstructor; eassumption | eassumption].
    + intros K. eapply HD; [left; reflexivity | econstructor; eassumption].
  - eapply IH; eauto.
  - rewrite !in_app_iff in Hx. destruct Hx as [Hx|[Hx|Hx]]; [| |eapply IH; eauto].
    + destruct HO as (HA & _ & HD). unfold os in Hx. destruct ov as [lo|]; [|destruct Hx]. apply overrides_in in Hx; [|intros i K; eapply HD; [left; reflexivity | econstructor; exact K]].
      destruct Hx as (n & how & K & ->). eapply HA; [left; reflexivity | econstructor; exact K].
    + apply filter_In in Hx. destruct Hx as [Hx _]. apply IH5; [|exact Hx]. cbn [fe_path]. eapply outer_file; [|eassumption|eassumption]. destruct HO as (_ & HB & _). eapply HB; [left; reflexivity | constructor | exact H1].
Qed.
End Compiled.

(** ** C82 *)
Lemma unwrapped_bare fs f s l : unwrapped fs f = inl s -> file_contents s l -> exists ds, s = Schema ds (TGrammar l).
Proof.
  unfold unwrapped. destruct (fs f) as [[ds t]|]; [|discriminate]. intros [= <-] H. cbn [s_decls s_top] in *. destruct t as [[]|l0]; cbn [bare_top] in *; inversion H; subst; eauto.
Qed.
Theorem unwrapped_valid O C fs d name r st : compile_grammar O C (unwrapped fs) d name = fok (r, st) ->
  forall root, schema_valid fs O C name root <-> schema_valid (unwrapped fs) O C name root.
Proof.
  intros HC root. unfold schema_valid.
  assert (HM : forall G a m n, SN fs O C true G a m n <-> SN (unwrapped fs) O C true G a m n).
  { intros. split; [exact (proj1 (proj2 (proj2 (same_SM _ _ (unwrapped_same fs) O C true))) G a m n) | exact (proj1 (proj2 (proj2 (same_SM _ _ (wrapped_same fs) O C true))) G a m n)]. }
  assert (HX : forall e l es, Expand fs e l es <-> Expand (unwrapped fs) e l es) by (intros; split; apply same_expand; [apply unwrapped_same | apply wrapped_same]).
  destruct (fs name) as [[ds t]|] eqn:Ef.
  2:{ split; intros (es & H & _); inversion H; unfold unwrapped in *; try rewrite Ef in *; congruence. }
  assert (Eu : unwrapped fs name = inl (Schema ds (bare_top t))) by (unfold unwrapped; rewrite Ef; reflexivity).
  assert (HP : forall p, t = TPattern p -> (forall l, p <> SGrammar l) -> (exists es, file_grammar fs name es /\ SN fs O C true [es] [] [root] (lit "start")) <->
    (exists es, file_grammar (unwrapped fs) name es /\ SN (unwrapped fs) O C true [es] [] [root] (lit "start"))).
  { intros p -> Hp. assert (bare_top (TPattern p) = TPattern p) as Eb by (destruct p; try reflexivity; destruct (Hp l eq_refl)). rewrite Eb in Eu.
    split; intros (es & H & K); exists es; (split; [|apply HM; exact K]); inversion H; subst; try congruence; match goal with H : _ name = inl _ |- _ => rename H into E end; [rewrite Ef in E | rewrite Eu in E]; injection E as <- <-; eapply Fg_pattern; eassumption. }
  destruct t as [p|l].
  - destruct (match p with SGrammar l => Some l | _ => None end) as [l|] eqn:Ep.
    + destruct p; try discriminate Ep. injection Ep as ->. cbn [bare_top] in Eu.
      assert (HE : forall es, Expand (unwrapped fs) (FEnv name ds []) l es -> forall x, In x es -> ~ Escapes (unwrapped fs) (fe_path (d_env x)) (d_body x)).
      { intros es H. eapply outer_bodies; [exact HC | apply unwrapped_bare | exact H|]. eapply outer_file; [exact HC | apply unwrapped_bare | constructor | exact Eu | constructor]. }
      split.
      * intros (es & H & K). inversion H as [? ? ? E|ds0 p E]; subst; [congruence|]. rewrite Ef in E. injection E as <- <-. apply start_grammar in K. destruct K as (es & H1 & K). exists es. apply HX in H1.
        split; [eapply Fg_grammar; eassumption|]. apply HM in K. eapply around_es; [exact (HE es H1) | exact K].
      * intros (es & H & K). inversion H as [ds0 l0 es0 E HX1|]; subst; [|congruence]. rewrite Eu in E. injection E as <- <-. eexists. split; [eapply Fg_pattern; exact Ef|]. apply start_grammar. exists es.
        split; [apply HX; exact HX1|]. apply HM. apply around_es; [exact (HE es HX1) | exact K].
    + apply (HP p eq_refl). intros l ->. discriminate Ep.
  - cbn [bare_top] in Eu. split; intros (es & H & K); exists es; (split; [|apply HM; exact K]); inversion H as [ds0 l0 es0 E HX1|ds0 p0 E]; subst; try congruence; [rewrite Ef in E | rewrite Eu in E]; injection E as <- <-; eapply Fg_grammar; try eassumption; apply HX; exact HX1.
Qed.
Theorem unwrapped_verdict O C fs : files_ok fs -> files_ok (unwrapped fs) -> forall d d' name r st r' st', compile_grammar O C fs d name = fok (r, st) -> compile_grammar O C (unwrapped fs) d' name = fok (r', st') ->
  forall root, rng_valid O (cell_defs st) (start_of r st) root <-> rng_valid O (cell_defs st') (start_of r' st') root.
Proof.
  intros H1 H2 d d' name r st r' st' K1 K2 root. rewrite (compiled_meaning O C fs H1 _ _ _ _ K1), (compiled_meaning O C _ H2 _ _ _ _ K2). eapply unwrapped_valid; exact K2.
Qed.
