(** * SchemaTermExt: schema compilation terminates, with external (C33). *)
From Coq Require Import String.
From Verif Require Import Base Datatype Facets Store Lang Compile Syntax SchemaCompile SourceSpec SourceCompile SchemaSpec SchemaVisit SchemaTerm.
From Verif Require Main.

(** ** Specification: [Bare fs home n f f']: [n] externals, each naming a bare grammar, lead from [f] to [f'] (the names of files in
    a bare grammar read by external are relative to the file that named it) *)
Inductive Bare (fs : filesys) (home : path) : nat -> path -> path -> Prop :=
| Ba_0 f : Bare fs home 0 f f
| Ba_S n f s l f1 ds k f2 : fs f = inl s -> file_occurs (SExternal l None) s -> resolve home (lit_value l) = Some f1 -> fs f1 = inl (Schema ds (TGrammar k)) ->
    Bare fs home n f1 f2 -> Bare fs home (S n) f f2.
(** [L] holds every file named in a file of [L] *)
Definition closed_files (fs : filesys) (L : list path) : Prop := forall home f s, In home L -> In f L -> fs f = inl s ->
  (forall h f', in_file h s -> resolve home (lit_value h) = Some f' -> In f' L) /\ (forall h f', file_occurs (SExternal h None) s -> resolve home (lit_value h) = Some f' -> In f' L).

Section Term.
Variable O : oracles.
Variable C : coracles.
Variable fs : filesys.
Variable L : list path.
Variable K : nat.
Definition Short (home f : path) (k : nat) : Prop := forall n f', Bare fs home n f f' -> n <= k.
(** [R home f]: file [f] may be read, its names of files being relative to [home] *)
Variable R : path -> path -> Prop.
Hypothesis inL : forall home f, R home f -> In home L /\ In f L.
Hypothesis closed : forall home f s, R home f -> fs f = inl s -> (forall h f', in_file h s -> resolve home (lit_value h) = Some f' -> R f' f') /\
  (forall h f', file_occurs (SExternal h None) s -> resolve home (lit_value h) = Some f' -> R f' f' /\ forall ds l, fs f' = inl (Schema ds (TGrammar l)) -> R home f').
Hypothesis short : forall home f, R home f -> Short home f K.
Definition budget (d k : nat) (c : ctx) : Prop := NoDup (inc_files c) /\ incl (inc_files c) L /\ (List.length L - List.length (inc_files c)) * S K + k < d.
Lemma budget_include d k c f o ns dt : budget (S d) k c -> In f L -> ~ In f (inc_files c) -> budget d K (XInclude c f o ns dt).
Proof.
  intros (B1 & B2 & B3) Hf Hn. assert (N : NoDup (f :: inc_files c)) by (constructor; assumption). assert (I1 : incl (f :: inc_files c) L) by (intros x [<-|Hx]; auto).
  split; [exact N|]. split; [exact I1|]. pose proof (NoDup_incl_length N I1) as Hl. cbn [inc_files List.length] in *.
  replace (List.length L - List.length (inc_files c)) with (S (List.length L - S (List.length (inc_files c)))) in B3 by lia. cbn [Nat.mul] in B3. lia.
Qed.
Lemma budget_override d k c f o ns dt : budget d k c -> In f L -> ~ In f (inc_files c) -> budget d k (XOverrides (XInclude c f o ns dt)).
Proof.
  intros (B1 & B2 & B3) Hf Hn. assert (N : NoDup (f :: inc_files c)) by (constructor; assumption). assert (I1 : incl (f :: inc_files c) L) by (intros x [<-|Hx]; auto).
  split; [exact N|]. split; [exact I1|]. pose proof (NoDup_incl_length N I1) as Hl. cbn [inc_files List.length] in *.
  replace (List.length L - List.length (inc_files c)) with (S (List.length L - S (List.length (inc_files c)))) in B3 by lia. cbn [Nat.mul] in B3. lia.
Qed.

Section Rec.
Variable d : nat.
Variable rp : ctx -> spat -> CM mpat.
Variable ri : ctx -> list gcontent -> CM unit.
Definition ri_ok (d : nat) (ri : ctx -> list gcontent -> CM unit) : Prop := forall c home f s l k st, budget d k c -> file_of c = Some home -> R home f -> fs f = inl s -> file_contents s l -> Short home f k -> NF (ri c l st).
Definition rp_ok (d : nat) (rp : ctx -> spat -> CM mpat) : Prop := forall c home f ds q k st, budget d k c -> file_of c = Some home -> R home f -> fs f = inl (Schema ds (TPattern q)) -> Short home f k -> NF (rp c q st).
Hypothesis Hri : ri_ok d ri.
Hypothesis Hrp : rp_ok d rp.
Notation compile_pattern := (compile_pattern O C fs rp ri).
Notation compile_content := (compile_content O C fs rp ri).
Notation compile_override := (compile_override O C fs rp ri).
(** what a pattern may read *)
Definition ext_ok (home : path) (k : nat) (h : literal) : Prop := forall f', resolve home (lit_value h) = Some f' -> R f' f' /\
  forall ds l, fs f' = inl (Schema ds (TGrammar l)) -> R home f' /\ exists k', k = S k' /\ Short home f' k'.
Definition may_p (home : path) (k : nat) (p : spat) : Prop := (forall h f', in_pattern h p -> resolve home (lit_value h) = Some f' -> R f' f') /\ (forall h, occurs_in (SExternal h None) p -> ext_ok home k h).
Definition may_g (home : path) (k : nat) (g : gcontent) : Prop := (forall h f', has_include h g -> resolve home (lit_value h) = Some f' -> R f' f') /\ (forall h, occurs (SExternal h None) g -> ext_ok home k h).
Definition N_pat (p : spat) : Prop := forall c home k st, budget (S d) k c -> file_of c = Some home -> In home L -> may_p home k p -> NF (compile_pattern c p st).
Definition N_con (g : gcontent) : Prop := forall c home k st, budget (S d) k c -> file_of c = Some home -> In home L -> may_g home k g -> NF (compile_content c g st).
Definition N_ovr (i : icontent) : Prop := forall c home k st, budget (S d) k c -> file_of c = Some home -> In home L -> (forall n how p, i = IDefine n how p -> may_p home k p) -> NF (compile_override c i st).
Lemma may_child home k p q : child q p -> may_p home k p -> may_p home k q.
Proof. intros Hc [H1 H2]. split; [intros h f' Hh; apply H1; econstructor; eassumption | intros h Hh; apply H2; econstructor; eassumption]. Qed.
Lemma term : (forall p, N_pat p) /\ (forall g, N_con g) /\ (forall i, N_ovr i).
Proof.
  assert (H_one : forall W F, (forall c q st, compile_pattern c (W q) st = (do x <- compile_pattern c q; cret (F x)) st) ->
    (forall q, child q (W q)) -> forall q, N_pat q -> N_pat (W q)).
  { intros W F HW Hc q IH c f k st HB Hf HL Hi. rewrite HW. apply NF_bind; [|nf]. eapply IH; [exact HB | exact Hf | exact HL | eapply may_child; [apply Hc | exact Hi]]. }
  assert (H_two : forall W F, (forall c a b st, compile_pattern c (W a b) st = (do x <- compile_pattern c a; do y <- compile_pattern c b; cret (F x y)) st) ->
    (forall a b, child a (W a b)) -> (forall a b, child b (W a b)) -> forall a b, N_pat a -> N_pat b -> N_pat (W a b)).
  { intros W F HW Hc Hc' a b IHa IHb c f k st HB Hf HL Hi. rewrite HW. apply NF_bind; [|intros; apply NF_bind; [|nf]].
    - eapply IHa; [exact HB | exact Hf | exact HL | eapply may_child; [apply Hc | exact Hi]].
    - eapply IHb; [exact HB | exact Hf | exact HL | eapply may_child; [apply Hc' | exact Hi]]. }
  assert (H_el : forall nc p, N_pat p -> N_pat (SElement nc p)).
  { intros nc p IH c f k st HB Hf HL Hi. cbn [SchemaCompile.compile_pattern]. apply NF_bind; [apply NF_nameclass|]. intros n st1 _.
    apply NF_bind; [unfold new_element; destruct (parent_attribute c); nf|]. intros c' st2 Ec. unfold new_element in Ec. destruct (parent_attribute c); [cbad Ec|]. cret Ec.
    apply NF_bind; [|nf]. eapply IH; [exact HB | exact Hf | exact HL | eapply may_child; [constructor | exact Hi]]. }
  assert (H_at : forall nc p, N_pat p -> N_pat (SAttribute nc p)).
  { intros nc p IH c f k st HB Hf HL Hi. cbn [SchemaCompile.compile_pattern]. apply NF_bind; [apply NF_nameclass|]. intros n st1 _.
    apply NF_bind; [|nf]. eapply IH; [exact HB | exact Hf | exact HL | eapply may_child; [constructor | exact Hi]]. }
  assert (H_li : forall p, N_pat p -> N_pat (SList p)) by (apply (H_one SList MList); [reflexivity | constructor]).
  assert (H_mi : forall p, N_pat p -> N_pat (SMixed p)) by (apply (H_one SMixed MMixed); [reflexivity | constructor]).
  assert (H_op : forall p, N_pat p -> N_pat (SOptional p)) by (apply (H_one SOptional MOptional); [reflexivity | constructor]).
  assert (H_ze : forall p, N_pat p -> N_pat (SZeroOrMore p)) by (apply (H_one SZeroOrMore MZeroOrMore); [reflexivity | constructor]).
  assert (H_on : forall p, N_pat p -> N_pat (SOneOrMore p)) by (apply (H_one SOneOrMore MOneOrMore); [reflexivity | constructor]).
  assert (H_gp : forall p, N_pat p -> N_pat (SGroup p)).
  { intros p IH c f k st HB Hf HL Hi. cbn [SchemaCompile.compile_pattern]. eapply IH; [exact HB | exact Hf | exact HL | eapply may_child; [constructor | exact Hi]]. }
  assert (H_lp : forall a b, N_pat a -> N_pat b -> N_pat (SListPair a b)) by (apply (H_two SListPair (fun x y => MGroup (seq_members x ++ seq_members y))); [reflexivity | constructor | constructor]).
  assert (H_ip : forall a b, N_pat a -> N_pat b -> N_pat (SInterleavePair a b)) by (apply (H_two SInterleavePair (fun x y => MInterleave (inter_members x ++ inter_members y))); [reflexivity | constructor | constructor]).
  assert (H_cp : forall a b, N_pat a -> N_pat b -> N_pat (SChoicePair a b)) by (apply (H_two SChoicePair (fun x y => MChoice (choice_members x ++ choice_members y))); [reflexivity | constructor | constructor]).
  assert (H_id : forall i, N_pat (SIdent i)) by (intros i c f k st _ _ _ _; cbn [SchemaCompile.compile_pattern]; apply NF_bind; [apply NF_acquire | nf]).
  assert (H_pa : forall i, N_pat (SParent i)) by (intros i c f k st _ _ _ _; cbn [SchemaCompile.compile_pattern]; apply NF_bind; [apply NF_parent | nf]).
  assert (H_em : N_pat SEmpty) by (intros c f k st _ _ _ _; nf).
  assert (H_te : N_pat SText) by (intros c f k st _ _ _ _; nf).
  assert (H_na : N_pat SNotAllowed) by (intros c f k st _ _ _ _; nf).
  assert (H_ex : forall h i, N_pat (SExternal h i)).
  { intros h i c f k st HB Hf HL [_ Hi]. cbn [SchemaCompile.compile_pattern]. destruct i as [i|]; [nf|]. specialize (Hi h (Oi_here _)).
    apply NF_bind; [unfold path_from; rewrite Hf; destruct (resolve _ _); nf|].
    intros f1 st1 E. unfold path_from in E. rewrite Hf in E. destruct (resolve f (lit_value h)) as [f2|] eqn:Er; [|cbad E]. cret E. destruct (Hi f1 Er) as [HR1 HS]. assert (HL1 : In f1 L) by (apply (inL f1 f1 HR1)).
    apply NF_bind; [apply NF_cmap; unfold get_schema; destruct (fs f1); nf|]. intros s st2 E. apply cmap_err_ok, get_schema_ok in E. destruct E as (Es & _).
    apply NF_bind; [apply NF_bind; [apply NF_check_include | intros; apply NF_bind; nf]|]. intros inc st3 E.
    assert (Hnew : ~ In f1 (inc_files c)) by (unfold new_include in E; cinv E; eapply check_include_new; eassumption).
    apply new_include_ok in E. destruct E as (-> & _). destruct s as [sd [q|l]]; cbn [s_top].
    - apply NF_cmap. eapply Hrp; [eapply budget_include; eassumption | reflexivity | exact HR1 | exact Es | apply short; exact HR1].
    - destruct (HS _ _ Es) as (HR' & k' & -> & HS'). apply NF_bind; [nf|]. intros g st4 Eg. unfold new_grammar in Eg. cinv Eg. cret Eg. apply NF_bind.
      + eapply (Hri (XGrammar c _)); [|exact Hf | exact HR' | exact Es | constructor | exact HS']. destruct HB as (B1 & B2 & B3). split; [exact B1|]. split; [exact B2|]. cbn [inc_files]. lia.
      + intros _ st5 _. apply NF_bind; [nf|]. intros [u|] st6 _; [nf | apply NF_take]. }
  assert (H_va : forall n v, N_pat (SValue n v)).
  { intros n v c f k st _ _ _ _. cbn [SchemaCompile.compile_pattern]. apply NF_bind; [apply NF_dtname|]. intros. apply NF_bind; [apply NF_lift, NF_value | nf]. }
  assert (H_da : forall n ps ex, (match ex with Some e => N_pat e | None => True end) -> N_pat (SData n ps ex)).
  { intros n ps ex IH c f k st HB Hf HL Hi. cbn [SchemaCompile.compile_pattern]. apply NF_bind; [apply NF_dtname|]. intros. apply NF_bind; [apply NF_lift, NF_name|]. intros.
    apply NF_bind; [|nf]. destruct ex as [e|]; nf. apply NF_bind; [|nf]. eapply IH; [exact HB | exact Hf | exact HL | eapply may_child; [constructor | exact Hi]]. }
  assert (H_gr : forall l, Forall N_con l -> N_pat (SGrammar l)).
  { intros l Hl c f k st HB Hf HL [Hi1 Hi2]. cbn [SchemaCompile.compile_pattern]. apply NF_bind; [nf|]. intros g st1 Eg. unfold new_grammar in Eg. cinv Eg. cret Eg.
    apply NF_bind; [|intros; apply NF_take]. apply NF_citer. intros g st2 Hg. rewrite Forall_forall in Hl.
    eapply (Hl g Hg); [exact HB | exact Hf | exact HL|]. split; [intros h f' Hh; apply Hi1; econstructor; eassumption | intros h Hh; apply Hi2; econstructor; eassumption]. }
  assert (H_gd : forall n h p, N_pat p -> N_con (GDefine n h p)).
  { intros n h p IH c f k st HB Hf HL [Hi1 Hi2]. cbn [SchemaCompile.compile_content]. apply NF_bind; [|intros; apply NF_define].
    eapply IH; [exact HB | exact Hf | exact HL|]. split; [intros h' f' Hh; apply Hi1; constructor; exact Hh | intros h' Hh; apply Hi2; constructor; exact Hh]. }
  assert (H_gv : forall l, Forall N_con l -> N_con (GDiv l)).
  { intros l Hl c f k st HB Hf HL [Hi1 Hi2]. cbn [SchemaCompile.compile_content]. apply NF_citer. intros g st2 Hg. rewrite Forall_forall in Hl.
    eapply (Hl g Hg); [exact HB | exact Hf | exact HL|]. split; [intros h f' Hh; apply Hi1; econstructor; eassumption | intros h Hh; apply Hi2; econstructor; eassumption]. }
  assert (H_gi : forall h i ov, (match ov with Some l => Forall N_ovr l | None => True end) -> N_con (GInclude h i ov)).
  { intros h i ov Hov c f k st HB Hf HL [Hi1 Hi2]. cbn [SchemaCompile.compile_content]. apply NF_bind; [unfold path_from; rewrite Hf; destruct (resolve _ _); nf|].
    intros f1 st1 E. unfold path_from in E. rewrite Hf in E. destruct (resolve f (lit_value h)) as [f2|] eqn:Er; [|cbad E]. cret E.
    assert (HR1 : R f1 f1) by (eapply Hi1; [constructor | exact Er]). assert (HL1 : In f1 L) by (apply (inL f1 f1 HR1)).
    apply NF_bind; [apply NF_cmap; unfold get_schema; destruct (fs f1); nf|]. intros s st2 E. apply cmap_err_ok, get_schema_ok in E. destruct E as (Es & _).
    apply NF_bind; [apply NF_bind; [apply NF_check_include | intros; apply NF_bind; nf]|]. intros inc st3 E.
    assert (Hnew : ~ In f1 (inc_files c)) by (unfold new_include in E; cinv E; eapply check_include_new; eassumption).
    apply new_include_ok in E. destruct E as (-> & _).
    apply NF_bind; [unfold inherit_prefix; destruct i as [i|]; nf; destruct (namespace_uri c _); nf; cbn; destruct (assoc _ _); nf|].
    intros inc st4 E. apply inherit_ok in E; [|exact I]. destruct E as [ns0 ->]. cbn [with_decls].
    apply NF_bind.
    - destruct ov as [l|]; nf. apply NF_citer. intros x st5 Hx. apply NF_cmap. rewrite Forall_forall in Hov.
      apply (Hov x Hx _ f k); [apply budget_override; assumption | exact Hf | exact HL|].
      intros n how p ->. split; [intros h' f' Hh; apply Hi1; eapply Hi_override; eassumption | intros h' Hh; apply Hi2; eapply Oc_override; eassumption].
    - intros [] st5 _. apply NF_bind.
      + apply NF_cmap. unfold compile_schema_with. apply NF_bind; [apply NF_declarations|]. intros c6 st6 E. apply declarations_ok in E; [|exact I]. destruct E as [-> (ns & dt & -> & _)]. cbn [with_decls is_include].
        assert (HB' : budget d K (XInclude c f1 (List.length (ovrs st2)) ns dt)) by (eapply budget_include; eassumption).
        destruct s as [sd [p|l]]; cbn [s_top].
        * destruct p; nf. apply NF_bind; [|nf]. eapply Hri; [exact HB' | reflexivity | exact HR1 | exact Es | constructor | apply short; exact HR1].
        * apply NF_bind; [|nf]. eapply Hri; [exact HB' | reflexivity | exact HR1 | exact Es | constructor | apply short; exact HR1].
      + intros inc st6 _. unfold check_overrides. destruct inc; nf. destruct (find _ _) as [[? ?]|]; nf. }
  assert (H_ga : forall a, N_con (GAnnotation a)) by (intros a c f k st _ _ _ _; nf).
  assert (H_if : forall n h p, N_pat p -> N_ovr (IDefine n h p)).
  { intros n h p IH c f k st HB Hf HL Hi. cbn [SchemaCompile.compile_override]. apply NF_bind; [|intros; apply NF_define].
    eapply IH; [exact HB | exact Hf | exact HL | exact (Hi _ _ _ eq_refl)]. }
  assert (H_iv : forall l, Forall N_ovr l -> N_ovr (IDiv l)) by (intros l _ c f k st _ _ _ _; nf).
  assert (H_ia : forall a, N_ovr (IAnnotation a)) by (intros a c f k st _ _ _ _; nf).
  split; [|split]; [apply (spat_ind' N_pat N_con N_ovr) | apply (gcontent_ind' N_pat N_con N_ovr) | apply (icontent_ind' N_pat N_con N_ovr)]; auto.
Qed.
(** the places of one file *)
Lemma may_file home f s k : R home f -> fs f = inl s -> Short home f k -> (forall h f', in_file h s -> resolve home (lit_value h) = Some f' -> R f' f') /\ (forall h, file_occurs (SExternal h None) s -> ext_ok home k h).
Proof.
  intros HR Hs HS. destruct (closed home f s HR Hs) as [H1 H2]. split; [exact H1|]. intros h Ho f' Hr. destruct (H2 h f' Ho Hr) as [K1 K2]. split; [exact K1|]. intros ds l Es. split; [eapply K2; exact Es|].
  assert (Hk : 1 <= k) by (eapply HS; eapply Ba_S; [exact Hs | exact Ho | exact Hr | exact Es | apply Ba_0]).
  exists (k - 1). split; [lia|]. intros n f2 HB. assert (S n <= k) by (eapply HS; eapply Ba_S; [exact Hs | exact Ho | exact Hr | exact Es | exact HB]). lia.
Qed.
Lemma contents_ok : ri_ok (S d) (compile_contents O C fs rp ri).
Proof.
  intros c home f s l k st HB Hf HR Hs Hc HS. destruct (inL home f HR) as [Hh HL]. destruct (may_file home f s k HR Hs HS) as [M1 M2]. apply NF_citer. intros g st1 Hg.
  eapply (proj1 (proj2 term) g); [exact HB | exact Hf | exact Hh|]. split.
  - intros h f' Hi. apply M1. destruct Hc; [eapply If_grammar; eassumption | apply If_pattern; eapply Ip_grammar; eassumption].
  - intros h Hi. apply M2. destruct Hc; [eapply Fo_grammar; eassumption | apply Fo_pattern; eapply Oi_grammar; eassumption].
Qed.
Lemma pattern_ok : rp_ok (S d) compile_pattern.
Proof.
  intros c home f ds q k st HB Hf HR Hs HS. destruct (inL home f HR) as [Hh HL]. destruct (may_file home f _ k HR Hs HS) as [M1 M2]. eapply (proj1 term q); [exact HB | exact Hf | exact Hh|].
  split; [intros h f' Hi; apply M1; constructor; exact Hi | intros h Hi; apply M2; constructor; exact Hi].
Qed.
End Rec.
Lemma nested_ok d : ri_ok d (snd (nested O C fs d)) /\ rp_ok d (fst (nested O C fs d)).
Proof.
  induction d as [|d [IH1 IH2]]; [split; intros c; intros; match goal with H : budget 0 _ _ |- _ => destruct H as (_ & _ & B); exfalso; exact (Nat.nlt_0_r _ B) end|]. cbn [nested]. destruct (nested O C fs d) as [rp ri]. cbn [fst snd] in *.
  split; [apply contents_ok | apply pattern_ok]; assumption.
Qed.
Lemma compile_NF d name : R name name -> List.length L * S K + K <= d -> NF (compile_grammar O C fs d name).
Proof.
  intros HL Hd. unfold compile_grammar. apply NF_bind; [unfold get_schema; destruct (fs name); nf|]. intros s st1 E. apply get_schema_ok in E. destruct E as (Es & _).
  apply NF_bind; [nf|]. intros c st2 E. unfold new_root in E. cinv E. cret E.
  destruct (nested_ok d) as [Hri Hrp]. destruct (nested O C fs d) as [rp ri] eqn:En. cbn [fst snd] in *. apply NF_bind.
  - unfold compile_schema_with. apply NF_bind; [apply NF_declarations|]. intros c6 st6 E. apply declarations_ok in E; [|exact I]. destruct E as [-> (ns & dt & -> & _)]. cbn [with_decls is_include].
    assert (HB : forall t, budget (S d) K (XRoot name t ns dt)).
    { intros t. split; [constructor|]. split; [intros ? []|]. cbn [inc_files List.length]. rewrite Nat.sub_0_r. lia. }
    destruct s as [sd [p|l]]; cbn [s_top].
    + apply NF_bind; [|intros; apply NF_bind; [apply NF_define | nf]].
      eapply (pattern_ok d rp ri Hri Hrp (XRoot name _ ns dt) name name); [apply HB | reflexivity | exact HL | exact Es | apply short; exact HL].
    + apply NF_bind; [|nf]. eapply (contents_ok d rp ri Hri Hrp (XRoot name _ ns dt) name name); [apply HB | reflexivity | exact HL | exact Es | constructor | apply short; exact HL].
  - intros c' st3 _. apply NF_bind; [nf|]. intros u st4 _. destruct u; nf. apply NF_bind; [nf|]. intros r st5 _. destruct r as [r|]; nf.
    destruct (nth r (cells st5) _) as [nm [Ru|]]; nf. apply NF_fbind; [|nf]. apply (check_NF (cells st5) _ 0); [lia | split; [constructor | intros ? []] | cbn; lia].
Qed.
End Term.

(** ** a chain of externals longer than the list of files comes back to one of them *)
Lemma Bare_app fs home n f f1 : Bare fs home n f f1 -> forall m f2, Bare fs home m f1 f2 -> Bare fs home (n + m) f f2.
Proof. induction 1; intros m ff K; cbn [plus]; [exact K | eapply Ba_S; eauto]. Qed.
(** the files on a chain, the last one excluded *)
Lemma Bare_split fs home n : forall f f', Bare fs home n f f' -> exists l, List.length l = n /\ (forall i g, nth_error l i = Some g -> Bare fs home i f g) /\
  forall i j g g', i <= j -> nth_error l i = Some g -> nth_error l j = Some g' -> Bare fs home (j - i) g g'.
Proof.
  induction n as [|n IH]; intros f f' HB.
  - exists []. split; [reflexivity|]. split; [intros [|i] g Hg; discriminate Hg | intros [|i] j g g' _ Hg; discriminate Hg].
  - inversion HB as [|? ? s l f1 ds k ? Hs Ho Hr Hs1 HB']; subst. destruct (IH _ _ HB') as (fl & El & HF & HF2).
    assert (HA : forall i g, nth_error (f :: fl) i = Some g -> Bare fs home i f g).
    { intros [|i] g Hg; cbn [nth_error] in Hg; [injection Hg as <-; constructor | eapply Ba_S; try eassumption; exact (HF i g Hg)]. }
    exists (f :: fl). split; [cbn; congruence|]. split; [exact HA|].
    intros [|i] j g g' Hij Hg Hg'.
    + cbn in Hg. injection Hg as <-. rewrite Nat.sub_0_r. exact (HA j g' Hg').
    + destruct j as [|j]; [lia|]. cbn [nth_error] in Hg, Hg'. replace (S j - S i) with (j - i) by lia. apply HF2; [lia | assumption | assumption].
Qed.
Lemma Bare_in fs L home : closed_files fs L -> In home L -> forall n f f', Bare fs home n f f' -> In f L -> In f' L.
Proof.
  intros Hc Hh n f f' HB. induction HB as [f|n f s l f1 ds k f2 Hs Ho Hr Hs1 HB IH]; intros Hf; [exact Hf|]. apply IH. destruct (Hc home f s Hh Hf Hs) as [_ K]. eapply K; eassumption.
Qed.
Lemma dup_index {A} (eqd : forall a b : A, {a = b} + {a <> b}) (l : list A) : ~ NoDup l -> exists i j x, i < j /\ nth_error l i = Some x /\ nth_error l j = Some x.
Proof.
  induction l as [|a l IH]; intros H; [destruct H; constructor|]. destruct (in_dec eqd a l) as [Hi|Hi].
  - apply In_nth_error in Hi. destruct Hi as (j & Hj). exists 0, (S j), a. split; [lia|]. auto.
  - destruct IH as (i & j & x & Hij & H1 & H2); [intros K; apply H; constructor; assumption|]. exists (S i), (S j), x. split; [lia|]. auto.
Qed.
Lemma Bare_short fs L (R : path -> path -> Prop) : (forall home f, R home f -> In f L) -> (forall home n f f', Bare fs home n f f' -> R home f -> R home f') ->
  (forall home f n, R home f -> ~ Bare fs home (S n) f f) -> forall home f, R home f -> Short fs home f (List.length L).
Proof.
  intros Hin Hc Hn home f HR n f' HB. destruct (Nat.le_gt_cases n (List.length L)) as [|Hgt]; [assumption|]. exfalso.
  destruct (Bare_split _ _ _ _ _ HB) as (l & El & HF & HF2).
  assert (HL : forall g, In g l -> R home g) by (intros g Hg; apply In_nth_error in Hg; destruct Hg as (i & Hi); eapply Hc; [exact (HF i g Hi) | exact HR]).
  destruct (dup_index path_eq_dec l) as (i & j & g & Hij & Hi & Hj); [intros N; assert (HI : incl l L) by (intros g Hg; eapply Hin, HL; exact Hg); pose proof (NoDup_incl_length N HI); lia|].
  refine (Hn home g (j - i - 1) _ _); [apply HL; eapply nth_error_In; exact Hi|]. replace (S (j - i - 1)) with (j - i) by lia. apply HF2; [lia | assumption | assumption].
Qed.
(** C33: compiling a finite set of files ends, unless a bare grammar comes back to itself by externals *)
Theorem compile_terminates_external O C fs L name : closed_files fs L -> (forall home f n, In home L -> In f L -> ~ Bare fs home (S n) f f) -> In name L ->
  exists r, r <> OutOfFuel /\ Main.settles (fun d => compile_grammar O C fs d name) r.
Proof.
  intros H1 H2 H3. set (D := List.length L * S (List.length L) + List.length L). 
  assert (HN : NF (compile_grammar O C fs D name)).
  { apply (compile_NF O C fs L (List.length L) (fun home f => In home L /\ In f L)).
    - auto.
    - intros home f s [Hh Hf] Hs. destruct (H1 home f s Hh Hf Hs) as [K1 K2]. split; [intros h f' A B; split; eapply K1; eassumption|].
      intros h f' A B. split; [split; eapply K2; eassumption | intros ds l _; split; [exact Hh | eapply K2; eassumption]].
    - apply Bare_short; [intros home f [_ Hf]; exact Hf | intros home n f f' HB [Hh Hf]; split; [exact Hh | exact (Bare_in fs L home H1 Hh n f f' HB Hf)] | intros home f n [Hh Hf]; apply H2; assumption].
    - auto.
    - apply Nat.le_refl. }
  exists (compile_grammar O C fs D name). split; [exact HN|]. exists D. intros m Hm. apply compile_mono; assumption.
Qed.
