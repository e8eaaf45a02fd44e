(** * SchemaReach: the files a compilation reads, through include and external, and what it has checked in each of them
    (C86; C69, C70, C72 for files reached by external). *)
From Coq Require Import String.
From Verif Require Import Base Datatype Facets Store Lang Compile Syntax SchemaCompile SourceSpec SourceCompile SchemaSpec SchemaVisit SchemaAttr SchemaCheck SchemaTerm SchemaLocal.

(** ** Specification, on the source: [Consulted fs name home ds f s]: the file [f], with contents [s], is read on behalf of the
    schema [name]; the names of files written in [f] are relative to [home], and the namespace prefixes in force there are
    those of [ds].  An external file which is a bare grammar is read as if it stood in the referring file; the
    declarations of an external file which is a pattern are not in force. *)
Inductive Consulted (fs : filesys) (name : path) : path -> list decl -> path -> schema -> Prop :=
| Co_main s : fs name = inl s -> Consulted fs name name (s_decls s) name s
| Co_include home ds f s h f' s' : Consulted fs name home ds f s -> in_file h s -> resolve home (lit_value h) = Some f' -> fs f' = inl s' -> Consulted fs name f' (s_decls s') f' s'
| Co_external home ds f s h f' ds' q : Consulted fs name home ds f s -> file_occurs (SExternal h None) s -> resolve home (lit_value h) = Some f' -> fs f' = inl (Schema ds' (TPattern q)) ->
    Consulted fs name f' [] f' (Schema ds' (TPattern q))
| Co_external_grammar home ds f s h f' ds' l : Consulted fs name home ds f s -> file_occurs (SExternal h None) s -> resolve home (lit_value h) = Some f' -> fs f' = inl (Schema ds' (TGrammar l)) ->
    Consulted fs name home ds f' (Schema ds' (TGrammar l)).
(** a prefix of datatypes is [xsd], or declared in some file that is read *)
Definition dt_reached (fs : filesys) (name : path) (p u : str) : Prop := exists h ds f s, Consulted fs name h ds f s /\ binds_dt ds p u.
Definition dt_meant (fs : filesys) (name : path) (n : sdtname) (d : dtname) : Prop :=
  match n with
  | SdString => d = DnString
  | SdToken => d = DnToken
  | SdC p l => exists u, dt_reached fs name p u /\ d = DnCName u l
  | SdNs u l => d = DnCName (lit_value u) l
  end.
(** a prefix of namespaces is [xml], declared by [ds], or named by an [inherit] in a file that is read *)
Definition ns_reached (fs : filesys) (name : path) (ds : list decl) (p : str) : Prop :=
  (exists u, binds_ns ds p u) \/ exists h ds' f s, Consulted fs name h ds' f s /\ file_hands p s.

(** [Leads fs n h f h' f']: [n] includes and externals lead from file [f], whose names of files are relative to [h], to file [f'] *)
Inductive Leads (fs : filesys) : nat -> path -> path -> path -> path -> Prop :=
| Ld_0 h f : Leads fs 0 h f h f
| Ld_include n h f s l f1 s1 h2 f2 : fs f = inl s -> in_file l s -> resolve h (lit_value l) = Some f1 -> fs f1 = inl s1 -> Leads fs n f1 f1 h2 f2 -> Leads fs (S n) h f h2 f2
| Ld_external n h f s l i f1 ds q h2 f2 : fs f = inl s -> file_occurs (SExternal l i) s -> resolve h (lit_value l) = Some f1 -> fs f1 = inl (Schema ds (TPattern q)) -> Leads fs n f1 f1 h2 f2 -> Leads fs (S n) h f h2 f2
| Ld_external_grammar n h f s l i f1 ds k h2 f2 : fs f = inl s -> file_occurs (SExternal l i) s -> resolve h (lit_value l) = Some f1 -> fs f1 = inl (Schema ds (TGrammar k)) -> Leads fs n h f1 h2 f2 -> Leads fs (S n) h f h2 f2.
Lemma Leads_app fs n h f h1 f1 : Leads fs n h f h1 f1 -> forall m h2 f2, Leads fs m h1 f1 h2 f2 -> Leads fs (n + m) h f h2 f2.
Proof. induction 1; intros m hh ff K; cbn [plus]; [exact K | eapply Ld_include; eauto | eapply Ld_external; eauto | eapply Ld_external_grammar; eauto]. Qed.

Section Check.
Variable O : oracles.
Variable C : coracles.
Variable fs : filesys.
Variable name : path.
Notation Consulted := (Consulted fs name).
(** a place: the declarations in force, the file and its contents *)
Record site := Site { si_decls : list decl; si_file : path; si_text : schema }.
Definition At (h : path) (s : site) : Prop := Consulted h (si_decls s) (si_file s) (si_text s).
Notation dt_known := (dt_reached fs name).
Notation dt_names := (dt_meant fs name).
Notation ns_known := (ns_reached fs name).
Definition Good (c : ctx) (f : path) (s : site) : Prop :=
  file_of c = Some f /\ At f s /\ (forall p u, datatype_uri c p = Some u -> dt_known p u) /\ (forall p u, namespace_uri c p = Some u -> ns_known (si_decls s) p).
Lemma Good_under c f s : Good c f s -> forall c', file_of c' = file_of c -> (forall p, datatype_uri c' p = datatype_uri c p) -> (forall p, namespace_uri c' p = namespace_uri c p) -> Good c' f s.
Proof. intros (H1 & H2 & H3 & H4) c' E1 E2 E3. split; [congruence|]. split; [exact H2|]. split; intros p u; [rewrite E2; apply H3 | rewrite E3; apply H4]. Qed.

Lemma class_checked c f s el nc : Good c f s -> forall st x st', compile_nameclass c el nc st = fok (x, st') -> forall p, uses_prefix p nc -> ns_known (si_decls s) p.
Proof.
  intros (_ & _ & _ & HN). assert (HP : forall p st x st', namespace_uri_for_prefix c p st = fok (x, st') -> ns_known (si_decls s) p).
  { intros p st x st' H. unfold namespace_uri_for_prefix in H. destruct (namespace_uri c p) eqn:E; [|cbad H]. eapply HN; exact E. }
  assert (HE : forall ex, (match ex with Some e => forall st x st', compile_nameclass c el e st = fok (x, st') -> forall p, uses_prefix p e -> ns_known (si_decls s) p | None => True end) ->
    forall st x st', (match ex with Some e => do e' <- compile_nameclass c el e; cret (Some e') | None => cret None end) st = fok (x, st') -> forall p, (match ex with Some e => uses_prefix p e | None => False end) -> ns_known (si_decls s) p).
  { intros [e|] IH st x st' H p Hp; [|destruct Hp]. cinv H. eapply IH; eassumption. }
  revert nc. fix IH 1. intros nc. destruct nc as [nm|nm ex|ex|a b|a]; intros st x st' H p Hp.
  - destruct nm as [i|q l|u l]; cbn in Hp; try contradiction. subst q. cbn in H. cinv H. eapply HP; exact E.
  - cbn [compile_nameclass] in H. cinv H. cinv H. cbn [uses_prefix] in Hp. destruct Hp as [Hp|Hp].
    + destruct nm as [q|u]; [subst q; eapply HP; exact E0 | destruct Hp].
    + refine (HE ex _ _ _ _ E p Hp). destruct ex as [e|]; [exact (IH e) | exact I].
  - cbn [compile_nameclass] in H. cinv H. cbn [uses_prefix] in Hp. refine (HE ex _ _ _ _ E p Hp). destruct ex as [e|]; [exact (IH e) | exact I].
  - cbn [compile_nameclass] in H. cinv H. cinv H. destruct Hp as [Hp|Hp]; [exact (IH a _ _ _ E p Hp) | exact (IH b _ _ _ E0 p Hp)].
  - exact (IH a _ _ _ H p Hp).
Qed.
Lemma dtname_checked c f s n st d st' : Good c f s -> compile_dtname c n st = fok (d, st') -> dt_names n d.
Proof.
  intros (_ & _ & HD & _) H. destruct n as [| |p l|u l]; cbn in H; [cret H; reflexivity | cret H; reflexivity | | cret H; reflexivity].
  cinv H. unfold try_datatype_uri in E. destruct (datatype_uri c p) as [u|] eqn:Eu; [|cbad E]. cret E. cret H. exists x. split; [apply HD; exact Eu | reflexivity].
Qed.

Section Rec.
Variable rp : ctx -> spat -> CM mpat.
Variable ri : ctx -> list gcontent -> CM unit.
Notation compile_pattern := (compile_pattern O C fs rp ri).
Notation compile_content := (compile_content O C fs rp ri).
Notation compile_override := (compile_override O C fs rp ri).
Definition Entered (f : path) (s : site) : Prop := exists c st, Good c f s /\
  ((exists l st', file_contents (si_text s) l /\ ri c l st = fok (tt, st')) \/ (exists ds q X st', si_text s = Schema ds (TPattern q) /\ rp c q st = fok (X, st'))).
(** an include or external names a file that has been entered *)
Definition include_ok (f : path) (h : literal) : Prop := exists f' s' l, resolve f (lit_value h) = Some f' /\ fs f' = inl s' /\ file_contents s' l /\ Entered f' (Site (s_decls s') f' s').
Definition external_ok (f : path) (s : site) (h : literal) : Prop := exists f' s', resolve f (lit_value h) = Some f' /\ fs f' = inl s' /\
  match s_top s' with TPattern _ => Entered f' (Site [] f' s') | TGrammar _ => Entered f (Site (si_decls s) f' s') end.
Definition checked (f : path) (s : site) (q : spat) : Prop :=
  match q with
  | SElement nc _ => forall p, uses_prefix p nc -> ns_known (si_decls s) p
  | SAttribute nc q => (forall p, uses_prefix p nc -> ns_known (si_decls s) p) /\ (forall nc' x, ~ part (SElement nc' x) q) /\
      exists c st X st', parent_attribute c = true /\ file_of c = Some f /\ compile_pattern c q st = fok (X, st')
  | SData n ps _ => exists d x, dt_names n d /\ Facets.datatype_name O C d (values_of ps) = Ok (inl x)
  | SValue n v => exists d x, dt_names (match n with Some n => n | None => SdToken end) d /\ Facets.datatype_value d (lit_value v) = Ok (inl x)
  | SExternal h i => i = None /\ external_ok f s h
  | _ => True
  end.
(** all of [p] stands in the file *)
Definition in_s (s : site) (p : spat) : Prop := (forall h, in_pattern h p -> in_file h (si_text s)) /\ (forall q, hands_in q p -> file_hands q (si_text s)) /\ (forall q, occurs_in q p -> file_occurs q (si_text s)).
Definition in_g (s : site) (g : gcontent) : Prop := (forall h, has_include h g -> in_file h (si_text s)) /\ (forall q, hands q g -> file_hands q (si_text s)) /\ (forall q, occurs q g -> file_occurs q (si_text s)).
Definition in_i (s : site) (i : icontent) : Prop := match i with IDefine _ _ p => in_s s p | _ => True end.
Definition Fine_p (f : path) (s : site) (p : spat) : Prop :=
  (forall q, occurs_in q p -> checked f s q) /\ (forall h, in_pattern h p -> include_ok f h).
Definition Fine_g (f : path) (s : site) (g : gcontent) : Prop :=
  (forall q, occurs q g -> checked f s q) /\ (forall h, has_include h g -> include_ok f h).
Definition C_pat (p : spat) : Prop := forall c f s st X st', Good c f s -> in_s s p -> compile_pattern c p st = fok (X, st') -> Fine_p f s p.
Definition C_con (g : gcontent) : Prop := forall c f s st st', Good c f s -> in_g s g -> compile_content c g st = fok (tt, st') -> Fine_g f s g.
Definition C_ovr (i : icontent) : Prop := forall c f s st st', Good c f s -> in_i s i -> compile_override c i st = fok (tt, st') -> match i with IDefine _ _ p => Fine_p f s p | _ => True end.

(** a pattern whose children are fine *)
Lemma node_fine p c f s : (forall l, p <> SGrammar l) -> Good c f s -> in_s s p -> checked f s p ->
  (forall q, child q p -> exists c' st X st', Good c' f s /\ compile_pattern c' q st = fok (X, st') /\ C_pat q) -> Fine_p f s p.
Proof.
  intros Hg HG (HI1 & HI2 & HI3) Hc Hk.
  assert (HF : forall q, child q p -> Fine_p f s q).
  { intros q Hq. destruct (Hk q Hq) as (c' & st & X & st' & HG' & H & IH). refine (IH c' f s st X st' HG' _ H). split; [intros h Hh; apply HI1; econstructor; eassumption | split; [intros x Hx; apply HI2; econstructor; eassumption | intros x Hx; apply HI3; econstructor; eassumption]]. }
  split.
  - intros q Hq. inversion Hq; subst; [exact Hc | eapply HF; eassumption | exfalso; eapply Hg; reflexivity].
  - intros h Hh. inversion Hh; subst; [eapply HF; eassumption | exfalso; eapply Hg; reflexivity].
Qed.
Lemma all_fine l : Forall C_con l -> forall c f s st st', Good c f s -> (forall g, In g l -> in_g s g) -> citer (compile_content c) l st = fok (tt, st') -> forall g, In g l -> Fine_g f s g.
Proof.
  induction 1 as [|g l Hg Hl IH]; intros c f s st st' HG HI H g' Hin; [destruct Hin|].
  cbn [citer] in H. cinv H. destruct x. destruct Hin as [<-|Hin]; [eapply Hg; [exact HG | apply HI; left; reflexivity | exact E]|].
  eapply IH; [exact HG | intros; apply HI; right; assumption | exact H | exact Hin].
Qed.
Lemma overrides_fine l : Forall C_ovr l -> forall c f s st st', Good c f s -> (forall i, In i l -> in_i s i) -> citer (fun i => cmap_err EInclude (compile_override c i)) l st = fok (tt, st') ->
  forall n how p, In (IDefine n how p) l -> Fine_p f s p.
Proof.
  induction 1 as [|i l Hi Hl IH]; intros c f s st st' HG HI H n how p Hin; [destruct Hin|].
  cbn [citer] in H. cinv H. destruct x. apply cmap_err_ok in E. destruct Hin as [->|Hin].
  - exact (Hi c f s _ _ HG (HI _ (or_introl eq_refl)) E).
  - eapply IH; [exact HG | intros; apply HI; right; assumption | exact H | exact Hin].
Qed.
Lemma include_enters c f s h i ov st st' : Good c f s -> in_g s (GInclude h i ov) -> compile_content c (GInclude h i ov) st = fok (tt, st') ->
  exists oc st1 st2, include_ok f h /\ Good oc f s /\
    match ov with Some l => citer (fun i => cmap_err EInclude (compile_override oc i)) l st1 = fok (tt, st2) | None => True end.
Proof.
  intros HG (HI1 & HI2 & HI3) H. pose proof HG as (Hf & HR & HD & HN). cbn [SchemaCompile.compile_content] in H. cinv H. unfold path_from in E. rewrite Hf in E. destruct (resolve f (lit_value h)) as [f1|] eqn:Er; [|cbad E]. cret E.
  cinv H. apply cmap_err_ok, get_schema_ok in E. destruct E as (Es & _). cinv H. apply new_include_ok in E. destruct E as (-> & _). rename x into f1, x0 into s1.
  assert (HR1 : At f1 (Site (s_decls s1) f1 s1)).
  { eapply Co_include; [exact HR | apply HI1; constructor | exact Er | exact Es]. }
  cinv H. rename x into inc.
  assert (HX : declares inc /\ own_dt inc = initial_dts /\ file_of inc = Some f1 /\ (forall p u, assoc p (own_ns inc) = Some u -> p = lit "xml" \/ exists h ds g sg, Consulted h ds g sg /\ file_hands p sg) /\
     (forall p, datatype_uri inc p = match assoc p (own_dt inc) with Some u => Some u | None => datatype_uri c p end) /\ exists o ns, inc = XInclude c f1 o ns initial_dts).
  { destruct i as [j|]; cbn [inherit_prefix] in E.
    - destruct (namespace_uri c (ik_string j)) as [v|]; [|cbad E]. apply declare_ns_ok in E; [|exact I]. destruct E as [_ (ns & -> & Hns)]. cbn [with_decls own_dt own_ns] in *.
      split; [exact I|]. split; [reflexivity|]. split; [reflexivity|]. split; [|split; [reflexivity | eauto]]. intros p u Hp. apply Hns in Hp. destruct Hp as [Hp|[-> _]]; [left; eapply initial_xml; exact Hp|].
      right. exists f, (si_decls s), (si_file s), (si_text s). split; [exact HR|]. apply HI2. constructor. reflexivity.
    - cret E. split; [exact I|]. split; [reflexivity|]. split; [reflexivity|]. split; [|split; [reflexivity | eauto]]. intros p u Hp. left. eapply initial_xml; exact Hp. }
  destruct HX as (D & Edt & Hfi & Hns & Hdt & (oo & ons & Einc)).
  assert (HXS : forall p u, assoc p initial_dts = Some u -> dt_known p u).
  { intros p u Hp. apply initial_xsd in Hp. destruct Hp as [-> ->]. exists f, (si_decls s), (si_file s), (si_text s). split; [exact HR | constructor]. }
  cinv H. destruct x. rename E0 into Eov.
  cinv H. apply cmap_err_ok in E0. unfold compile_schema_with in E0. cinv E0. pose proof (decls_dt _ _ _ _ _ D E1) as Hdl. apply declarations_ok in E1; [|exact D]. destruct E1 as [-> (ns & dt & -> & K1 & _)].
  assert (HG1 : Good (with_decls inc ns dt) f1 (Site (s_decls s1) f1 s1)).
  { subst inc. cbn [with_decls own_ns own_dt datatype_uri namespace_uri file_of] in *. split; [exact Hfi|]. split; [exact HR1|]. split.
    - intros p u Hp. cbn [datatype_uri] in Hp. specialize (Hdl p). destruct (assoc p dt) as [w|] eqn:Ep; [|apply HD; exact Hp]. injection Hp as ->. destruct (Hdl u eq_refl) as [K|K]; [apply HXS; exact K|]. exists f1, (s_decls s1), f1, s1. auto.
    - intros p u Hp. cbn [namespace_uri] in Hp. apply K1 in Hp. destruct Hp as [Hp|Hp]; [|left; eauto]. apply Hns in Hp. destruct Hp as [->|Hp]; [left; eexists; constructor | right; exact Hp]. }
  assert (HE : include_ok f h).
  { destruct s1 as [sd [p|l']]; cbn [s_top s_decls] in *.
    - replace (is_include (with_decls inc ns dt)) with true in E0 by (subst inc; reflexivity). destruct p; try (cbad E0). cinv E0. match type of E1 with _ = fok (?x, _) => destruct x end. exists f1. eexists _, l. split; [exact Er|]. split; [exact Es|]. split; [constructor|]. eexists _, _. split; [exact HG1|]. left. eexists l, _. split; [constructor | exact E1].
    - cinv E0. match type of E1 with _ = fok (?x, _) => destruct x end. exists f1. eexists _, l'. split; [exact Er|]. split; [exact Es|]. split; [constructor|]. eexists _, _. split; [exact HG1|]. left. eexists l', _. split; [constructor | exact E1]. }
  match type of Eov with _ ?a = fok (_, ?b) => exists (XOverrides inc), a, b end. split; [exact HE|]. split.
  - subst inc. split; [exact Hf|]. split; [exact HR|]. cbn [datatype_uri namespace_uri own_dt own_ns] in *. split.
    + intros p u Hp. destruct (assoc p initial_dts) as [w|] eqn:Ep; [injection Hp as ->; apply HXS; exact Ep | apply HD; exact Hp].
    + intros p u Hp. apply Hns in Hp. destruct Hp as [->|Hp]; [left; eexists; constructor | right; exact Hp].
  - destruct ov as [l|]; [exact Eov | exact I].
Qed.
Lemma external_enters c f s h i st X st' : Good c f s -> in_s s (SExternal h i) -> compile_pattern c (SExternal h i) st = fok (X, st') -> checked f s (SExternal h i).
Proof.
  intros HG (_ & _ & HI3) H. pose proof HG as (Hf & HR & HD & HN). cbn [SchemaCompile.compile_pattern] in H. destruct i as [j|]; [cbad H|]. split; [reflexivity|].
  specialize (HI3 _ (Oi_here _)). cinv H. unfold path_from in E. rewrite Hf in E. destruct (resolve f (lit_value h)) as [f1|] eqn:Er; [|cbad E]. cret E.
  cinv H. apply cmap_err_ok, get_schema_ok in E. destruct E as (Es & _). cinv H. apply new_include_ok in E. destruct E as (-> & _). rename x into f1, x0 into s1.
  exists f1, s1. split; [exact Er|]. split; [exact Es|]. destruct s1 as [sd [q|l]]; cbn [s_top] in *.
  - apply cmap_err_ok in H. eexists _, _. split; [|right; eexists sd, q, _, _; split; [reflexivity | exact H]].
    split; [reflexivity|]. split; [eapply Co_external; eassumption|]. cbn [datatype_uri namespace_uri si_decls]. split; intros p u Hp.
    + destruct (assoc p initial_dts) as [w|] eqn:Ep; [|apply HD; exact Hp]. apply initial_xsd in Ep. destruct Ep as [-> ->]. injection Hp as <-. exists f, (si_decls s), (si_file s), (si_text s). split; [exact HR | constructor].
    + apply initial_xml in Hp. subst p. left. eexists. constructor.
  - cinv H. unfold new_grammar in E. cinv E. cret E. cinv H. destruct x. eexists _, _. split; [|left; eexists l, _; split; [constructor | exact E]].
    split; [exact Hf|]. split; [eapply Co_external_grammar; eassumption|]. cbn [datatype_uri namespace_uri si_decls]. split; assumption.
Qed.
Lemma check_all : (forall p, C_pat p) /\ (forall g, C_con g) /\ (forall i, C_ovr i).
Proof.
  assert (H_leaf : forall p, (forall q, ~ child q p) -> (forall k, p <> SGrammar k) -> (forall f s, checked f s p) -> C_pat p).
  { intros p H1 H2 H3 c f s st X st' HG HI _. eapply node_fine; [exact H2 | exact HG | exact HI | apply H3|]. intros q Hq; destruct (H1 q Hq). }
  assert (H_one : forall (W : spat -> spat) (F : mpat -> mpat), (forall c q st, compile_pattern c (W q) st = (do x <- compile_pattern c q; cret (F x)) st) ->
    (forall q q', child q' (W q) -> q' = q) -> (forall q k, W q <> SGrammar k) -> (forall q f s, checked f s (W q)) -> forall q, C_pat q -> C_pat (W q)).
  { intros W F HW H1 H2 H3 q IH c f s st X st' HG HI H. rewrite HW in H. cinv H. eapply node_fine; [apply H2 | exact HG | exact HI | apply H3|].
    intros q' Hq. apply H1 in Hq. subst q'. exists c, st, x, st0. auto. }
  assert (H_two : forall (W : spat -> spat -> spat) (F : mpat -> mpat -> mpat), (forall c a b st, compile_pattern c (W a b) st = (do x <- compile_pattern c a; do y <- compile_pattern c b; cret (F x y)) st) ->
    (forall a b q', child q' (W a b) -> q' = a \/ q' = b) -> (forall a b k, W a b <> SGrammar k) -> (forall a b f s, checked f s (W a b)) -> forall a b, C_pat a -> C_pat b -> C_pat (W a b)).
  { intros W F HW H1 H2 H3 a b IHa IHb c f s st X st' HG HI H. rewrite HW in H. cinv H. cinv H. eapply node_fine; [apply H2 | exact HG | exact HI | apply H3|].
    intros q' Hq. apply H1 in Hq. destruct Hq as [->| ->]; [exists c, st, x, st0 | exists c, st0, x0, st1]; auto. }
  assert (H_el : forall nc p, C_pat p -> C_pat (SElement nc p)).
  { intros nc p IH c f s st X st' HG HI H. cbn [SchemaCompile.compile_pattern] in H. cinv H. cinv H. cinv H.
    eapply node_fine; [discriminate | exact HG | exact HI | cbn; eapply class_checked; eassumption|]. intros q' Hq. inversion Hq; subst.
    unfold new_element in E0. destruct (parent_attribute c); [cbad E0|]. cret E0. eexists (XElement c), _, _, _. split; [apply (Good_under _ _ _ HG); reflexivity|]. split; [exact E1 | exact IH]. }
  assert (H_at : forall nc p, C_pat p -> C_pat (SAttribute nc p)).
  { intros nc p IH c f s st X st' HG HI H. assert (HS : Seen O C fs rp ri (SAttribute nc p)) by (exists c, st, X, st'; exact H). cbn [SchemaCompile.compile_pattern] in H. cinv H. cinv H.
    eapply node_fine; [discriminate | exact HG | exact HI | split; [eapply class_checked; eassumption | split; [exact (seen_attr O C fs rp ri nc p HS) | eexists (XAttribute c), _, _, _; split; [reflexivity | split; [exact (proj1 HG) | exact E0]]]]|]. intros q' Hq. inversion Hq; subst.
    eexists (XAttribute c), _, _, _. split; [apply (Good_under _ _ _ HG); reflexivity|]. split; [exact E0 | exact IH]. }
  assert (H_li : forall p, C_pat p -> C_pat (SList p)) by (apply (H_one SList MList); [reflexivity | intros ? ? K; inversion K; reflexivity | discriminate | intros; exact I]).
  assert (H_mi : forall p, C_pat p -> C_pat (SMixed p)) by (apply (H_one SMixed MMixed); [reflexivity | intros ? ? K; inversion K; reflexivity | discriminate | intros; exact I]).
  assert (H_op : forall p, C_pat p -> C_pat (SOptional p)) by (apply (H_one SOptional MOptional); [reflexivity | intros ? ? K; inversion K; reflexivity | discriminate | intros; exact I]).
  assert (H_ze : forall p, C_pat p -> C_pat (SZeroOrMore p)) by (apply (H_one SZeroOrMore MZeroOrMore); [reflexivity | intros ? ? K; inversion K; reflexivity | discriminate | intros; exact I]).
  assert (H_on : forall p, C_pat p -> C_pat (SOneOrMore p)) by (apply (H_one SOneOrMore MOneOrMore); [reflexivity | intros ? ? K; inversion K; reflexivity | discriminate | intros; exact I]).
  assert (H_gp : forall p, C_pat p -> C_pat (SGroup p)).
  { intros p IH c f s st X st' HG HI H. cbn [SchemaCompile.compile_pattern] in H. eapply node_fine; [discriminate | exact HG | exact HI | exact I|].
    intros q' Hq. inversion Hq; subst. exists c, st, X, st'. auto. }
  assert (H_lp : forall a b, C_pat a -> C_pat b -> C_pat (SListPair a b)) by (apply (H_two SListPair (fun x y => MGroup (seq_members x ++ seq_members y))); [reflexivity | intros ? ? ? K; inversion K; auto | discriminate | intros; exact I]).
  assert (H_ip : forall a b, C_pat a -> C_pat b -> C_pat (SInterleavePair a b)) by (apply (H_two SInterleavePair (fun x y => MInterleave (inter_members x ++ inter_members y))); [reflexivity | intros ? ? ? K; inversion K; auto | discriminate | intros; exact I]).
  assert (H_cp : forall a b, C_pat a -> C_pat b -> C_pat (SChoicePair a b)) by (apply (H_two SChoicePair (fun x y => MChoice (choice_members x ++ choice_members y))); [reflexivity | intros ? ? ? K; inversion K; auto | discriminate | intros; exact I]).
  assert (H_id : forall i, C_pat (SIdent i)) by (intros i; apply H_leaf; [intros q K; inversion K | discriminate | intros; exact I]).
  assert (H_pa : forall i, C_pat (SParent i)) by (intros i; apply H_leaf; [intros q K; inversion K | discriminate | intros; exact I]).
  assert (H_em : C_pat SEmpty) by (apply H_leaf; [intros q K; inversion K | discriminate | intros; exact I]).
  assert (H_te : C_pat SText) by (apply H_leaf; [intros q K; inversion K | discriminate | intros; exact I]).
  assert (H_na : C_pat SNotAllowed) by (apply H_leaf; [intros q K; inversion K | discriminate | intros; exact I]).
  assert (H_ex : forall h i, C_pat (SExternal h i)).
  { intros h i c f s st X st' HG HI H. eapply node_fine; [discriminate | exact HG | exact HI | eapply external_enters; eassumption|]. intros q Hq. inversion Hq. }
  assert (H_va : forall n v, C_pat (SValue n v)).
  { intros n v c f s st X st' HG HI H. cbn [SchemaCompile.compile_pattern] in H. cinv H. cinv H. apply lift_ok in E0. eapply dtname_checked in E; [|exact HG].
    eapply node_fine; [discriminate | exact HG | exact HI | cbn; eauto|]. intros q Hq. inversion Hq. }
  assert (H_da : forall n ps ex, (match ex with Some e => C_pat e | None => True end) -> C_pat (SData n ps ex)).
  { intros n ps ex IH c f s st X st' HG HI H. cbn [SchemaCompile.compile_pattern] in H. cinv H. cinv H. cinv H. apply lift_ok in E0. rewrite values_param in E0. eapply dtname_checked in E; [|exact HG].
    eapply node_fine; [discriminate | exact HG | exact HI | cbn; eauto|]. intros q Hq. inversion Hq; subst. cinv E1. exists c, st1, x2, st3. auto. }
  assert (H_gr : forall l, Forall C_con l -> C_pat (SGrammar l)).
  { intros l Hl c f s st X st' HG (HI1 & HI2 & HI3) H. cbn [SchemaCompile.compile_pattern] in H. cinv H. unfold new_grammar in E. cinv E. cret E. cinv H. destruct x.
    assert (K : forall g, In g l -> Fine_g f s g).
    { eapply (all_fine l Hl (XGrammar c _)); [apply (Good_under _ _ _ HG); reflexivity | | exact E]. intros g Hg. split; [intros h Hh; apply HI1; econstructor; eassumption | split; [intros q Hq; apply HI2; econstructor; eassumption | intros q Hq; apply HI3; econstructor; eassumption]]. }
    split.
    - intros q Hq. inversion Hq as [|? ? Hch|? g Hin Hg]; subst; [exact I | inversion Hch | apply (K g Hin); exact Hg].
    - intros h Hh. inversion Hh as [? ? ? Hch|? ? g Hin Hg]; subst; [inversion Hch | apply (K g Hin); exact Hg]. }
  assert (H_gd : forall n h p, C_pat p -> C_con (GDefine n h p)).
  { intros n h p IH c f s st st' HG (HI1 & HI2 & HI3) H. cbn [SchemaCompile.compile_content] in H. cinv H.
    assert (K : Fine_p f s p) by (refine (IH (XDefine c n) f s _ _ _ _ _ E); [apply (Good_under _ _ _ HG); reflexivity | split; [intros; apply HI1; constructor; assumption | split; [intros; apply HI2; constructor; assumption | intros; apply HI3; constructor; assumption]]]).
    split; [intros q Hq; inversion Hq; subst; apply K; assumption | intros h' Hh; inversion Hh; subst; apply K; assumption]. }
  assert (H_gv : forall l, Forall C_con l -> C_con (GDiv l)).
  { intros l Hl c f s st st' HG (HI1 & HI2 & HI3) H. cbn [SchemaCompile.compile_content] in H.
    assert (K : forall g, In g l -> Fine_g f s g).
    { eapply (all_fine l Hl c); [exact HG | | exact H]. intros g Hg. split; [intros h Hh; apply HI1; econstructor; eassumption | split; [intros q Hq; apply HI2; econstructor; eassumption | intros q Hq; apply HI3; econstructor; eassumption]]. }
    split; [intros q Hq; inversion Hq; subst; eapply K; eassumption | intros h' Hh; inversion Hh; subst; eapply K; eassumption]. }
  assert (H_gi : forall h i ov, (match ov with Some l => Forall C_ovr l | None => True end) -> C_con (GInclude h i ov)).
  { intros h i ov Hov c f s st st' HG HI H. destruct (include_enters _ _ _ _ _ _ _ _ HG HI H) as (oc & st1 & st2 & HE & HGo & Ho). destruct HI as (HI1 & HI2 & HI3).
    assert (K : forall l, ov = Some l -> forall n how p, In (IDefine n how p) l -> Fine_p f s p).
    { intros l -> n how p Hin. refine (overrides_fine l Hov oc f s _ _ HGo _ Ho n how p Hin). intros [n' how' p'|l'|a] Hi; [|exact I|exact I].
      split; [intros h' Hh; apply HI1; eapply Hi_override; eassumption | split; [intros q Hq; apply HI2; eapply Hn_override; eassumption | intros q Hq; apply HI3; eapply Oc_override; eassumption]]. }
    split.
    - intros q Hq. inversion Hq; subst. eapply K; try eassumption; reflexivity.
    - intros h' Hh. inversion Hh; subst; [exact HE|]. eapply K; try eassumption; reflexivity. }
  assert (H_ga : forall a, C_con (GAnnotation a)).
  { intros a c f s st st' HG HI H. split; [intros q Hq; inversion Hq | intros h Hh; inversion Hh]. }
  assert (H_if : forall n h p, C_pat p -> C_ovr (IDefine n h p)).
  { intros n h p IH c f s st st' HG HI H. cbn [SchemaCompile.compile_override] in H. cinv H. exact (IH (XDefine c n) f s _ _ _ (Good_under _ _ _ HG _ eq_refl (fun _ => eq_refl) (fun _ => eq_refl)) HI E). }
  assert (H_iv : forall l, Forall C_ovr l -> C_ovr (IDiv l)) by (intros l _ c f s st st' HG HI H; exact I).
  assert (H_ia : forall a, C_ovr (IAnnotation a)) by (intros a c f s st st' HG HI H; exact I).
  split; [|split]; [apply (spat_ind' C_pat C_con C_ovr) | apply (gcontent_ind' C_pat C_con C_ovr) | apply (icontent_ind' C_pat C_con C_ovr)]; auto.
Qed.
End Rec.


(** the place [s] is fine, with files nested at most [d] deep *)
Notation rp_ d := (fst (nested O C fs d)).
Notation ri_ d := (snd (nested O C fs d)).
Definition FineAt (d : nat) (f : path) (s : site) : Prop :=
  (forall q, file_occurs q (si_text s) -> checked (rp_ d) (ri_ d) f s q) /\ (forall h, in_file h (si_text s) -> include_ok (rp_ d) (ri_ d) f h).
Lemma contents_fine d c f s l st st' : Good c f s -> file_contents (si_text s) l -> compile_contents O C fs (rp_ d) (ri_ d) c l st = fok (tt, st') -> FineAt d f s.
Proof.
  intros HG Hc H. destruct s as [ds g s]. cbn [si_text] in *.
  assert (HV : Forall (C_con (rp_ d) (ri_ d)) l) by (apply Forall_forall; intros x _; apply check_all).
  assert (HI : forall x, In x l -> in_g (Site ds g s) x).
  { intros x Hx. destruct Hc as [ds' l|ds' l]; (split; [|split]; intros y Hy; cbn [si_text]).
    - eapply If_grammar; eassumption.
    - eapply Fh_grammar; eassumption.
    - eapply Fo_grammar; eassumption.
    - apply If_pattern. eapply Ip_grammar; eassumption.
    - apply Fh_pattern. eapply Hm_grammar; eassumption.
    - apply Fo_pattern. eapply Oi_grammar; eassumption. }
  pose proof (all_fine _ _ l HV c f _ st st' HG HI H) as K. unfold FineAt. cbn [si_text].
  destruct Hc as [ds' l|ds' l]; split.
  - intros q Hq. inversion Hq; subst. eapply K; eassumption.
  - intros h Hi. inversion Hi; subst. eapply K; eassumption.
  - intros q Hq. inversion Hq as [|? ? Hp]; subst. inversion Hp as [|? ? Hch|]; subst; [exact I | inversion Hch | eapply K; eassumption].
  - intros h Hi. inversion Hi as [|? ? ? Hp]; subst. inversion Hp as [? ? ? Hch|]; subst; [inversion Hch | eapply K; eassumption].
Qed.
Lemma pattern_fine d c f ds g ds' q st X st' : Good c f (Site ds g (Schema ds' (TPattern q))) -> compile_pattern O C fs (rp_ d) (ri_ d) c q st = fok (X, st') -> FineAt d f (Site ds g (Schema ds' (TPattern q))).
Proof.
  intros HG H. assert (HI : in_s (Site ds g (Schema ds' (TPattern q))) q) by (split; [|split]; intros ? ?; constructor; assumption).
  destruct (proj1 (check_all (rp_ d) (ri_ d)) q c f _ _ _ _ HG HI H) as [J1 J2]. split; [intros y Hy; inversion Hy; subst; auto | intros h Hi; inversion Hi; subst; auto].
Qed.
Lemma Entered_fine d f s : Entered (rp_ d) (ri_ d) f s -> exists d', FineAt d' f s.
Proof.
  intros (c & st & HG & [(l & st' & Hc & H)|(ds & q & X & st' & E & H)]); (destruct d as [|d]; [cbn in H; cbad H|]); exists d; cbn [nested] in H.
  - eapply contents_fine; [exact HG | exact Hc|]. destruct (nested O C fs d) as [rp ri]. exact H.
  - destruct s as [sd g s]. cbn [si_text] in E. subst s. eapply pattern_fine; [exact HG|]. destruct (nested O C fs d) as [rp ri]. exact H.
Qed.
Lemma root_fine d r st : compile_grammar O C fs d name = fok (r, st) -> exists s, fs name = inl s /\ FineAt d name (Site (s_decls s) name s).
Proof.
  intros H. unfold compile_grammar in H. cinv H. apply get_schema_ok in E. destruct E as (Es & _). rename x into s. exists s. split; [exact Es|].
  cinv H. unfold new_root in E. cinv E. cret E.
  assert (HV := contents_fine d). assert (HW := pattern_fine d). destruct (nested O C fs d) as [rp ri] eqn:En. cinv H. unfold compile_schema_with in E. cinv E.
  pose proof (fun D => decls_dt _ _ _ _ _ D E1) as Hdl. specialize (Hdl I). apply declarations_ok in E1; [|exact I]. destruct E1 as [-> (ns & dt & -> & K1 & _)]. cbn [with_decls own_ns own_dt] in *.
  assert (HR : At name (Site (s_decls s) name s)) by (apply Co_main; exact Es).
  match goal with |- FineAt _ _ _ => assert (HG : forall t, Good (XRoot name t ns dt) name (Site (s_decls s) name s)) end.
  { intros t. split; [reflexivity|]. split; [exact HR|]. cbn [datatype_uri namespace_uri si_decls]. split.
    - intros p u Hp. exists name, (s_decls s), name, s. split; [exact HR|]. destruct (Hdl _ _ Hp) as [K|K]; [|exact K]. apply initial_xsd in K. destruct K as [-> ->]. constructor.
    - intros p u Hp. left. apply K1 in Hp. destruct Hp as [Hp|Hp]; [|eauto]. apply initial_xml in Hp. subst p. eexists. constructor. }
  destruct s as [sd [p|l]]; cbn [s_top] in *.
  - cbn [is_include] in E. cinv E. eapply HW; [apply HG | exact E1].
  - cinv E. destruct x1. eapply HV; [apply HG | constructor | exact E1].
Qed.
Lemma Entered_below d f s : Entered (rp_ d) (ri_ d) f s -> exists d', d = S d' /\ FineAt d' f s.
Proof.
  intros (c & st & HG & [(l & st' & Hc & H)|(ds & q & X & st' & E & H)]); (destruct d as [|d]; [cbn in H; cbad H|]); exists d; (split; [reflexivity|]); cbn [nested] in H.
  - eapply contents_fine; [exact HG | exact Hc|]. destruct (nested O C fs d) as [rp ri]. exact H.
  - destruct s as [sd g s]. cbn [si_text] in E. subst s. eapply pattern_fine; [exact HG|]. destruct (nested O C fs d) as [rp ri]. exact H.
Qed.
Lemma leads_bound n h f h' f' : Leads fs n h f h' f' -> forall d ds s, fs f = inl s -> FineAt d h (Site ds f s) -> n <= d.
Proof.
  induction 1 as [h f|n h f s l f1 s1 h2 f2 Hs Hi Hr Hs1 HL IH|n h f s l i f1 ds1 q h2 f2 Hs Hi Hr Hs1 HL IH|n h f s l i f1 ds1 k h2 f2 Hs Hi Hr Hs1 HL IH]; intros d ds s' Hs' [HF1 HF2]; [lia| | |];
    assert (s' = s) by congruence; subst s'.
  - destruct (HF2 l Hi) as (f' & s2 & k & Hr' & Hs2 & _ & HE). assert (f' = f1) by congruence. subst f'. destruct (Entered_below _ _ _ HE) as (d' & -> & HF). specialize (IH d' _ _ Hs2 HF). lia.
  - destruct (HF1 _ Hi) as (-> & f' & s' & Hr' & Hs'' & HE). assert (f' = f1) by congruence. subst f'. rewrite Hs1 in Hs''. injection Hs'' as <-. destruct (Entered_below _ _ _ HE) as (d' & -> & HF). specialize (IH d' _ _ Hs1 HF). lia.
  - destruct (HF1 _ Hi) as (-> & f' & s' & Hr' & Hs'' & HE). assert (f' = f1) by congruence. subst f'. rewrite Hs1 in Hs''. injection Hs'' as <-. destruct (Entered_below _ _ _ HE) as (d' & -> & HF). specialize (IH d' _ _ Hs1 HF). lia.
Qed.
Theorem consulted_fine d r st : compile_grammar O C fs d name = fok (r, st) -> forall h ds f s, Consulted h ds f s -> exists d', FineAt d' h (Site ds f s).
Proof.
  intros H h ds f s HC. induction HC as [s Hs|home ds f s h f' s' HC (d' & _ & IH) Hin Hr Hs|home ds f s h f' ds' q HC (d' & IH & _) Hin Hr Hs|home ds f s h f' ds' l HC (d' & IH & _) Hin Hr Hs].
  - destruct (root_fine _ _ _ H) as (s0 & E & HF). assert (s0 = s) by congruence. subst s0. eauto.
  - destruct (IH h Hin) as (f1 & s1 & l & Hr1 & Hs1 & _ & HE). assert (f1 = f') by congruence. subst f1. assert (s1 = s') by congruence. subst s1. eapply Entered_fine; exact HE.
  - destruct (IH _ Hin) as (_ & f1 & s1 & Hr1 & Hs1 & HE). assert (f1 = f') by congruence. subst f1. rewrite Hs in Hs1. injection Hs1 as <-. eapply Entered_fine; exact HE.
  - destruct (IH _ Hin) as (_ & f1 & s1 & Hr1 & Hs1 & HE). assert (f1 = f') by congruence. subst f1. rewrite Hs in Hs1. injection Hs1 as <-. eapply Entered_fine; exact HE.
Qed.
End Check.

Lemma consulted_file fs name h ds f s : Consulted fs name h ds f s -> fs f = inl s.
Proof. destruct 1; assumption. Qed.
(** every file consulted is listed *)
Theorem consulted_listed O C fs d name r st : compile_grammar O C fs d name = fok (r, st) -> forall h ds f s, Consulted fs name h ds f s -> In f (loaded st).
Proof.
  intros H. set (fs' := fun g => if in_dec path_eq_dec g (loaded st) then fs g else inr 0).
  assert (Hin : forall g s, fs' g = inl s -> In g (loaded st) /\ fs g = inl s) by (intros g s; unfold fs'; destruct (in_dec path_eq_dec g (loaded st)) as [Hi|Hi]; [auto | discriminate]).
  assert (Hag : forall g, In g (loaded st) -> fs' g = fs g) by (intros g Hg; unfold fs'; destruct (in_dec path_eq_dec g (loaded st)) as [Hi|Hi]; [reflexivity | contradiction]).
  destruct (compile_local O C fs fs' d name r st H) as (Hn & _ & H' & _). specialize (H' Hag).
  assert (K : forall h ds f s, Consulted fs name h ds f s -> Consulted fs' name h ds f s).
  { intros h ds f s HC. induction HC as [s Hs|home ds f s h f' s' HC IH Hi Hr Hs|home ds f s h f' ds' q HC IH Hi Hr Hs|home ds f s h f' ds' l HC IH Hi Hr Hs].
    - apply Co_main. rewrite Hag; assumption.
    - destruct (consulted_fine O C fs' name _ _ _ H' _ _ _ _ IH) as (d' & _ & F). destruct (F h Hi) as (f1 & s1 & l & Hr1 & Hs1 & _). assert (f1 = f') by congruence. subst f1.
      eapply Co_include; [exact IH | exact Hi | exact Hr|]. destruct (Hin _ _ Hs1) as [_ Hs2]. congruence.
    - destruct (consulted_fine O C fs' name _ _ _ H' _ _ _ _ IH) as (d' & F & _). destruct (F _ Hi) as (_ & f1 & s1 & Hr1 & Hs1 & _). assert (f1 = f') by congruence. subst f1.
      eapply Co_external; [exact IH | exact Hi | exact Hr|]. destruct (Hin _ _ Hs1) as [_ Hs2]. congruence.
    - destruct (consulted_fine O C fs' name _ _ _ H' _ _ _ _ IH) as (d' & F & _). destruct (F _ Hi) as (_ & f1 & s1 & Hr1 & Hs1 & _). assert (f1 = f') by congruence. subst f1.
      eapply Co_external_grammar; [exact IH | exact Hi | exact Hr|]. destruct (Hin _ _ Hs1) as [_ Hs2]. congruence. }
  intros h ds f s HC. exact (proj1 (Hin _ _ (consulted_file _ _ _ _ _ _ (K _ _ _ _ HC)))).
Qed.

(** ** every file listed is consulted *)
Section Listed.
Variable O : oracles.
Variable C : coracles.
Variable fs : filesys.
Variable name : path.
Definition named (g : path) : Prop := exists h ds s, Consulted fs name h ds g s.
(** whatever [m] adds to the list is consulted *)
Definition adds {A} (m : CM A) : Prop := forall st a st', m st = fok (a, st') -> forall g, In g (loaded st') -> In g (loaded st) \/ named g.
Lemma adds_quiet {A} (m : CM A) : quiet m -> adds m.
Proof. intros Q st a st' E g Hg. rewrite (Q _ _ _ E) in Hg. left. exact Hg. Qed.
Lemma adds_bind {A B} (m : CM A) (f : A -> CM B) : adds m -> (forall a st st', m st = fok (a, st') -> adds (f a)) -> adds (cbind m f).
Proof.
  intros Hm Hf st b st' E g Hg. cinv E. destruct (Hf _ _ _ E0 _ _ _ E _ Hg) as [K|K]; [exact (Hm _ _ _ E0 _ K) | right; exact K].
Qed.
Lemma adds_cmap {A} e (m : CM A) : adds m -> adds (cmap_err e m).
Proof. intros Hm st a st' E. apply cmap_err_ok in E. exact (Hm _ _ _ E). Qed.
Lemma adds_citer {A} (f : A -> CM unit) l : (forall x, In x l -> adds (f x)) -> adds (citer f l).
Proof.
  induction l as [|x l IH]; cbn [citer]; intros H; [apply adds_quiet, q_ret|]. apply adds_bind; [apply H; left; reflexivity | intros _ _ _ _; apply IH; intros; apply H; right; assumption].
Qed.
Lemma adds_get f : (forall s, fs f = inl s -> named f) -> adds (get_schema fs f).
Proof.
  intros Hn st a st' E g Hg. unfold get_schema in E. destruct (fs f) as [s|e] eqn:Ef; [|discriminate E]. injection E as <- <-. cbn [loaded] in Hg.
  destruct (in_dec path_eq_dec f (loaded st)); [left; exact Hg|]. apply in_app_iff in Hg. destruct Hg as [Hg|[<-|[]]]; [left; exact Hg | right; exact (Hn s eq_refl)].
Qed.
Ltac ql := apply adds_quiet; first [apply q_ret | apply q_nameclass | apply q_new_element | apply q_dtname | apply q_lift | apply q_define | apply q_new_grammar | apply q_take_start | apply q_acquire_ref | apply q_parent | apply q_path | apply q_new_include | apply q_inherit | apply q_overrides | apply q_panic | apply q_err | apply q_declarations | apply q_undefined].
Ltac ab := apply adds_bind; [try ql | intros ? ? ? ?; try ql].
Section Rec.
Variables (rp : ctx -> spat -> CM mpat) (ri : ctx -> list gcontent -> CM unit).
Hypothesis Hp : forall c home ds f ds' q, file_of c = Some home -> Consulted fs name home ds f (Schema ds' (TPattern q)) -> adds (rp c q).
Hypothesis Hi : forall c home ds f s l, file_of c = Some home -> Consulted fs name home ds f s -> file_contents s l -> adds (ri c l).
Notation P := (compile_pattern O C fs rp ri).
Notation G := (compile_content O C fs rp ri).
Notation V := (compile_override O C fs rp ri).
Definition A_pat (p : spat) : Prop := forall c home s, file_of c = Some home -> At fs name home s -> in_s s p -> adds (P c p).
Definition A_con (g : gcontent) : Prop := forall c home s, file_of c = Some home -> At fs name home s -> in_g s g -> adds (G c g).
Definition A_ovr (i : icontent) : Prop := forall c home s, file_of c = Some home -> At fs name home s -> in_i s i -> adds (V c i).
Lemma in_child s p q : child q p -> in_s s p -> in_s s q.
Proof. intros Hc (H1 & H2 & H3). split; [|split]; intros x Hx; [apply H1 | apply H2 | apply H3]; econstructor; eassumption. Qed.
Lemma adds_all : (forall p, A_pat p) /\ (forall g, A_con g) /\ (forall i, A_ovr i).
Proof.
  assert (H_el : forall nc p, A_pat p -> A_pat (SElement nc p)).
  { intros nc p IH c home s Hf HA HI. cbn [SchemaCompile.compile_pattern]. ab. ab. unfold new_element in H0. destruct (parent_attribute c); [cbad H0|]. cret H0. ab. apply (IH (XElement c) home s Hf HA (in_child _ _ _ (Ch_element _ _) HI)). }
  assert (H_at : forall nc p, A_pat p -> A_pat (SAttribute nc p)).
  { intros nc p IH c home s Hf HA HI. cbn [SchemaCompile.compile_pattern]. ab. ab. apply (IH (XAttribute c) home s Hf HA (in_child _ _ _ (Ch_attribute _ _) HI)). }
  assert (H_li : forall p, A_pat p -> A_pat (SList p)) by (intros p IH c home s Hf HA HI; cbn [SchemaCompile.compile_pattern]; ab; apply (IH c home s Hf HA (in_child _ _ _ (Ch_list _) HI))).
  assert (H_mi : forall p, A_pat p -> A_pat (SMixed p)) by (intros p IH c home s Hf HA HI; cbn [SchemaCompile.compile_pattern]; ab; apply (IH c home s Hf HA (in_child _ _ _ (Ch_mixed _) HI))).
  assert (H_op : forall p, A_pat p -> A_pat (SOptional p)) by (intros p IH c home s Hf HA HI; cbn [SchemaCompile.compile_pattern]; ab; apply (IH c home s Hf HA (in_child _ _ _ (Ch_optional _) HI))).
  assert (H_ze : forall p, A_pat p -> A_pat (SZeroOrMore p)) by (intros p IH c home s Hf HA HI; cbn [SchemaCompile.compile_pattern]; ab; apply (IH c home s Hf HA (in_child _ _ _ (Ch_zero _) HI))).
  assert (H_on : forall p, A_pat p -> A_pat (SOneOrMore p)) by (intros p IH c home s Hf HA HI; cbn [SchemaCompile.compile_pattern]; ab; apply (IH c home s Hf HA (in_child _ _ _ (Ch_one _) HI))).
  assert (H_gp : forall p, A_pat p -> A_pat (SGroup p)) by (intros p IH c home s Hf HA HI; cbn [SchemaCompile.compile_pattern]; apply (IH c home s Hf HA (in_child _ _ _ (Ch_group _) HI))).
  assert (H_lp : forall a b, A_pat a -> A_pat b -> A_pat (SListPair a b)) by (intros a b IHa IHb c home s Hf HA HI; cbn [SchemaCompile.compile_pattern]; ab; [apply (IHa c home s Hf HA (in_child _ _ _ (Ch_seq_l _ _) HI)) | ab; apply (IHb c home s Hf HA (in_child _ _ _ (Ch_seq_r _ _) HI))]).
  assert (H_ip : forall a b, A_pat a -> A_pat b -> A_pat (SInterleavePair a b)) by (intros a b IHa IHb c home s Hf HA HI; cbn [SchemaCompile.compile_pattern]; ab; [apply (IHa c home s Hf HA (in_child _ _ _ (Ch_inter_l _ _) HI)) | ab; apply (IHb c home s Hf HA (in_child _ _ _ (Ch_inter_r _ _) HI))]).
  assert (H_cp : forall a b, A_pat a -> A_pat b -> A_pat (SChoicePair a b)) by (intros a b IHa IHb c home s Hf HA HI; cbn [SchemaCompile.compile_pattern]; ab; [apply (IHa c home s Hf HA (in_child _ _ _ (Ch_choice_l _ _) HI)) | ab; apply (IHb c home s Hf HA (in_child _ _ _ (Ch_choice_r _ _) HI))]).
  assert (H_id : forall i, A_pat (SIdent i)) by (intros i c home s Hf HA HI; cbn [SchemaCompile.compile_pattern]; ab).
  assert (H_pa : forall i, A_pat (SParent i)) by (intros i c home s Hf HA HI; cbn [SchemaCompile.compile_pattern]; ab).
  assert (H_em : A_pat SEmpty) by (intros c home s Hf HA HI; cbn [SchemaCompile.compile_pattern]; ql).
  assert (H_te : A_pat SText) by (intros c home s Hf HA HI; cbn [SchemaCompile.compile_pattern]; ql).
  assert (H_na : A_pat SNotAllowed) by (intros c home s Hf HA HI; cbn [SchemaCompile.compile_pattern]; ql).
  assert (H_va : forall n v, A_pat (SValue n v)) by (intros n v c home s Hf HA HI; cbn [SchemaCompile.compile_pattern]; ab; ab).
  assert (H_da : forall n ps ex, (match ex with Some e => A_pat e | None => True end) -> A_pat (SData n ps ex)).
  { intros n ps ex IH c home s Hf HA HI. cbn [SchemaCompile.compile_pattern]. ab. ab. ab. destruct ex as [e|]; [|ql]. ab. apply (IH c home s Hf HA (in_child _ _ _ (Ch_except _ _ _) HI)). }
  assert (H_ex : forall h i, A_pat (SExternal h i)).
  { intros h i c home s Hf HA (_ & _ & HI). specialize (HI _ (Oi_here _)). cbn [SchemaCompile.compile_pattern]. destruct i as [j|]; [ql|]. ab.
    unfold path_from in H. rewrite Hf in H. destruct (resolve home (lit_value h)) as [f'|] eqn:Er; [|cbad H]. cret H. rename a into f'.
    assert (HN : forall s', fs f' = inl s' -> named f').
    { intros [ds' [q|l]] Es; [exists f', [], (Schema ds' (TPattern q)); eapply Co_external | exists home, (si_decls s), (Schema ds' (TGrammar l)); eapply Co_external_grammar]; eassumption. }
    apply adds_bind; [apply adds_cmap, adds_get, HN|]. intros s' st1 st2 Eg. apply cmap_err_ok, get_schema_ok in Eg. destruct Eg as (Es & _).
    apply adds_bind; [ql|]. intros inc st3 st4 En. apply new_include_ok in En. destruct En as (-> & _). destruct s' as [ds' [q|l]]; cbn [s_top].
    - apply adds_cmap. eapply Hp; [reflexivity | eapply Co_external; eassumption].
    - apply adds_bind; [ql|]. intros g st5 st6 Eg. unfold new_grammar in Eg. cinv Eg. cret Eg. apply adds_bind.
      + eapply (Hi (XGrammar c _)); [exact Hf | eapply Co_external_grammar; eassumption | constructor].
      + intros _ st7 st8 _. apply adds_bind; [ql|]. intros [u|] st9 st10 _; ql. }
  assert (H_gr : forall l, Forall A_con l -> A_pat (SGrammar l)).
  { intros l Hl c home s Hf HA (H1 & H2 & H3). cbn [SchemaCompile.compile_pattern]. apply adds_bind; [ql|]. intros g st5 st6 Eg. unfold new_grammar in Eg. cinv Eg. cret Eg. apply adds_bind; [|intros; ql].
    apply adds_citer. intros gx Hx. rewrite Forall_forall in Hl. apply (Hl gx Hx (XGrammar c _) home s Hf HA). split; [|split]; intros y Hy; [apply H1 | apply H2 | apply H3]; econstructor; eassumption. }
  assert (H_gd : forall n h p, A_pat p -> A_con (GDefine n h p)).
  { intros n h p IH c home s Hf HA (H1 & H2 & H3). cbn [SchemaCompile.compile_content]. ab. apply (IH (XDefine c n) home s Hf HA). split; [|split]; intros y Hy; [apply H1 | apply H2 | apply H3]; econstructor; eassumption. }
  assert (H_gv : forall l, Forall A_con l -> A_con (GDiv l)).
  { intros l Hl c home s Hf HA (H1 & H2 & H3). cbn [SchemaCompile.compile_content]. apply adds_citer. intros x Hx. rewrite Forall_forall in Hl. apply (Hl x Hx c home s Hf HA). split; [|split]; intros y Hy; [apply H1 | apply H2 | apply H3]; econstructor; eassumption. }
  assert (H_gi : forall h i ov, (match ov with Some l => Forall A_ovr l | None => True end) -> A_con (GInclude h i ov)).
  { intros h i ov Hov c home s Hf HA (H1 & H2 & H3). cbn [SchemaCompile.compile_content]. ab.
    unfold path_from in H. rewrite Hf in H. destruct (resolve home (lit_value h)) as [f'|] eqn:Er; [|cbad H]. cret H. rename a into f'.
    assert (HN : forall s', fs f' = inl s' -> Consulted fs name f' (s_decls s') f' s') by (intros s' Es; eapply Co_include; [exact HA | apply H1; constructor | exact Er | exact Es]).
    apply adds_bind; [apply adds_cmap, adds_get; intros s' Es; exists f', (s_decls s'), s'; exact (HN s' Es)|]. intros s' st1 st2 Eg. apply cmap_err_ok, get_schema_ok in Eg. destruct Eg as (Es & _).
    apply adds_bind; [ql|]. intros inc st3 st4 En. apply new_include_ok in En. destruct En as (-> & _). apply adds_bind; [ql|]. intros inc st5 st6 Ei. apply inherit_ok in Ei; [|exact I]. destruct Ei as [ns0 ->]. cbn [with_decls].
    apply adds_bind.
    - destruct ov as [l|]; [|ql]. apply adds_citer. intros x Hx. apply adds_cmap. rewrite Forall_forall in Hov. refine (Hov x Hx (XOverrides _) home s _ HA _); [exact Hf|].
      destruct x as [n how p|l'|an]; cbn; auto. split; [|split]; intros y Hy; [apply H1; eapply Hi_override | apply H2; eapply Hn_override | apply H3; eapply Oc_override]; eassumption.
    - intros _ st7 st8 _. ab. apply adds_cmap. unfold compile_schema_with. apply adds_bind; [ql|]. intros c' st9 st10 Ed. apply declarations_ok in Ed; [|exact I]. destruct Ed as [_ (ns & dt & -> & _)]. cbn [with_decls is_include].
      destruct s' as [sd [q|l]]; cbn [s_top].
      + destruct q as [| | | | | | | | | |l| | | | | | | | | ]; try ql. all: try (ab; eapply Hi; [reflexivity | eapply HN; exact Es | constructor]).
      + ab. eapply Hi; [reflexivity | eapply HN; exact Es | constructor]. }
  assert (H_ga : forall a, A_con (GAnnotation a)) by (intros a c home s Hf HA HI; cbn [SchemaCompile.compile_content]; ql).
  assert (H_if : forall n h p, A_pat p -> A_ovr (IDefine n h p)) by (intros n h p IH c home s Hf HA HI; cbn [SchemaCompile.compile_override]; ab; apply (IH (XDefine c n) home s Hf HA HI)).
  assert (H_iv : forall l, Forall A_ovr l -> A_ovr (IDiv l)) by (intros l _ c home s Hf HA HI; cbn [SchemaCompile.compile_override]; ql).
  assert (H_ia : forall a, A_ovr (IAnnotation a)) by (intros a c home s Hf HA HI; cbn [SchemaCompile.compile_override]; ql).
  split; [|split]; [apply (spat_ind' A_pat A_con A_ovr) | apply (gcontent_ind' A_pat A_con A_ovr) | apply (icontent_ind' A_pat A_con A_ovr)]; auto.
Qed.
Lemma adds_pattern c home ds f ds' q : file_of c = Some home -> Consulted fs name home ds f (Schema ds' (TPattern q)) -> adds (P c q).
Proof. intros Hf HC. apply (proj1 adds_all q c home (Site ds f (Schema ds' (TPattern q))) Hf HC). split; [|split]; intros y Hy; constructor; exact Hy. Qed.
Lemma adds_contents c home ds f s l : file_of c = Some home -> Consulted fs name home ds f s -> file_contents s l -> adds (compile_contents O C fs rp ri c l).
Proof.
  intros Hf HC Hl. apply adds_citer. intros x Hx. apply (proj1 (proj2 adds_all) x c home (Site ds f s) Hf HC).
  destruct Hl as [sd l|sd l]; (split; [|split]; intros y Hy; cbn [si_text]); try (econstructor; eassumption); constructor; econstructor; eassumption.
Qed.
End Rec.
Lemma adds_nested d : (forall c home ds f ds' q, file_of c = Some home -> Consulted fs name home ds f (Schema ds' (TPattern q)) -> adds (fst (nested O C fs d) c q)) /\
  (forall c home ds f s l, file_of c = Some home -> Consulted fs name home ds f s -> file_contents s l -> adds (snd (nested O C fs d) c l)).
Proof.
  induction d as [|d [IH1 IH2]]; [split; intros; intros st a st' E; discriminate E|]. cbn [nested]. destruct (nested O C fs d) as [rp ri]. cbn [fst snd] in *.
  split; intros; [eapply adds_pattern | eapply adds_contents]; eassumption.
Qed.
Theorem listed_consulted d r st : compile_grammar O C fs d name = fok (r, st) -> forall f, In f (loaded st) -> named f.
Proof.
  intros H. unfold compile_grammar in H. destruct (adds_nested d) as [H1 H2]. destruct (nested O C fs d) as [rp ri]. cbn [fst snd] in *.
  match type of H with ?m empty_cst = _ => assert (L : adds m) end.
  { apply adds_bind; [apply adds_get; intros s Es; exists name, (s_decls s), s; apply Co_main; exact Es|]. intros s st1 st2 Eg. apply get_schema_ok in Eg. destruct Eg as (Es & _). pose proof (Co_main fs name s Es) as HC.
    apply adds_bind; [apply adds_quiet, q_bind; [apply q_table | intros; apply q_ret]|]. intros c st3 st4 Ec. unfold new_root in Ec. cinv Ec. cret Ec. apply adds_bind.
    - unfold compile_schema_with. apply adds_bind; [ql|]. intros c' st5 st6 Ed. apply declarations_ok in Ed; [|exact I]. destruct Ed as [_ (ns & dt & -> & _)]. cbn [with_decls is_include].
      destruct s as [sd [q|l]]; cbn [s_top].
      + ab; [eapply adds_pattern; [exact H1 | exact H2 | reflexivity | exact HC] | ab].
      + ab. eapply adds_contents; [exact H1 | exact H2 | reflexivity | exact HC | constructor].
    - intros c' st5 st6 _. apply adds_quiet. apply q_bind; [apply q_undefined|]. intros [u|]; [apply q_err|]. apply q_bind; [apply q_get_ref|]. intros [k|]; [|apply q_err].
      intros st7 a st8 E1. destruct (nth _ _ _) as [nn [rule|]]; [|discriminate E1]. destruct (check_refs _ _ _ _) as [[xx|e]|p|]; try discriminate E1. injection E1 as _ <-. reflexivity. }
  intros f Hf. destruct (L _ _ _ H f Hf) as [[]|K]. exact K.
Qed.
End Listed.
Theorem listed_iff O C fs d name r st : compile_grammar O C fs d name = fok (r, st) -> forall f, In f (loaded st) <-> exists h ds s, Consulted fs name h ds f s.
Proof. intros H f. split; [exact (listed_consulted O C fs name d r st H f) | intros (h & ds & s & K); eapply consulted_listed; eassumption]. Qed.

(** ** no file leads back to itself *)
Theorem no_return O C fs d name r st : compile_grammar O C fs d name = fok (r, st) -> forall h ds f s n, Consulted fs name h ds f s -> ~ Leads fs (S n) h f h f.
Proof.
  intros H h ds f s n HC HL. destruct (consulted_fine O C fs name d r st H h ds f s HC) as (d' & HF).
  assert (K : forall k, exists m, k <= m /\ Leads fs m h f h f).
  { induction k as [|k (m & Hm & HK)]; [exists 0; split; [lia | constructor]|]. exists (S n + m). split; [lia | eapply Leads_app; eassumption]. }
  destruct (K (S d')) as (m & Hm & HK). pose proof (leads_bound O C fs name m h f h f HK d' ds s (consulted_file _ _ _ _ _ _ HC) HF). lia.
Qed.
