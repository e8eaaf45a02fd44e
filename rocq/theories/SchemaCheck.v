(** * SchemaCheck: what a successful compilation has checked in every file it includes (C69, C70, C71). *)
From Coq Require Import String.
From Verif Require Import Base Datatype Facets Store Lang Compile Syntax SchemaCompile SourceSpec SourceCompile SchemaSpec SchemaVisit SchemaAttr.

(** ** Vocabulary on the source *)
(** the prefixes a name class uses *)
Fixpoint uses_prefix (p : str) (n : snc) : Prop :=
  match n with
  | CName (NmC q _) => q = p
  | CName _ => False
  | CNs nm ex => (match nm with NsPrefix q => q = p | NsUri _ => False end) \/ (match ex with Some e => uses_prefix p e | None => False end)
  | CAny ex => match ex with Some e => uses_prefix p e | None => False end
  | CAlt a b => uses_prefix p a \/ uses_prefix p b
  | CParen a => uses_prefix p a
  end.
(** an include with [inherit = p] stands in the file *)
Inductive hands (p : str) : gcontent -> Prop :=
| Hn_here h i ov : ik_string i = p -> hands p (GInclude h (Some i) ov)
| Hn_div g l : In g l -> hands p g -> hands p (GDiv l)
| Hn_define n how q : hands_in p q -> hands p (GDefine n how q)
| Hn_override h inh l n how q : In (IDefine n how q) l -> hands_in p q -> hands p (GInclude h inh (Some l))
with hands_in (p : str) : spat -> Prop :=
| Hm_child q q' : child q' q -> hands_in p q' -> hands_in p q
| Hm_grammar l g : In g l -> hands p g -> hands_in p (SGrammar l).
Inductive file_hands (p : str) : schema -> Prop :=
| Fh_grammar ds l g : In g l -> hands p g -> file_hands p (Schema ds (TGrammar l))
| Fh_pattern ds q : hands_in p q -> file_hands p (Schema ds (TPattern q)).

Section Check.
Variable O : oracles.
Variable C : coracles.
Variable fs : filesys.
Variable name : path.
(** [g] is read, by includes *)
Definition Read (g : path) (s : schema) : Prop := (exists m, Chain fs m name g) /\ fs g = inl s.
(** a prefix of datatypes is declared in some file that is read *)
Definition dt_known (p u : str) : Prop := exists g s, Read g s /\ binds_dt (s_decls s) p u.
Definition dt_names (n : sdtname) (d : dtname) : Prop :=
  match n with
  | SdString => d = DnString
  | SdToken => d = DnToken
  | SdC p l => exists u, dt_known p u /\ d = DnCName u l
  | SdNs u l => d = DnCName (lit_value u) l
  end.
Definition ns_known (ds : list decl) (p : str) : Prop := (exists u, binds_ns ds p u) \/ exists g s, Read g s /\ file_hands p s.
Definition checked (s : schema) (q : spat) : Prop :=
  match q with
  | SElement nc _ | SAttribute nc _ => forall p, uses_prefix p nc -> ns_known (s_decls s) p
  | SData n ps _ => exists d x, dt_names n d /\ Facets.datatype_name O C d (values_of ps) = Ok (inl x)
  | SValue n v => exists d x, dt_names (match n with Some n => n | None => SdToken end) d /\ Facets.datatype_value d (lit_value v) = Ok (inl x)
  | _ => True
  end.

Definition Good (c : ctx) (f : path) (s : schema) : Prop :=
  file_of c = Some f /\ Read f s /\ (forall p u, datatype_uri c p = Some u -> dt_known p u) /\ (forall p u, namespace_uri c p = Some u -> ns_known (s_decls s) p).
Lemma Good_under c f s : Good c f s -> forall c', file_of c' = file_of c -> (forall p, datatype_uri c' p = datatype_uri c p) -> (forall p, namespace_uri c' p = namespace_uri c p) -> Good c' f s.
Proof. intros (H1 & H2 & H3 & H4) c' E1 E2 E3. split; [congruence|]. split; [exact H2|]. split; intros p u; [rewrite E2; apply H3 | rewrite E3; apply H4]. Qed.

Lemma class_checked c f s el nc : Good c f s -> forall st x st', compile_nameclass c el nc st = fok (x, st') -> forall p, uses_prefix p nc -> ns_known (s_decls s) p.
Proof.
  intros (_ & _ & _ & HN). assert (HP : forall p st x st', namespace_uri_for_prefix c p st = fok (x, st') -> ns_known (s_decls s) p).
  { intros p st x st' H. unfold namespace_uri_for_prefix in H. destruct (namespace_uri c p) eqn:E; [|cbad H]. eapply HN; exact E. }
  assert (HE : forall ex, (match ex with Some e => forall st x st', compile_nameclass c el e st = fok (x, st') -> forall p, uses_prefix p e -> ns_known (s_decls s) p | None => True end) ->
    forall st x st', (match ex with Some e => do e' <- compile_nameclass c el e; cret (Some e') | None => cret None end) st = fok (x, st') -> forall p, (match ex with Some e => uses_prefix p e | None => False end) -> ns_known (s_decls s) p).
  { intros [e|] IH st x st' H p Hp; [|destruct Hp]. cinv H. eapply IH; eassumption. }
  revert nc. fix IH 1. intros nc. destruct nc as [nm|nm ex|ex|a b|a]; intros st x st' H p Hp.
  - destruct nm as [i|q l|u l]; cbn in Hp; try contradiction. subst q. cbn in H. cinv H. eapply HP; exact E.
  - cbn [compile_nameclass] in H. cinv H. cinv H. cbn [uses_prefix] in Hp. destruct Hp as [Hp|Hp].
    + destruct nm as [q|u]; [subst q; eapply HP; exact E0 | destruct Hp].
    + refine (HE ex _ _ _ _ E p Hp). destruct ex as [e|]; [exact (IH e) | exact I].
  - cbn [compile_nameclass] in H. cinv H. cbn [uses_prefix] in Hp. refine (HE ex _ _ _ _ E p Hp). destruct ex as [e|]; [exact (IH e) | exact I].
  - cbn [compile_nameclass] in H. cinv H. cinv H. destruct Hp as [Hp|Hp]; [exact (IH a _ _ _ E p Hp) | exact (IH b _ _ _ E0 p Hp)].
  - exact (IH a _ _ _ H p Hp).
Qed.
Lemma dtname_checked c f s n st d st' : Good c f s -> compile_dtname c n st = fok (d, st') -> dt_names n d.
Proof.
  intros (_ & _ & HD & _) H. destruct n as [| |p l|u l]; cbn in H; [cret H; reflexivity | cret H; reflexivity | | cret H; reflexivity].
  cinv H. unfold try_datatype_uri in E. destruct (datatype_uri c p) as [u|] eqn:Eu; [|cbad E]. cret E. cret H. exists x. split; [apply HD; exact Eu | reflexivity].
Qed.
Lemma lift_ok {A} (x : fres dt_error A) st y st' : lift_dt x st = fok (y, st') -> x = Ok (inl y).
Proof. unfold lift_dt. destruct x as [[a|e]| |]; cbn; intros H; try discriminate H. injection H as -> _. reflexivity. Qed.
Lemma values_param ps : param_values ps = values_of ps.
Proof. destruct ps as [l|]; [|reflexivity]. unfold param_values, values_of. apply map_ext. intros [[? ?] ?]. reflexivity. Qed.
Lemma decls_dt l : forall c st c' st', declares c -> compile_declarations c l st = fok (c', st') -> forall p u, assoc p (own_dt c') = Some u -> assoc p (own_dt c) = Some u \/ binds_dt l p u.
Proof.
  induction l as [|d l IH]; intros c st c' st' D H p u Hp; cbn [compile_declarations] in H; [cret H; left; exact Hp|]. cinv H.
  assert (HB : forall p u, binds_dt l p u -> binds_dt (d :: l) p u) by (intros ? ? [|p' l' Hi]; [constructor | eapply Bd_decl; right; exact Hi]).
  assert (HX : declares x /\ (own_dt x = own_dt c \/ exists q v, d = DDatatypes q v /\ own_dt x = own_dt c ++ [(q, lit_value v)])).
  { destruct d as [q v|q v|q v]; cbn [compile_declaration] in E.
    - destruct v as [|v]; [cbad E|]. apply declare_ns_ok in E; [|exact D]. destruct E as [_ (ns & -> & _)]. split; [apply with_declares; exact D | left; apply own_dt_with; exact D].
    - destruct v as [|v]; [cbad E|]. destruct q as [q|]; [|cret E; auto]. apply declare_ns_ok in E; [|exact D]. destruct E as [_ (ns & -> & _)]. split; [apply with_declares; exact D | left; apply own_dt_with; exact D].
    - destruct c; destruct D; cbn [declare_datatype] in E; (destruct (assoc q dts); [cbad E|]; cret E; split; [exact I | right; exists q, v; split; reflexivity]). }
  destruct HX as [Dx HX]. destruct (IH _ _ _ _ Dx H p u Hp) as [K|K]; [|right; apply HB; exact K].
  destruct HX as [Ex|(q & v & -> & Ex)]; rewrite Ex in K; [left; exact K|]. rewrite assoc_app in K. destruct (assoc p (own_dt c)) eqn:Ec; [left; exact K|].
  rewrite assoc_one in K. destruct (str_eqb q p) eqn:Es; [|discriminate K]. apply str_eqb_eq in Es. subst q. injection K as <-. right. apply Bd_decl. left. reflexivity.
Qed.

Section Rec.
Variable rp : ctx -> spat -> CM mpat.
Variable ri : ctx -> list gcontent -> CM unit.
Notation compile_pattern := (compile_pattern O C fs rp ri).
Notation compile_content := (compile_content O C fs rp ri).
Notation compile_override := (compile_override O C fs rp ri).
Definition Entered (f : path) : Prop := exists s l c st st', Good c f s /\ file_contents s l /\ ri c l st = fok (tt, st').
(** all of [p] stands in the file *)
Definition in_s (s : schema) (p : spat) : Prop := (forall h, in_pattern h p -> in_file h s) /\ (forall q, hands_in q p -> file_hands q s).
Definition in_g (s : schema) (g : gcontent) : Prop := (forall h, has_include h g -> in_file h s) /\ (forall q, hands q g -> file_hands q s).
Definition in_i (s : schema) (i : icontent) : Prop := match i with IDefine _ _ p => in_s s p | _ => True end.
Definition Fine_p (f : path) (s : schema) (p : spat) : Prop :=
  (forall q, occurs_in q p -> checked s q) /\ (forall h, in_pattern h p -> exists f', resolve f (lit_value h) = Some f' /\ Entered f').
Definition Fine_g (f : path) (s : schema) (g : gcontent) : Prop :=
  (forall q, occurs q g -> checked s q) /\ (forall h, has_include h g -> exists f', resolve f (lit_value h) = Some f' /\ Entered f').
Definition C_pat (p : spat) : Prop := forall c f s st X st', Good c f s -> in_s s p -> compile_pattern c p st = fok (X, st') -> Fine_p f s p.
Definition C_con (g : gcontent) : Prop := forall c f s st st', Good c f s -> in_g s g -> compile_content c g st = fok (tt, st') -> Fine_g f s g.
Definition C_ovr (i : icontent) : Prop := forall c f s st st', Good c f s -> in_i s i -> compile_override c i st = fok (tt, st') -> match i with IDefine _ _ p => Fine_p f s p | _ => True end.

(** a pattern whose children are fine *)
Lemma node_fine p c f s : (forall l, p <> SGrammar l) -> Good c f s -> in_s s p -> checked s p ->
  (forall q, child q p -> exists c' st X st', Good c' f s /\ compile_pattern c' q st = fok (X, st') /\ C_pat q) -> Fine_p f s p.
Proof.
  intros Hg HG [HI1 HI2] Hc Hk.
  assert (HF : forall q, child q p -> Fine_p f s q).
  { intros q Hq. destruct (Hk q Hq) as (c' & st & X & st' & HG' & H & IH). refine (IH c' f s st X st' HG' _ H). split; [intros h Hh; apply HI1; econstructor; eassumption | intros x Hx; apply HI2; econstructor; eassumption]. }
  split.
  - intros q Hq. inversion Hq; subst; [exact Hc | eapply HF; eassumption | exfalso; eapply Hg; reflexivity].
  - intros h Hh. inversion Hh; subst; [eapply HF; eassumption | exfalso; eapply Hg; reflexivity].
Qed.
Lemma all_fine l : Forall C_con l -> forall c f s st st', Good c f s -> (forall g, In g l -> in_g s g) -> citer (compile_content c) l st = fok (tt, st') -> forall g, In g l -> Fine_g f s g.
Proof.
  induction 1 as [|g l Hg Hl IH]; intros c f s st st' HG HI H g' Hin; [destruct Hin|].
  cbn [citer] in H. cinv H. destruct x. destruct Hin as [<-|Hin]; [eapply Hg; [exact HG | apply HI; left; reflexivity | exact E]|].
  eapply IH; [exact HG | intros; apply HI; right; assumption | exact H | exact Hin].
Qed.
Lemma overrides_fine l : Forall C_ovr l -> forall c f s st st', Good c f s -> (forall i, In i l -> in_i s i) -> citer (fun i => cmap_err EInclude (compile_override c i)) l st = fok (tt, st') ->
  forall n how p, In (IDefine n how p) l -> Fine_p f s p.
Proof.
  induction 1 as [|i l Hi Hl IH]; intros c f s st st' HG HI H n how p Hin; [destruct Hin|].
  cbn [citer] in H. cinv H. destruct x. apply cmap_err_ok in E. destruct Hin as [->|Hin].
  - exact (Hi c f s _ _ HG (HI _ (or_introl eq_refl)) E).
  - eapply IH; [exact HG | intros; apply HI; right; assumption | exact H | exact Hin].
Qed.
Lemma initial_xml p u : assoc p initial_ns = Some u -> p = lit "xml".
Proof. unfold initial_ns. rewrite assoc_one. destruct (str_eqb (lit "xml") p) eqn:E; [|discriminate]. intros _. apply str_eqb_eq in E. congruence. Qed.
Lemma initial_xsd p u : assoc p initial_dts = Some u -> p = lit "xsd" /\ u = xsd_uri.
Proof. unfold initial_dts. rewrite assoc_one. destruct (str_eqb (lit "xsd") p) eqn:E; [|discriminate]. intros [= <-]. apply str_eqb_eq in E. split; congruence. Qed.
Lemma include_enters c f s h i ov st st' : Good c f s -> in_g s (GInclude h i ov) -> compile_content c (GInclude h i ov) st = fok (tt, st') ->
  exists f' oc st1 st2, resolve f (lit_value h) = Some f' /\ Entered f' /\ Good oc f s /\
    match ov with Some l => citer (fun i => cmap_err EInclude (compile_override oc i)) l st1 = fok (tt, st2) | None => True end.
Proof.
  intros HG [HI1 HI2] H. pose proof HG as (Hf & HR & HD & HN). cbn [SchemaCompile.compile_content] in H. cinv H. unfold path_from in E. rewrite Hf in E. destruct (resolve f (lit_value h)) as [f1|] eqn:Er; [|cbad E]. cret E.
  cinv H. apply cmap_err_ok, get_schema_ok in E. destruct E as (Es & _). cinv H. apply new_include_ok in E. destruct E as (-> & _). rename x into f1, x0 into s1.
  assert (HR1 : Read f1 s1).
  { split; [|exact Es]. destruct HR as [(m & Hm) Hs]. exists (m + 1). eapply Chain_app; [exact Hm|]. eapply Chain_S; [|constructor]. exists s, h. split; [exact Hs|]. split; [apply HI1; constructor | exact Er]. }
  cinv H. rename x into inc.
  assert (HX : declares inc /\ own_dt inc = initial_dts /\ file_of inc = Some f1 /\ (forall p u, assoc p (own_ns inc) = Some u -> p = lit "xml" \/ exists g sg, Read g sg /\ file_hands p sg) /\
     (forall p, datatype_uri inc p = match assoc p (own_dt inc) with Some u => Some u | None => datatype_uri c p end) /\ exists o ns, inc = XInclude c f1 o ns initial_dts).
  { destruct i as [j|]; cbn [inherit_prefix] in E.
    - destruct (namespace_uri c (ik_string j)) as [v|]; [|cbad E]. apply declare_ns_ok in E; [|exact I]. destruct E as [_ (ns & -> & Hns)]. cbn [with_decls own_dt own_ns] in *.
      split; [exact I|]. split; [reflexivity|]. split; [reflexivity|]. split; [|split; [reflexivity | eauto]]. intros p u Hp. apply Hns in Hp. destruct Hp as [Hp|[-> _]]; [left; eapply initial_xml; exact Hp|].
      right. exists f, s. split; [exact HR|]. apply HI2. constructor. reflexivity.
    - cret E. split; [exact I|]. split; [reflexivity|]. split; [reflexivity|]. split; [|split; [reflexivity | eauto]]. intros p u Hp. left. eapply initial_xml; exact Hp. }
  destruct HX as (D & Edt & Hfi & Hns & Hdt & (oo & ons & Einc)).
  assert (HXS : forall p u, assoc p initial_dts = Some u -> dt_known p u).
  { intros p u Hp. apply initial_xsd in Hp. destruct Hp as [-> ->]. exists f, s. split; [exact HR | constructor]. }
  cinv H. destruct x. rename E0 into Eov.
  cinv H. apply cmap_err_ok in E0. unfold compile_schema_with in E0. cinv E0. pose proof (decls_dt _ _ _ _ _ D E1) as Hdl. apply declarations_ok in E1; [|exact D]. destruct E1 as [-> (ns & dt & -> & K1 & _)].
  assert (HG1 : Good (with_decls inc ns dt) f1 s1).
  { subst inc. cbn [with_decls own_ns own_dt datatype_uri namespace_uri file_of] in *. split; [exact Hfi|]. split; [exact HR1|]. split.
    - intros p u Hp. cbn [datatype_uri] in Hp. specialize (Hdl p). destruct (assoc p dt) as [w|] eqn:Ep; [|apply HD; exact Hp]. injection Hp as ->. destruct (Hdl u eq_refl) as [K|K]; [apply HXS; exact K|]. exists f1, s1. auto.
    - intros p u Hp. cbn [namespace_uri] in Hp. apply K1 in Hp. destruct Hp as [Hp|Hp]; [|left; eauto]. apply Hns in Hp. destruct Hp as [->|Hp]; [left; eexists; constructor | right; exact Hp]. }
  assert (HE : Entered f1).
  { destruct s1 as [sd [p|l']]; cbn [s_top s_decls] in *.
    - replace (is_include (with_decls inc ns dt)) with true in E0 by (subst inc; reflexivity). destruct p; try (cbad E0). cinv E0. match type of E1 with _ = fok (?x, _) => destruct x end. eexists _, l, _, _, _. split; [exact HG1|]. split; [constructor | exact E1].
    - cinv E0. match type of E1 with _ = fok (?x, _) => destruct x end. eexists _, l', _, _, _. split; [exact HG1|]. split; [constructor | exact E1]. }
  match type of Eov with _ ?a = fok (_, ?b) => exists f1, (XOverrides inc), a, b end. split; [reflexivity|]. split; [exact HE|]. split.
  - subst inc. split; [exact Hf|]. split; [exact HR|]. cbn [datatype_uri namespace_uri own_dt own_ns] in *. split.
    + intros p u Hp. destruct (assoc p initial_dts) as [w|] eqn:Ep; [injection Hp as ->; apply HXS; exact Ep | apply HD; exact Hp].
    + intros p u Hp. apply Hns in Hp. destruct Hp as [->|Hp]; [left; eexists; constructor | right; exact Hp].
  - destruct ov as [l|]; [exact Eov | exact I].
Qed.
Lemma check_all : (forall p, C_pat p) /\ (forall g, C_con g) /\ (forall i, C_ovr i).
Proof.
  assert (H_leaf : forall p, (forall q, ~ child q p) -> (forall k, p <> SGrammar k) -> (forall s, checked s p) -> C_pat p).
  { intros p H1 H2 H3 c f s st X st' HG HI _. eapply node_fine; [exact H2 | exact HG | exact HI | apply H3|]. intros q Hq; destruct (H1 q Hq). }
  assert (H_one : forall (W : spat -> spat) (F : mpat -> mpat), (forall c q st, compile_pattern c (W q) st = (do x <- compile_pattern c q; cret (F x)) st) ->
    (forall q q', child q' (W q) -> q' = q) -> (forall q k, W q <> SGrammar k) -> (forall q s, checked s (W q)) -> forall q, C_pat q -> C_pat (W q)).
  { intros W F HW H1 H2 H3 q IH c f s st X st' HG HI H. rewrite HW in H. cinv H. eapply node_fine; [apply H2 | exact HG | exact HI | apply H3|].
    intros q' Hq. apply H1 in Hq. subst q'. exists c, st, x, st0. auto. }
  assert (H_two : forall (W : spat -> spat -> spat) (F : mpat -> mpat -> mpat), (forall c a b st, compile_pattern c (W a b) st = (do x <- compile_pattern c a; do y <- compile_pattern c b; cret (F x y)) st) ->
    (forall a b q', child q' (W a b) -> q' = a \/ q' = b) -> (forall a b k, W a b <> SGrammar k) -> (forall a b s, checked s (W a b)) -> forall a b, C_pat a -> C_pat b -> C_pat (W a b)).
  { intros W F HW H1 H2 H3 a b IHa IHb c f s st X st' HG HI H. rewrite HW in H. cinv H. cinv H. eapply node_fine; [apply H2 | exact HG | exact HI | apply H3|].
    intros q' Hq. apply H1 in Hq. destruct Hq as [->| ->]; [exists c, st, x, st0 | exists c, st0, x0, st1]; auto. }
  assert (H_el : forall nc p, C_pat p -> C_pat (SElement nc p)).
  { intros nc p IH c f s st X st' HG HI H. cbn [SchemaCompile.compile_pattern] in H. cinv H. cinv H. cinv H.
    eapply node_fine; [discriminate | exact HG | exact HI | cbn; eapply class_checked; eassumption|]. intros q' Hq. inversion Hq; subst.
    unfold new_element in E0. destruct (parent_attribute c); [cbad E0|]. cret E0. eexists (XElement c), _, _, _. split; [apply (Good_under _ _ _ HG); reflexivity|]. split; [exact E1 | exact IH]. }
  assert (H_at : forall nc p, C_pat p -> C_pat (SAttribute nc p)).
  { intros nc p IH c f s st X st' HG HI H. cbn [SchemaCompile.compile_pattern] in H. cinv H. cinv H.
    eapply node_fine; [discriminate | exact HG | exact HI | cbn; eapply class_checked; eassumption|]. intros q' Hq. inversion Hq; subst.
    eexists (XAttribute c), _, _, _. split; [apply (Good_under _ _ _ HG); reflexivity|]. split; [exact E0 | exact IH]. }
  assert (H_li : forall p, C_pat p -> C_pat (SList p)) by (apply (H_one SList MList); [reflexivity | intros ? ? K; inversion K; reflexivity | discriminate | intros; exact I]).
  assert (H_mi : forall p, C_pat p -> C_pat (SMixed p)) by (apply (H_one SMixed MMixed); [reflexivity | intros ? ? K; inversion K; reflexivity | discriminate | intros; exact I]).
  assert (H_op : forall p, C_pat p -> C_pat (SOptional p)) by (apply (H_one SOptional MOptional); [reflexivity | intros ? ? K; inversion K; reflexivity | discriminate | intros; exact I]).
  assert (H_ze : forall p, C_pat p -> C_pat (SZeroOrMore p)) by (apply (H_one SZeroOrMore MZeroOrMore); [reflexivity | intros ? ? K; inversion K; reflexivity | discriminate | intros; exact I]).
  assert (H_on : forall p, C_pat p -> C_pat (SOneOrMore p)) by (apply (H_one SOneOrMore MOneOrMore); [reflexivity | intros ? ? K; inversion K; reflexivity | discriminate | intros; exact I]).
  assert (H_gp : forall p, C_pat p -> C_pat (SGroup p)).
  { intros p IH c f s st X st' HG HI H. cbn [SchemaCompile.compile_pattern] in H. eapply node_fine; [discriminate | exact HG | exact HI | exact I|].
    intros q' Hq. inversion Hq; subst. exists c, st, X, st'. auto. }
  assert (H_lp : forall a b, C_pat a -> C_pat b -> C_pat (SListPair a b)) by (apply (H_two SListPair (fun x y => MGroup (seq_members x ++ seq_members y))); [reflexivity | intros ? ? ? K; inversion K; auto | discriminate | intros; exact I]).
  assert (H_ip : forall a b, C_pat a -> C_pat b -> C_pat (SInterleavePair a b)) by (apply (H_two SInterleavePair (fun x y => MInterleave (inter_members x ++ inter_members y))); [reflexivity | intros ? ? ? K; inversion K; auto | discriminate | intros; exact I]).
  assert (H_cp : forall a b, C_pat a -> C_pat b -> C_pat (SChoicePair a b)) by (apply (H_two SChoicePair (fun x y => MChoice (choice_members x ++ choice_members y))); [reflexivity | intros ? ? ? K; inversion K; auto | discriminate | intros; exact I]).
  assert (H_id : forall i, C_pat (SIdent i)) by (intros i; apply H_leaf; [intros q K; inversion K | discriminate | intros; exact I]).
  assert (H_pa : forall i, C_pat (SParent i)) by (intros i; apply H_leaf; [intros q K; inversion K | discriminate | intros; exact I]).
  assert (H_em : C_pat SEmpty) by (apply H_leaf; [intros q K; inversion K | discriminate | intros; exact I]).
  assert (H_te : C_pat SText) by (apply H_leaf; [intros q K; inversion K | discriminate | intros; exact I]).
  assert (H_na : C_pat SNotAllowed) by (apply H_leaf; [intros q K; inversion K | discriminate | intros; exact I]).
  assert (H_ex : forall h i, C_pat (SExternal h i)) by (intros h i; apply H_leaf; [intros q K; inversion K | discriminate | intros; exact I]).
  assert (H_va : forall n v, C_pat (SValue n v)).
  { intros n v c f s st X st' HG HI H. cbn [SchemaCompile.compile_pattern] in H. cinv H. cinv H. apply lift_ok in E0. eapply dtname_checked in E; [|exact HG].
    eapply node_fine; [discriminate | exact HG | exact HI | cbn; eauto|]. intros q Hq. inversion Hq. }
  assert (H_da : forall n ps ex, (match ex with Some e => C_pat e | None => True end) -> C_pat (SData n ps ex)).
  { intros n ps ex IH c f s st X st' HG HI H. cbn [SchemaCompile.compile_pattern] in H. cinv H. cinv H. cinv H. apply lift_ok in E0. rewrite values_param in E0. eapply dtname_checked in E; [|exact HG].
    eapply node_fine; [discriminate | exact HG | exact HI | cbn; eauto|]. intros q Hq. inversion Hq; subst. cinv E1. exists c, st1, x2, st3. auto. }
  assert (H_gr : forall l, Forall C_con l -> C_pat (SGrammar l)).
  { intros l Hl c f s st X st' HG [HI1 HI2] H. cbn [SchemaCompile.compile_pattern] in H. cinv H. unfold new_grammar in E. cinv E. cret E. cinv H. destruct x.
    assert (K : forall g, In g l -> Fine_g f s g).
    { eapply (all_fine l Hl (XGrammar c _)); [apply (Good_under _ _ _ HG); reflexivity | | exact E]. intros g Hg. split; [intros h Hh; apply HI1; econstructor; eassumption | intros q Hq; apply HI2; econstructor; eassumption]. }
    split.
    - intros q Hq. inversion Hq as [|? ? Hch|? g Hin Hg]; subst; [exact I | inversion Hch | apply (K g Hin); exact Hg].
    - intros h Hh. inversion Hh as [? ? ? Hch|? ? g Hin Hg]; subst; [inversion Hch | apply (K g Hin); exact Hg]. }
  assert (H_gd : forall n h p, C_pat p -> C_con (GDefine n h p)).
  { intros n h p IH c f s st st' HG [HI1 HI2] H. cbn [SchemaCompile.compile_content] in H. cinv H.
    assert (K : Fine_p f s p) by (refine (IH (XDefine c n) f s _ _ _ _ _ E); [apply (Good_under _ _ _ HG); reflexivity | split; [intros; apply HI1; constructor; assumption | intros; apply HI2; constructor; assumption]]).
    split; [intros q Hq; inversion Hq; subst; apply K; assumption | intros h' Hh; inversion Hh; subst; apply K; assumption]. }
  assert (H_gv : forall l, Forall C_con l -> C_con (GDiv l)).
  { intros l Hl c f s st st' HG [HI1 HI2] H. cbn [SchemaCompile.compile_content] in H.
    assert (K : forall g, In g l -> Fine_g f s g).
    { eapply (all_fine l Hl c); [exact HG | | exact H]. intros g Hg. split; [intros h Hh; apply HI1; econstructor; eassumption | intros q Hq; apply HI2; econstructor; eassumption]. }
    split; [intros q Hq; inversion Hq; subst; eapply K; eassumption | intros h' Hh; inversion Hh; subst; eapply K; eassumption]. }
  assert (H_gi : forall h i ov, (match ov with Some l => Forall C_ovr l | None => True end) -> C_con (GInclude h i ov)).
  { intros h i ov Hov c f s st st' HG HI H. destruct (include_enters _ _ _ _ _ _ _ _ HG HI H) as (f' & oc & st1 & st2 & Er & HE & HGo & Ho). destruct HI as [HI1 HI2].
    assert (K : forall l, ov = Some l -> forall n how p, In (IDefine n how p) l -> Fine_p f s p).
    { intros l -> n how p Hin. refine (overrides_fine l Hov oc f s _ _ HGo _ Ho n how p Hin). intros [n' how' p'|l'|a] Hi; [|exact I|exact I].
      split; [intros h' Hh; apply HI1; eapply Hi_override; eassumption | intros q Hq; apply HI2; eapply Hn_override; eassumption]. }
    split.
    - intros q Hq. inversion Hq; subst. eapply K; try eassumption; reflexivity.
    - intros h' Hh. inversion Hh; subst; [exists f'; auto|]. eapply K; try eassumption; reflexivity. }
  assert (H_ga : forall a, C_con (GAnnotation a)).
  { intros a c f s st st' HG HI H. split; [intros q Hq; inversion Hq | intros h Hh; inversion Hh]. }
  assert (H_if : forall n h p, C_pat p -> C_ovr (IDefine n h p)).
  { intros n h p IH c f s st st' HG HI H. cbn [SchemaCompile.compile_override] in H. cinv H. exact (IH (XDefine c n) f s _ _ _ (Good_under _ _ _ HG _ eq_refl (fun _ => eq_refl) (fun _ => eq_refl)) HI E). }
  assert (H_iv : forall l, Forall C_ovr l -> C_ovr (IDiv l)) by (intros l _ c f s st st' HG HI H; exact I).
  assert (H_ia : forall a, C_ovr (IAnnotation a)) by (intros a c f s st st' HG HI H; exact I).
  split; [|split]; [apply (spat_ind' C_pat C_con C_ovr) | apply (gcontent_ind' C_pat C_con C_ovr) | apply (icontent_ind' C_pat C_con C_ovr)]; auto.
Qed.
End Rec.

(** file [f] is fine, with includes nested at most [d] deep *)
Definition EnteredAt (d : nat) (f : path) : Prop := Entered (snd (nested O C fs d)) f.
Definition FineAt (d : nat) (f : path) (s : schema) : Prop :=
  (forall q, file_occurs q s -> checked s q) /\ (forall h, in_file h s -> exists f', resolve f (lit_value h) = Some f' /\ EnteredAt d f').
Lemma contents_fine d c f s l st st' : Good c f s -> file_contents s l -> compile_contents O C fs (fst (nested O C fs d)) (snd (nested O C fs d)) c l st = fok (tt, st') -> FineAt d f s.
Proof.
  intros HG Hc H. set (rp := fst (nested O C fs d)) in *. set (ri := snd (nested O C fs d)) in *.
  assert (HV : Forall (C_con rp ri) l) by (apply Forall_forall; intros g _; apply check_all).
  assert (HI : forall g, In g l -> in_g s g).
  { intros g Hg. destruct Hc as [ds l|ds l]; split; intros x Hx.
    - eapply If_grammar; eassumption.
    - eapply Fh_grammar; eassumption.
    - apply If_pattern. eapply Ip_grammar; eassumption.
    - apply Fh_pattern. eapply Hm_grammar; eassumption. }
  pose proof (all_fine rp ri l HV c f s st st' HG HI H) as K.
  destruct Hc as [ds l|ds l]; split.
  - intros q Hq. inversion Hq; subst. eapply K; eassumption.
  - intros h Hi. inversion Hi; subst. eapply K; eassumption.
  - intros q Hq. inversion Hq as [|? ? Hp]; subst. inversion Hp as [|? ? Hch|]; subst; [exact I | inversion Hch | eapply K; eassumption].
  - intros h Hi. inversion Hi as [|? ? ? Hp]; subst. inversion Hp as [? ? ? Hch|]; subst; [inversion Hch | eapply K; eassumption].
Qed.
Lemma Entered_fine d f : EnteredAt d f -> exists d' s, fs f = inl s /\ (exists l, file_contents s l) /\ FineAt d' f s.
Proof.
  intros (s & l & c & st & st' & HG & Hc & H). destruct d as [|d]; [cbn in H; cbad H|]. exists d, s. split; [apply HG|]. split; [eauto|].
  eapply contents_fine; [exact HG | exact Hc|]. cbn [nested] in H. destruct (nested O C fs d) as [rp ri]. exact H.
Qed.
Lemma root_fine d r st : compile_grammar O C fs d name = fok (r, st) -> exists s, fs name = inl s /\ FineAt d name s.
Proof.
  intros H. unfold compile_grammar in H. cinv H. apply get_schema_ok in E. destruct E as (Es & _). rename x into s. exists s. split; [exact Es|].
  cinv H. unfold new_root in E. cinv E. cret E.
  assert (HV := contents_fine d). destruct (nested O C fs d) as [rp ri] eqn:En. cinv H. unfold compile_schema_with in E. cinv E.
  pose proof (fun D => decls_dt _ _ _ _ _ D E1) as Hdl. specialize (Hdl I). apply declarations_ok in E1; [|exact I]. destruct E1 as [-> (ns & dt & -> & K1 & _)]. cbn [with_decls own_ns own_dt] in *.
  assert (HR : Read name s) by (split; [exists 0; constructor | exact Es]).
  match goal with |- FineAt _ _ _ => assert (HG : forall t, Good (XRoot name t ns dt) name s) end.
  { intros t. split; [reflexivity|]. split; [exact HR|]. cbn [datatype_uri namespace_uri]. split.
    - intros p u Hp. exists name, s. split; [exact HR|]. destruct (Hdl _ _ Hp) as [K|K]; [|exact K]. apply initial_xsd in K. destruct K as [-> ->]. constructor.
    - intros p u Hp. left. apply K1 in Hp. destruct Hp as [Hp|Hp]; [|eauto]. apply initial_xml in Hp. subst p. eexists. constructor. }
  destruct s as [sd [p|l]]; cbn [s_top] in *.
  - cbn [is_include] in E. cinv E.
    assert (HI : in_s (Schema sd (TPattern p)) p) by (split; intros ? ?; constructor; assumption).
    destruct (proj1 (check_all rp ri) p (XRoot name _ _ _) name _ _ _ _ (HG _) HI E1) as [J1 J2]. split; [intros q Hq; inversion Hq; subst; auto|]. unfold EnteredAt. rewrite En. intros h Hi. inversion Hi; subst. auto.
  - cinv E. destruct x1. eapply HV; [apply HG | constructor | exact E1].
Qed.
Lemma chain_fine k f f' : Chain fs k f f' -> forall d s, fs f = inl s -> FineAt d f s -> exists d' s', fs f' = inl s' /\ FineAt d' f' s' /\ (k = 0 \/ exists l, file_contents s' l).
Proof.
  induction 1 as [f|k f f1 f2 (s0 & h & Hs0 & Hi & Hr) HC IH]; intros d s Hs HS; [exists d, s; auto|].
  assert (s0 = s) by congruence. subst s0. destruct HS as [_ HS]. destruct (HS h Hi) as (f' & Hr' & HE). assert (f' = f1) by congruence. subst f'. destruct (Entered_fine _ _ HE) as (d' & s1 & Hs1 & Hc & HS1).
  destruct (IH d' s1 Hs1 HS1) as (d2 & s2 & H2 & H3 & H4). exists d2, s2. split; [exact H2|]. split; [exact H3|]. right. destruct H4 as [->|H4]; [|exact H4]. inversion HC; subst. assert (s2 = s1) by congruence. subst. exact Hc.
Qed.
Theorem all_checked d r st : compile_grammar O C fs d name = fok (r, st) -> forall m f s, Chain fs m name f -> fs f = inl s -> forall q, file_occurs q s -> checked s q.
Proof.
  intros H m f s Hm Hf. destruct (root_fine _ _ _ H) as (s0 & Hs0 & HF). destruct (chain_fine _ _ _ Hm _ _ Hs0 HF) as (d' & s' & Hs' & [K _] & _). assert (s' = s) by congruence. subst s'. exact K.
Qed.
Theorem all_exist d r st : compile_grammar O C fs d name = fok (r, st) -> forall m f s h, Chain fs m name f -> fs f = inl s -> in_file h s ->
  exists f' s' l, resolve f (lit_value h) = Some f' /\ fs f' = inl s' /\ file_contents s' l.
Proof.
  intros H m f s h Hm Hf Hi. destruct (root_fine _ _ _ H) as (s0 & Hs0 & HF). destruct (chain_fine _ _ _ Hm _ _ Hs0 HF) as (d' & s' & Hs' & [_ K] & _). assert (s' = s) by congruence. subst s'.
  destruct (K h Hi) as (f' & Hr & HE). destruct (Entered_fine _ _ HE) as (d2 & s2 & H2 & (l & Hl) & _). exists f', s2, l. auto.
Qed.
End Check.

(** ** parent outside every nested grammar (C71) *)
Inductive top_parent : gcontent -> Prop :=
| Tp_define n how p i : part (SParent i) p -> top_parent (GDefine n how p)
| Tp_div g l : In g l -> top_parent g -> top_parent (GDiv l)
| Tp_override h inh l n how p i : In (IDefine n how p) l -> part (SParent i) p -> top_parent (GInclude h inh (Some l)).
Inductive top_include (h : literal) : gcontent -> Prop :=
| Ti_here inh ov : top_include h (GInclude h inh ov)
| Ti_div g l : In g l -> top_include h g -> top_include h (GDiv l).
(** [f] is included by includes which stand outside of nested grammars *)
Inductive Outer (fs : filesys) (name : path) : path -> Prop :=
| Ou_root : Outer fs name name
| Ou_include f s l g h f' : Outer fs name f -> fs f = inl s -> (f = name -> exists ds, s = Schema ds (TGrammar l)) -> file_contents s l -> In g l -> top_include h g ->
    resolve f (lit_value h) = Some f' -> Outer fs name f'.
Section Parent.
Variable O : oracles.
Variable C : coracles.
Variable fs : filesys.
Fixpoint bare (c : ctx) : Prop :=
  match c with XRoot _ _ _ _ => True | XGrammar _ _ => False | XInclude p _ _ _ _ | XOverrides p | XDefine p _ | XElement p | XAttribute p => bare p end.
Lemma bare_parent c i st r st' : bare c -> acquire_parent_ref c i st = fok (r, st') -> False.
Proof. induction c; cbn; intros HB H; auto. discriminate H. Qed.
Section Rec.
Variable rp : ctx -> spat -> CM mpat.
Variable ri : ctx -> list gcontent -> CM unit.
Notation compile_pattern := (compile_pattern O C fs rp ri).
Notation compile_content := (compile_content O C fs rp ri).
Lemma part_parent i p : part (SParent i) p -> forall c st X st', bare c -> compile_pattern c p st = fok (X, st') -> False.
Proof.
  induction 1 as [|p p' Hc _ IH]; intros c st X st' HB H.
  - cbn [SchemaCompile.compile_pattern] in H. cinv H. exact (bare_parent _ _ _ _ _ HB E).
  - destruct Hc; cbn [SchemaCompile.compile_pattern] in H; try (cinv H; eapply IH; [exact HB | eassumption]); try (cinv H; cinv H; eapply IH; [exact HB | eassumption]).
    + cinv H. cinv H. unfold new_element in E0. destruct (parent_attribute c); [cbad E0|]. cret E0. cinv H. eapply (IH (XElement c)); [exact HB | eassumption].
    + cinv H. cinv H. eapply (IH (XAttribute c)); [exact HB | eassumption].
    + eapply IH; [exact HB | eassumption].
    + cinv H. cinv H. cinv H. cinv E1. eapply IH; [exact HB | eassumption].
Qed.
Lemma content_parent g : top_parent g -> forall c st st', bare c -> compile_content c g st = fok (tt, st') -> False.
Proof.
  revert g. fix IH 2. intros g Hg c st st' HB H. destruct Hg as [n how p i Hp|g l Hin Hg|h inh l n how p i Hin Hp]; cbn [SchemaCompile.compile_content] in H.
  - cinv H. exact (part_parent i p Hp (XDefine c n) _ _ _ HB E).
  - destruct (citer_in _ _ _ Hin _ _ H) as (st2 & st3 & K). exact (IH g Hg _ _ _ HB K).
  - cinv H. cinv H. cinv H. apply new_include_ok in E1. destruct E1 as (-> & _). cinv H. apply inherit_ok in E1; [|exact I]. destruct E1 as [ns0 ->]. cinv H. destruct x1.
    destruct (citer_in _ _ _ Hin _ _ E1) as (st6 & st7 & K). apply cmap_err_ok in K. cbn [SchemaCompile.compile_override] in K. cinv K. refine (part_parent i p Hp _ _ _ _ _ E2). exact HB.
Qed.
Definition EnteredB (f : path) : Prop := exists s l c st st', bare c /\ file_of c = Some f /\ fs f = inl s /\ file_contents s l /\ ri c l st = fok (tt, st').
Lemma content_enters h g : top_include h g -> forall c f f' st st', bare c -> file_of c = Some f -> resolve f (lit_value h) = Some f' -> compile_content c g st = fok (tt, st') -> EnteredB f'.
Proof.
  revert g. fix IH 2. intros g Hg c f f' st st' HB Hf Hr H. destruct Hg as [inh ov|g l Hin Hg]; cbn [SchemaCompile.compile_content] in H.
  - cinv H. unfold path_from in E. rewrite Hf, Hr in E. cret E. cinv H. apply cmap_err_ok, get_schema_ok in E. destruct E as (Es & _). cinv H. apply new_include_ok in E. destruct E as (-> & _).
    cinv H. apply inherit_ok in E; [|exact I]. destruct E as [ns0 ->]. cbn [with_decls] in H. cinv H. match type of E with _ = fok (?x, _) => destruct x end.
    cinv H. apply cmap_err_ok in E0. unfold compile_schema_with in E0. cinv E0. apply declarations_ok in E1; [|exact I]. destruct E1 as [-> (ns & dt & -> & _)]. cbn [with_decls] in *.
    destruct x0 as [sd [p|l']]; cbn [s_top s_decls] in *.
    + cbn [is_include] in E0. destruct p; try (cbad E0). cinv E0. match type of E1 with _ = fok (?x, _) => destruct x end. eexists _, l, _, _, _. split; [|split; [|split; [exact Es | split; [constructor | exact E1]]]]; [exact HB | reflexivity].
    + cinv E0. match type of E1 with _ = fok (?x, _) => destruct x end. eexists _, l', _, _, _. split; [|split; [|split; [exact Es | split; [constructor | exact E1]]]]; [exact HB | reflexivity].
  - destruct (citer_in _ _ _ Hin _ _ H) as (st2 & st3 & K). exact (IH g Hg _ _ _ _ _ HB Hf Hr K).
Qed.
End Rec.
Variable name : path.
(** the contents of [f] have been compiled, outside of every grammar *)
Definition Visited (f : path) (l : list gcontent) : Prop := exists d c st st', bare c /\ file_of c = Some f /\ citer (compile_content O C fs (fst (nested O C fs d)) (snd (nested O C fs d)) c) l st = fok (tt, st').
Lemma outer_visited d r st : compile_grammar O C fs d name = fok (r, st) -> forall f, Outer fs name f -> forall s l, fs f = inl s -> (f = name -> exists ds, s = Schema ds (TGrammar l)) -> file_contents s l -> Visited f l.
Proof.
  intros H f HO. induction HO as [|f s l g h f' HO IH Hs Hn Hc Hin Hi Hr]; intros s1 l1 Hs1 Hn1 Hc1.
  - destruct (Hn1 eq_refl) as [ds ->]. clear Hc1. unfold compile_grammar in H. cinv H. apply get_schema_ok in E. destruct E as (Es & _). assert (x = Schema ds (TGrammar l1)) by congruence. subst x. exists d.
    cinv H. unfold new_root in E. cinv E. cret E. destruct (nested O C fs d) as [rp ri] eqn:En. cbn [fst snd]. cinv H. unfold compile_schema_with in E. cinv E. apply declarations_ok in E1; [|exact I]. destruct E1 as [-> (ns & dt & -> & _)]. cbn [with_decls s_top] in *.
    cinv E. match type of E1 with _ = fok (?x, _) => destruct x end. eexists _, _, _. split; [|split; [|exact E1]]; [exact I | reflexivity].
  - destruct (IH s l Hs Hn Hc) as (d1 & c & st1 & st2 & HB & Hf & HK). destruct (citer_in _ _ _ Hin _ _ HK) as (st3 & st4 & K).
    destruct (content_enters _ _ h g Hi _ _ _ _ _ HB Hf Hr K) as (s2 & l2 & c2 & st5 & st6 & HB2 & Hf2 & Hs2 & Hc2 & K2). assert (s2 = s1) by congruence. subst s2.
    assert (l2 = l1) by (destruct Hc2; inversion Hc1; reflexivity). subst l2. destruct d1 as [|d1]; [cbn in K2; cbad K2|]. cbn [nested] in K2. exists d1, c2, st5, st6. split; [exact HB2|]. split; [exact Hf2|].
    destruct (nested O C fs d1) as [rp ri]. exact K2.
Qed.
Theorem no_outer_parent d r st : compile_grammar O C fs d name = fok (r, st) -> forall f, Outer fs name f -> forall s l, fs f = inl s -> (f = name -> exists ds, s = Schema ds (TGrammar l)) -> file_contents s l ->
  forall g, In g l -> ~ top_parent g.
Proof.
  intros H f HO s l Hs Hn Hc g Hg Hp. destruct (outer_visited _ _ _ H f HO s l Hs Hn Hc) as (d1 & c & st1 & st2 & HB & Hf & HK). destruct (citer_in _ _ _ Hg _ _ HK) as (st3 & st4 & K).
  exact (content_parent _ _ g Hp _ _ _ HB K).
Qed.
Theorem no_root_parent d r st ds p i : compile_grammar O C fs d name = fok (r, st) -> fs name = inl (Schema ds (TPattern p)) -> ~ part (SParent i) p.
Proof.
  intros H Hs Hp. unfold compile_grammar in H. cinv H. apply get_schema_ok in E. destruct E as (Es & _). assert (x = Schema ds (TPattern p)) by congruence. subst x.
  cinv H. unfold new_root in E. cinv E. cret E. destruct (nested O C fs d) as [rp ri] eqn:En. cinv H. unfold compile_schema_with in E. cinv E. apply declarations_ok in E1; [|exact I]. destruct E1 as [-> (ns & dt & -> & _)]. cbn [with_decls s_top is_include] in *.
  cinv E. refine (part_parent _ _ i p Hp _ _ _ _ _ E1). exact I.
Qed.
End Parent.
