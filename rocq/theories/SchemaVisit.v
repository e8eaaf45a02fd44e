(** * SchemaVisit: what a successful compilation has gone through: every definition of every file it reads (C31, C33). *)
From Coq Require Import String.
From Verif Require Import Base Datatype Facets Store Lang Compile Syntax SchemaCompile SourceSpec SourceCompile SchemaSpec.

Section Visit.
Variable O : oracles.
Variable C : coracles.
Variable fs : filesys.

(** the definition being compiled, if no element is in between *)
Fixpoint within (c : ctx) : option str :=
  match c with XDefine _ d => Some d | XAttribute p => within p | _ => None end.
Lemma check_rec_ok c i st st' u : check_ref_recursion c i st = fok (u, st') -> within c <> Some i.
Proof.
  induction c; cbn; intros H K; try discriminate K; auto; [|eapply IHc; eassumption]. injection K as ->. rewrite str_eqb_refl in H. cbad H.
Qed.
Lemma inherit_ok c inc i st inc' st' : declares inc -> inherit_prefix c inc i st = fok (inc', st') -> exists ns, inc' = with_decls inc ns (own_dt inc).
Proof.
  intros D. destruct i as [i|]; cbn; intros H; [|cret H; exists (own_ns inc'); rewrite with_self by exact D; reflexivity]. destruct (namespace_uri c _); [|cbad H].
  apply declare_ns_ok in H; [|exact D]. destruct H as [_ (ns & -> & _)]. exists ns; reflexivity.
Qed.

Section Rec.
Variable rp : ctx -> spat -> CM mpat.
Variable ri : ctx -> list gcontent -> CM unit.
Notation compile_pattern := (compile_pattern O C fs rp ri).
Notation compile_content := (compile_content O C fs rp ri).
Notation compile_override := (compile_override O C fs rp ri).
(** file [f] has been compiled as an include *)
Definition Compiled (f : path) : Prop :=
  exists s l c st st', fs f = inl s /\ file_contents s l /\ file_of c = Some f /\ ri c l st = fok (tt, st').
Definition V_pat (p : spat) : Prop := forall c f st X st', file_of c = Some f -> compile_pattern c p st = fok (X, st') ->
  (forall n, within c = Some n -> ~ bare_ref n p) /\
  (forall n q, defines_in n q p -> ~ bare_ref n q) /\
  (forall h f', in_pattern h p -> resolve f (lit_value h) = Some f' -> Compiled f').
Definition V_con (g : gcontent) : Prop := forall c f st st', file_of c = Some f -> compile_content c g st = fok (tt, st') ->
  (forall n q, defines n q g -> ~ bare_ref n q) /\
  (forall h f', has_include h g -> resolve f (lit_value h) = Some f' -> Compiled f').
Definition V_ovr (i : icontent) : Prop := forall c f st st', file_of c = Some f -> compile_override c i st = fok (tt, st') ->
  forall n how p, i = IDefine n how p -> ~ bare_ref n p /\ (forall m q, defines_in m q p -> ~ bare_ref m q) /\
  (forall h f', in_pattern h p -> resolve f (lit_value h) = Some f' -> Compiled f').

Lemma V_node p c f :
  (forall k, p <> SGrammar k) -> (forall n, within c = Some n -> p <> SIdent n) ->
  (forall q, child q p -> exists c' st X st', file_of c' = Some f /\ compile_pattern c' q st = fok (X, st') /\ V_pat q /\
     ((forall nc x, p <> SElement nc x) -> within c' = within c)) ->
  (forall n, within c = Some n -> ~ bare_ref n p) /\
  (forall n q, defines_in n q p -> ~ bare_ref n q) /\
  (forall h f', in_pattern h p -> resolve f (lit_value h) = Some f' -> Compiled f').
Proof.
  intros Hg Hi Hc. split; [|split].
  - intros n Hn K. inversion K as [E|? q Hq He Hb]; subst; [exact (Hi n Hn eq_refl)|].
    destruct (Hc q Hq) as (c' & st & X & st' & Hf & HC & HV & Hw). destruct (HV _ _ _ _ _ Hf HC) as (K1 & _). eapply K1; [rewrite Hw by exact He; exact Hn | exact Hb].
  - intros n q Hd. inversion Hd as [? ? ? q' Hq Hd'|? ? g k Hin Hd']; subst; [|exfalso; eapply Hg; reflexivity].
    destruct (Hc q' Hq) as (c' & st & X & st' & Hf & HC & HV & Hw). destruct (HV _ _ _ _ _ Hf HC) as (_ & K2 & _). eapply K2; exact Hd'.
  - intros h f' Hp Hr. inversion Hp as [? ? q' Hq Hd'|? k g Hin Hd']; subst; [|exfalso; eapply Hg; reflexivity].
    destruct (Hc q' Hq) as (c' & st & X & st' & Hf & HC & HV & Hw). destruct (HV _ _ _ _ _ Hf HC) as (_ & _ & K3). eapply K3; eassumption.
Qed.
Lemma contents_visit l : Forall V_con l -> forall c f st st', file_of c = Some f -> citer (compile_content c) l st = fok (tt, st') ->
  (forall g n q, In g l -> defines n q g -> ~ bare_ref n q) /\
  (forall g h f', In g l -> has_include h g -> resolve f (lit_value h) = Some f' -> Compiled f').
Proof.
  induction 1 as [|g l Hg Hl IH]; intros c f st st' Hf H; [split; intros ? ? ? []|].
  cbn [citer] in H. cinv H. destruct x. destruct (Hg _ _ _ _ Hf E) as [A1 A2]. destruct (IH _ _ _ _ Hf H) as [B1 B2].
  split; intros g' a b [->|Hin]; eauto.
Qed.
Lemma overrides_visit l : Forall V_ovr l -> forall c f st st', file_of c = Some f -> citer (fun i => cmap_err EInclude (compile_override c i)) l st = fok (tt, st') ->
  forall n how p, In (IDefine n how p) l -> ~ bare_ref n p /\ (forall m q, defines_in m q p -> ~ bare_ref m q) /\
  (forall h f', in_pattern h p -> resolve f (lit_value h) = Some f' -> Compiled f').
Proof.
  induction 1 as [|g l Hg Hl IH]; intros c f st st' Hf H n how p Hin; [destruct Hin|].
  cbn [citer] in H. cinv H. destruct x. apply cmap_err_ok in E. destruct Hin as [->|Hin]; [eapply Hg; eauto | eapply IH; eauto].
Qed.
Lemma visit : (forall p, V_pat p) /\ (forall g, V_con g) /\ (forall i, V_ovr i).
Proof.
  assert (H_leaf : forall p, (forall q, ~ child q p) -> (forall k, p <> SGrammar k) -> (forall i, p <> SIdent i) -> V_pat p).
  { intros p H1 H2 H3 c f st X st' Hf _. apply V_node; [exact H2 | intros; apply H3 | intros q Hq; destruct (H1 q Hq)]. }
  assert (H_one : forall (W : spat -> spat) (F : mpat -> mpat), (forall c q st, compile_pattern c (W q) st = (do x <- compile_pattern c q; cret (F x)) st) ->
    (forall q q', child q' (W q) -> q' = q) -> (forall q k, W q <> SGrammar k) -> (forall q i, W q <> SIdent i) -> forall q, V_pat q -> V_pat (W q)).
  { intros W F HW H1 H2 H3 q IH c f st X st' Hf H. rewrite HW in H. cinv H. apply V_node; [apply H2 | intros; apply H3|].
    intros q' Hq. apply H1 in Hq. subst q'. exists c, st, x, st0. auto. }
  assert (H_two : forall (W : spat -> spat -> spat) (F : mpat -> mpat -> mpat), (forall c a b st, compile_pattern c (W a b) st = (do x <- compile_pattern c a; do y <- compile_pattern c b; cret (F x y)) st) ->
    (forall a b q', child q' (W a b) -> q' = a \/ q' = b) -> (forall a b k, W a b <> SGrammar k) -> (forall a b i, W a b <> SIdent i) -> forall a b, V_pat a -> V_pat b -> V_pat (W a b)).
  { intros W F HW H1 H2 H3 a b IHa IHb c f st X st' Hf H. rewrite HW in H. cinv H. cinv H. apply V_node; [apply H2 | intros; apply H3|].
    intros q' Hq. apply H1 in Hq. destruct Hq as [->| ->]; [exists c, st, x, st0 | exists c, st0, x0, st1]; auto. }
  assert (H_el : forall nc p, V_pat p -> V_pat (SElement nc p)).
  { intros nc p IH c f st X st' Hf H. cbn [SchemaCompile.compile_pattern] in H. cinv H. cinv H. cinv H.
    apply V_node; [discriminate | discriminate|]. intros q' Hq. inversion Hq; subst.
    unfold new_element in E0. destruct (parent_attribute c); [cbad E0|]. cret E0. eexists (XElement c), _, _, _. split; [exact Hf|]. split; [exact E1|]. split; [exact IH|].
    intros K. exfalso; eapply K; reflexivity. }
  assert (H_at : forall nc p, V_pat p -> V_pat (SAttribute nc p)).
  { intros nc p IH c f st X st' Hf H. cbn [SchemaCompile.compile_pattern] in H. cinv H. cinv H.
    apply V_node; [discriminate | discriminate|]. intros q' Hq. inversion Hq; subst.
    eexists (XAttribute c), _, _, _. split; [exact Hf|]. split; [exact E0|]. split; [exact IH|]. reflexivity. }
  assert (H_li : forall p, V_pat p -> V_pat (SList p)) by (apply (H_one SList MList); [reflexivity | intros ? ? K; inversion K; reflexivity | discriminate | discriminate]).
  assert (H_mi : forall p, V_pat p -> V_pat (SMixed p)) by (apply (H_one SMixed MMixed); [reflexivity | intros ? ? K; inversion K; reflexivity | discriminate | discriminate]).
  assert (H_op : forall p, V_pat p -> V_pat (SOptional p)) by (apply (H_one SOptional MOptional); [reflexivity | intros ? ? K; inversion K; reflexivity | discriminate | discriminate]).
  assert (H_ze : forall p, V_pat p -> V_pat (SZeroOrMore p)) by (apply (H_one SZeroOrMore MZeroOrMore); [reflexivity | intros ? ? K; inversion K; reflexivity | discriminate | discriminate]).
  assert (H_on : forall p, V_pat p -> V_pat (SOneOrMore p)) by (apply (H_one SOneOrMore MOneOrMore); [reflexivity | intros ? ? K; inversion K; reflexivity | discriminate | discriminate]).
  assert (H_gp : forall p, V_pat p -> V_pat (SGroup p)).
  { intros p IH c f st X st' Hf H. cbn [SchemaCompile.compile_pattern] in H. apply V_node; [discriminate | discriminate|].
    intros q' Hq. inversion Hq; subst. exists c, st, X, st'. auto. }
  assert (H_lp : forall a b, V_pat a -> V_pat b -> V_pat (SListPair a b)) by (apply (H_two SListPair (fun x y => MGroup (seq_members x ++ seq_members y))); [reflexivity | intros ? ? ? K; inversion K; auto | discriminate | discriminate]).
  assert (H_ip : forall a b, V_pat a -> V_pat b -> V_pat (SInterleavePair a b)) by (apply (H_two SInterleavePair (fun x y => MInterleave (inter_members x ++ inter_members y))); [reflexivity | intros ? ? ? K; inversion K; auto | discriminate | discriminate]).
  assert (H_cp : forall a b, V_pat a -> V_pat b -> V_pat (SChoicePair a b)) by (apply (H_two SChoicePair (fun x y => MChoice (choice_members x ++ choice_members y))); [reflexivity | intros ? ? ? K; inversion K; auto | discriminate | discriminate]).
  assert (H_id : forall i, V_pat (SIdent i)).
  { intros i c f st X st' Hf H. cbn [SchemaCompile.compile_pattern] in H. cinv H. unfold acquire_ref in E. cinv E. apply check_rec_ok in E0.
    apply V_node; [discriminate | congruence | intros q Hq; inversion Hq]. }
  assert (H_pa : forall i, V_pat (SParent i)) by (intros i; apply H_leaf; [intros q K; inversion K | discriminate | discriminate]).
  assert (H_em : V_pat SEmpty) by (apply H_leaf; [intros q K; inversion K | discriminate | discriminate]).
  assert (H_te : V_pat SText) by (apply H_leaf; [intros q K; inversion K | discriminate | discriminate]).
  assert (H_na : V_pat SNotAllowed) by (apply H_leaf; [intros q K; inversion K | discriminate | discriminate]).
  assert (H_ex : forall h i, V_pat (SExternal h i)) by (intros h i; apply H_leaf; [intros q K; inversion K | discriminate | discriminate]).
  assert (H_va : forall n v, V_pat (SValue n v)) by (intros n v; apply H_leaf; [intros q K; inversion K | discriminate | discriminate]).
  assert (H_da : forall n ps ex, (match ex with Some e => V_pat e | None => True end) -> V_pat (SData n ps ex)).
  { intros n ps ex IH c f st X st' Hf H. cbn [SchemaCompile.compile_pattern] in H. cinv H. cinv H. cinv H.
    apply V_node; [discriminate | discriminate|]. intros q Hq. inversion Hq; subst. cinv E1. exists c, st1, x2, st3. auto. }
  assert (H_gr : forall l, Forall V_con l -> V_pat (SGrammar l)).
  { intros l Hl c f st X st' Hf H. cbn [SchemaCompile.compile_pattern] in H. cinv H. unfold new_grammar in E. cinv E. cret E. cinv H. destruct x.
    destruct (contents_visit l Hl (XGrammar c _) f _ _ Hf E) as [K1 K2]. split; [|split].
    - intros n Hn K. inversion K as [|? q Hq]; subst. inversion Hq.
    - intros n q Hd. inversion Hd as [? ? ? q' Hq|? ? g k Hin Hd']; subst; [inversion Hq | eauto].
    - intros h f' Hp. inversion Hp as [? ? q' Hq|? k g Hin Hd']; subst; [inversion Hq | eauto]. }
  assert (H_gd : forall n h p, V_pat p -> V_con (GDefine n h p)).
  { intros n h p IH c f st st' Hf H. cbn [SchemaCompile.compile_content] in H. cinv H. destruct (IH (XDefine c n) f _ _ _ Hf E) as (K1 & K2 & K3).
    split; [intros m q Hd; inversion Hd; subst; eauto; apply K1; reflexivity | intros h' f' Hi; inversion Hi; subst; eauto]. }
  assert (H_gv : forall l, Forall V_con l -> V_con (GDiv l)).
  { intros l Hl c f st st' Hf H. cbn [SchemaCompile.compile_content] in H. destruct (contents_visit l Hl _ f _ _ Hf H) as [K1 K2].
    split; [intros m q Hd; inversion Hd; subst; eauto | intros h' f' Hi; inversion Hi; subst; eauto]. }
  assert (H_gi : forall h i ov, (match ov with Some l => Forall V_ovr l | None => True end) -> V_con (GInclude h i ov)).
  { intros h i ov Hov c f st st' Hf H. cbn [SchemaCompile.compile_content] in H. cinv H. unfold path_from in E. rewrite Hf in E. destruct (resolve f (lit_value h)) as [f1|] eqn:Er; [|cbad E]. cret E.
    cinv H. apply cmap_err_ok, get_schema_ok in E. destruct E as (Es & _). cinv H. apply new_include_ok in E. destruct E as (-> & _).
    cinv H. apply inherit_ok in E; [|exact I]. destruct E as [ns0 ->]. cbn [with_decls] in H. cinv H. destruct x1.
    cinv H. apply cmap_err_ok in E0. unfold compile_schema_with in E0. cinv E0. apply declarations_ok in E1; [|exact I]. destruct E1 as [-> (ns & dt & -> & _)]. cbn [with_decls] in *.
    assert (HC : Compiled x).
    { destruct x0 as [sd [p|l']]; cbn [s_top s_decls] in *.
      - cbn [is_include] in E0. destruct p; try (cbad E0). cinv E0. destruct x0. eexists _, l, _, _, _. split; [exact Es|]. split; [constructor|]. split; [|exact E1]. reflexivity.
      - cinv E0. destruct x0. eexists _, l', _, _, _. split; [exact Es|]. split; [constructor|]. split; [|exact E1]. reflexivity. }
    split.
    - intros n q Hd. inversion Hd; subst.
      + edestruct (overrides_visit l Hov) as (K1 & K2 & K3); [|exact E|eassumption|exact K1]. exact Hf.
      + edestruct (overrides_visit l Hov) as (K1 & K2 & K3); [|exact E|eassumption|eapply K2; eassumption]. exact Hf.
    - intros h' f' Hi Hr. inversion Hi; subst; [congruence|].
      edestruct (overrides_visit l Hov) as (K1 & K2 & K3); [|exact E|eassumption|eapply K3; eassumption]. exact Hf. }
  assert (H_ga : forall a, V_con (GAnnotation a)).
  { intros a c f st st' Hf H. split; [intros n q Hd; inversion Hd | intros h f' Hi; inversion Hi]. }
  assert (H_if : forall n h p, V_pat p -> V_ovr (IDefine n h p)).
  { intros n h p IH c f st st' Hf H m how q E. injection E as <- <- <-. cbn [SchemaCompile.compile_override] in H. cinv H.
    destruct (IH (XDefine c n) f _ _ _ Hf E) as (K1 & K2 & K3). split; [apply K1; reflexivity|]. auto. }
  assert (H_iv : forall l, Forall V_ovr l -> V_ovr (IDiv l)) by (intros l _ c f st st' Hf H n how p E; discriminate E).
  assert (H_ia : forall a, V_ovr (IAnnotation a)) by (intros a c f st st' Hf H n how p E; discriminate E).
  split; [|split]; [apply (spat_ind' V_pat V_con V_ovr) | apply (gcontent_ind' V_pat V_con V_ovr) | apply (icontent_ind' V_pat V_con V_ovr)]; auto.
Qed.
End Rec.

(** [Done d f]: file [f] has been compiled, with includes nested at most [d] deep *)
Definition Done (d : nat) (f : path) : Prop := Compiled (snd (nested O C fs d)) f.
Definition Sane (d : nat) (f : path) (s : schema) : Prop :=
  (forall n q, file_defines n q s -> ~ bare_ref n q) /\
  (forall h f', in_file h s -> resolve f (lit_value h) = Some f' -> Done d f').
Lemma contents_sane d c f s l st st' : fs f = inl s -> file_contents s l -> file_of c = Some f ->
  compile_contents O C fs (fst (nested O C fs d)) (snd (nested O C fs d)) c l st = fok (tt, st') -> Sane d f s.
Proof.
  intros Hs Hc Hf H. set (rp := fst (nested O C fs d)) in *. set (ri := snd (nested O C fs d)) in *.
  assert (HV : Forall (V_con rp ri) l) by (apply Forall_forall; intros g _; apply visit).
  destruct (contents_visit rp ri l HV c f st st' Hf H) as [K1 K2].
  destruct Hc as [ds l|ds l]; split.
  - intros n q Hd. inversion Hd; subst. eapply K1; eassumption.
  - intros h f' Hi. inversion Hi; subst. intros Hr. eapply K2; eassumption.
  - intros n q Hd. inversion Hd as [|? ? ? ? Hp]; subst. inversion Hp as [? ? ? q' Hq|]; subst; [inversion Hq | eapply K1; eassumption].
  - intros h f' Hi Hr. inversion Hi as [|? ? ? Hp]; subst. inversion Hp as [? ? q' Hq|]; subst; [inversion Hq | eapply K2; eassumption].
Qed.
Lemma Done_sane d f : Done d f -> exists d' s, d = S d' /\ fs f = inl s /\ Sane d' f s.
Proof.
  intros (s & l & c & st & st' & Hs & Hc & Hf & H). destruct d as [|d]; [cbn in H; cbad H|]. exists d, s. split; [reflexivity|]. split; [exact Hs|].
  eapply contents_sane; [exact Hs | exact Hc | exact Hf|]. cbn [nested] in H. destruct (nested O C fs d) as [rp ri]. exact H.
Qed.
Lemma root_sane d name r st : compile_grammar O C fs d name = fok (r, st) -> exists s, fs name = inl s /\ Sane d name s.
Proof.
  intros H. unfold compile_grammar in H. cinv H. apply get_schema_ok in E. destruct E as (Es & _). rename x into s. exists s. split; [exact Es|].
  cinv H. unfold new_root in E. cinv E. cret E. 
  assert (HV := contents_sane d). destruct (nested O C fs d) as [rp ri] eqn:En. cinv H. unfold compile_schema_with in E. cinv E. apply declarations_ok in E1; [|exact I]. destruct E1 as [-> (ns & dt & -> & _)]. cbn [with_decls] in *.
  destruct s as [sd [p|l]]; cbn [s_top] in *.
  - cbn [is_include] in E. cinv E. destruct (proj1 (visit rp ri) p (XRoot name _ _ _) name _ _ _ eq_refl E1) as (K1 & K2 & K3).
    split; [intros n q Hd; inversion Hd; subst; eauto|]. unfold Done. rewrite En. intros h f' Hi; inversion Hi; subst; eauto.
  - cinv E. destruct x1. eapply HV; [exact Es | constructor | |exact E1]. reflexivity.
Qed.
Lemma chain_done k f f' : Chain fs k f f' -> forall d s, fs f = inl s -> Sane d f s -> k <= d /\ exists s', fs f' = inl s' /\ Sane (d - k) f' s'.
Proof.
  induction 1 as [f|k f f1 f2 (s0 & h & Hs0 & Hi & Hr) _ IH]; intros d s Hs HS.
  - split; [lia|]. exists s. rewrite Nat.sub_0_r. auto.
  - assert (s0 = s) by congruence. subst s0. destruct HS as [_ HS]. destruct (Done_sane _ _ (HS _ _ Hi Hr)) as (d' & s1 & -> & Hs1 & HS1).
    destruct (IH d' s1 Hs1 HS1) as [K1 K2]. split; [lia|]. exact K2.
Qed.
Lemma Chain_app k k' a b c : Chain fs k a b -> Chain fs k' b c -> Chain fs (k + k') a c.
Proof. induction 1 as [|k a a1 b HR _ IH]; intros H; [exact H|]. econstructor; [exact HR | apply IH, H]. Qed.
Lemma Chain_loop k a : Chain fs k a a -> forall m, Chain fs (m * k) a a.
Proof. intros H m. induction m as [|m IH]; [constructor|]. cbn. eapply Chain_app; eassumption. Qed.
(** C33: success means no cycle *)
Theorem no_cycle d name r st : compile_grammar O C fs d name = fok (r, st) -> forall m f, Chain fs m name f -> forall k, ~ Chain fs (S k) f f.
Proof.
  intros H m f Hm k Hk. destruct (root_sane _ _ _ _ H) as (s & Hs & HS).
  destruct (chain_done _ _ _ (Chain_app _ _ _ _ _ Hm (Chain_loop _ _ Hk (S d))) _ _ Hs HS) as [K _]. lia.
Qed.
(** C31: no definition refers to itself outside an element *)
Theorem no_self_reference d name r st : compile_grammar O C fs d name = fok (r, st) ->
  forall m f s, Chain fs m name f -> fs f = inl s -> forall n p, file_defines n p s -> ~ bare_ref n p.
Proof.
  intros H m f s Hm Hf n p Hd. destruct (root_sane _ _ _ _ H) as (s0 & Hs & HS).
  destruct (chain_done _ _ _ Hm _ _ Hs HS) as [_ (s' & Hs' & [K _])]. assert (s' = s) by congruence. subst s'. eapply K; exact Hd.
Qed.
End Visit.
