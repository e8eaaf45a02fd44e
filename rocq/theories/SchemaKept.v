(** * SchemaKept: every schema that compiles keeps the rules of SchemaGood.v ([lawful], C88). *)
From Coq Require Import String.
From Verif Require Import Base Datatype Facets Store Lang Compile Syntax SchemaCompile Spec SourceSpec SourceScope SourceTr SourceSem SourceCompile SchemaSpec SchemaMain SchemaVisit SchemaTerm SchemaLocal SchemaGood SchemaProgress.

(** ** names *)
Scheme Names_mut := Induction for Names Sort Prop with NamesC_mut := Induction for NamesC Sort Prop.
Combined Scheme names_mut from Names_mut, NamesC_mut.
Lemma Names_le fs : (forall f k n p, Names fs f k n p -> k <= 1) /\ (forall f k n g, NamesC fs f k n g -> k <= 1).
Proof.
  pose proof (names_mut fs (fun _ k _ _ _ => k <= 1) (fun _ k _ _ _ => k <= 1)) as H.
  assert (K : (forall f k n p (_ : Names fs f k n p), k <= 1) /\ (forall f k n g (_ : NamesC fs f k n g), k <= 1)).
  { apply H; intros; lia. }
  exact K.
Qed.
(** ** what is loaded only grows *)
Lemma parent_self c id : forall st r st', acquire_parent_ref c id st = fok (r, st') -> outer_self c <> Some id.
Proof.
  induction c; cbn [acquire_parent_ref outer_self]; intros st r st' H; try (eapply IHc; eassumption); [cbad H|].
  unfold acquire_ref in H. cinv H. eapply SchemaVisit.check_rec_ok; exact E.
Qed.
Lemma new_element_ok c st c' st' : new_element c st = fok (c', st') -> st' = st /\ c' = XElement c /\ parent_attribute c = false.
Proof. unfold new_element. destruct (parent_attribute c); intros H; [cbad H | cret H; auto]. Qed.
Definition hides (c : ctx) (ov : bool) : Prop := ov = true -> forall p, namespace_uri c p <> None -> p = lit "xml".
Lemma known_of c e ov p u : agrees c e -> hides c ov -> namespace_uri c p = Some u -> known (fe_decls e) ov p.
Proof.
  intros (_ & _ & _ & _ & A & _) H E. destruct ov; cbn; [apply H; [reflexivity | congruence] | exists u; apply A; exact E].
Qed.
Lemma nameclass_kept c e ov el n : agrees c e -> hides c ov -> forall st n' st', compile_nameclass c el n st = fok (n', st') -> st' = st /\ nc_fine (fe_decls e) ov n.
Proof.
  intros HA Hh. induction n as [nm|nm ex IH|ex IH|a IHa b IHb|a IHa] using snc_ind'; intros st n' st' H; cbn [compile_nameclass] in H; cbn [nc_fine].
  - destruct nm as [i|p l|u l]; try (cret H; auto; fail). cinv H. apply ns_ok in E. destruct E as [-> E]. cret H. split; [reflexivity | eapply known_of; eassumption].
  - cinv H. cinv H. cret H.
    assert (H1 : st0 = st /\ match ex with Some x => nc_fine (fe_decls e) ov x | None => True end).
    { destruct ex as [ex|]; [cinv E; cret E; eapply IH; exact E1 | cret E; auto]. }
    destruct H1 as [-> H1]. destruct nm as [p|u]; [apply ns_ok in E0; destruct E0 as [-> E0]; split; [reflexivity | split; [eapply known_of; eassumption | exact H1]] | cret E0; auto].
  - cinv H. cret H. destruct ex as [ex|]; [cinv E; cret E; eapply IH; exact E0 | cret E; auto].
  - cinv H. cinv H. cret H. apply IHa in E. apply IHb in E0. destruct E as [-> E]. destruct E0 as [-> E0]. auto.
  - eapply IHa; exact H.
Qed.
Lemma declare_dt_new c p u st c' st' : declares c -> declare_datatype c p u st = fok (c', st') -> st' = st /\ assoc p (own_dt c) = None /\ c' = with_decls c (own_ns c) (own_dt c ++ [(p, u)]).
Proof. intros D H. destruct c; destruct D; cbn [declare_datatype] in H; (destruct (assoc p dts) eqn:E; [cbad H|]; cret H; auto). Qed.
Lemma assoc_in_none {A} p (l : list (str * A)) : assoc p l = None -> ~ In p (map fst l).
Proof.
  induction l as [|[k v] l IH]; intros H K; [exact K|]. cbn in H. destruct (str_eqb k p) eqn:E; [discriminate H|]. destruct K as [K|K]; [cbn in K; subst k; rewrite str_eqb_refl in E; discriminate E | exact (IH H K)].
Qed.
Lemma declarations_kept l : forall c st c' st', declares c -> NoDup (map fst (own_dt c)) -> compile_declarations c l st = fok (c', st') ->
  (forall p, ~ In (DNamespace p UInherit) l) /\ (forall p, ~ In (DDefault p UInherit) l) /\ NoDup (map fst (own_dt c) ++ dt_prefixes l).
Proof.
  induction l as [|d l IH]; intros c st c' st' D HN H; cbn [compile_declarations] in H.
  - split; [intros p []|]. split; [intros p []|]. cbn. rewrite app_nil_r. exact HN.
  - cinv H. assert (HT : forall c1, declares c1 -> own_dt c1 = own_dt c -> forall st1, compile_declarations c1 l st1 = fok (c', st') ->
      (forall p, ~ In (DNamespace p UInherit) l) /\ (forall p, ~ In (DDefault p UInherit) l) /\ NoDup (map fst (own_dt c) ++ dt_prefixes l)).
    { intros c1 D1 Ed st1 H1. rewrite <- Ed. eapply IH; [exact D1 | rewrite Ed; exact HN | exact H1]. }
    assert (HNS : forall p u, declare_namespace c p u st = fok (x, st0) -> (forall p, ~ In (DNamespace p UInherit) l) /\ (forall p, ~ In (DDefault p UInherit) l) /\ NoDup (map fst (own_dt c) ++ dt_prefixes l)).
    { intros p u E1. apply declare_ns_ok in E1; [|exact D]. destruct E1 as [-> (ns & -> & _)]. eapply HT; [apply with_declares; exact D | apply own_dt_with; exact D | exact H]. }
    destruct d as [p u|p u|p u]; cbn [compile_declaration] in E.
    + destruct u as [|u]; [cbad E|]. destruct (HNS _ _ E) as (K1 & K2 & K3). split; [intros q [K|K]; [discriminate K | exact (K1 q K)]|]. split; [intros q [K|K]; [discriminate K | exact (K2 q K)]|]. exact K3.
    + destruct u as [|u]; [cbad E|]. assert (HK : (forall p, ~ In (DNamespace p UInherit) l) /\ (forall p, ~ In (DDefault p UInherit) l) /\ NoDup (map fst (own_dt c) ++ dt_prefixes l)).
      { destruct p as [p|]; [eapply HNS; exact E | cret E; eapply HT; [exact D | reflexivity | exact H]]. }
      destruct HK as (K1 & K2 & K3). split; [intros q [K|K]; [discriminate K | exact (K1 q K)]|]. split; [intros q [K|K]; [discriminate K | exact (K2 q K)]|]. exact K3.
    + apply declare_dt_new in E; [|exact D]. destruct E as (-> & En & ->). apply assoc_in_none in En.
      destruct (IH (with_decls c (own_ns c) (own_dt c ++ [(p, lit_value u)])) st c' st') as (K1 & K2 & K3); [apply with_declares; exact D | | exact H|].
      { rewrite own_dt_with by exact D. rewrite map_app. cbn. apply NoDup_app_snoc; assumption. }
      rewrite own_dt_with in K3 by exact D. rewrite map_app, <- app_assoc in K3. cbn [map fst app] in K3.
      split; [intros q [K|K]; [discriminate K | exact (K1 q K)]|]. split; [intros q [K|K]; [discriminate K | exact (K2 q K)]|]. exact K3.
Qed.
Lemma declared_kept c ds st c' st' : declares c -> own_dt c = initial_dts -> compile_declarations c ds st = fok (c', st') -> decls_fine ds.
Proof.
  intros D Ed H. destruct (declarations_kept ds c st c' st' D) as (K1 & K2 & K3); [rewrite Ed; repeat constructor; intros [] | exact H |].
  rewrite Ed in K3. split; [exact K1|]. split; [exact K2 | exact K3].
Qed.
Lemma combinable_of n ds dx x : ds = map fst dx -> merged n None dx = fok x -> combinable (map d_how (defs_named n ds)).
Proof.
  intros -> H. assert (Ex : map d_how (defs_named n (map fst dx)) = map fst (hx_of n dx)) by (unfold hx_of; rewrite map_map, defs_named_map, map_map; reflexivity).
  rewrite Ex. apply (merge_iff n (hx_of n dx)). exists x. exact H.
Qed.
Lemma named_back n dx x : merged n None dx = fok (Some x) -> In n (names_of (map fst dx)).
Proof.
  intros H. unfold merged in H. destruct (hx_of n dx) as [|[h y] l] eqn:E; [discriminate H|].
  unfold hx_of in E. apply (f_equal (@List.length _)) in E. cbn in E. rewrite map_length in E.
  destruct (filter (fun p => is_named n (fst p)) dx) as [|[d X] r] eqn:Ef; [discriminate E|].
  assert (Hin : In (d, X) (filter (fun p => is_named n (fst p)) dx)) by (rewrite Ef; left; reflexivity).
  apply filter_In in Hin. destruct Hin as [Hin Hn]. cbn in Hn. unfold is_named in Hn. apply str_eqb_eq in Hn. apply in_map_iff. exists d. split; [exact Hn|]. apply in_map_iff. exists (d, X). auto.
Qed.

Section Kept.
Variable O : oracles.
Variable C : coracles.
Variable fs : filesys.
Hypothesis Hfs : files_ok fs.
Lemma all_finef f ds ov l : (fix all (l : list gcontent) : Prop := match l with [] => True | g :: l' => content_fine O C fs false f ds ov g /\ all l' end) l <-> contents_fine O C fs false f ds ov l.
Proof. induction l as [|g l IH]; [reflexivity|]. cbn. rewrite IH. reflexivity. Qed.
(** [Acq]: the names used were looked up; [Read]: the files named were read *)
Definition Acq (c : ctx) (N : names2) (st : cst) : Prop := forall k n, N k n ->
  exists t, nth_error (tabs c) k = Some t /\ look st t n <> None /\ (k = 1 -> outer_self c <> Some n).
Definition Item (D : nat) (c : ctx) (st : cst) (f' : path) : Prop := forall k f'', Trail fs k f' f'' -> k < D /\ ~ In f'' (inc_files c) /\ In f'' (loaded st) /\
  (exists s, fs f'' = inl s) /\ forall s r h f3 s3, fs f'' = inl s -> mentioned r h s -> resolve f'' (lit_value h) = Some f3 -> fs f3 = inl s3 -> role_fine O C fs false r f3 s3.
Definition Read (D : nat) (c : ctx) (f : path) (H : role -> literal -> Prop) (st : cst) : Prop := forall r h, H r h ->
  exists f' s', resolve f (lit_value h) = Some f' /\ fs f' = inl s' /\ role_fine O C fs false r f' s' /\ Item D c st f'.
Definition Got (D : nat) (c : ctx) (f : path) (N : names2) (H : role -> literal -> Prop) (st : cst) : Prop := Acq c N st /\ Read D c f H st.
Lemma Got_ext own D c f N H st st' : ext own st st' -> incl (loaded st) (loaded st') -> Got D c f N H st -> Got D c f N H st'.
Proof.
  intros (_ & HE & _) HL [A B]. split.
  - intros k n K. destruct (A k n K) as (t & K1 & K2 & K3). exists t. split; [exact K1|]. split; [|exact K3]. destruct (look st t n) as [r|] eqn:E; [|congruence]. rewrite (HE _ _ _ E). discriminate.
  - intros r h K. destruct (B r h K) as (f' & s' & B1 & B2 & B3 & B4). exists f', s'. split; [exact B1|]. split; [exact B2|]. split; [exact B3|].
    intros k f'' HT. destruct (B4 k f'' HT) as (M1 & M2 & M3 & M4). split; [exact M1|]. split; [exact M2|]. split; [apply HL, M3 | exact M4].
Qed.
Lemma Got_sub D c c' f (N N' : names2) (H H' : role -> literal -> Prop) st : tabs c' = tabs c -> outer_self c' = outer_self c -> incl (inc_files c') (inc_files c) ->
  (forall k n, N' k n -> N k n) -> (forall r h, H' r h -> H r h) -> Got D c f N H st -> Got D c' f N' H' st.
Proof.
  intros E1 E2 E3 HN HH [A B]. split.
  - intros k n K. rewrite E1, E2. apply A, HN, K.
  - intros r h K. destruct (B r h (HH r h K)) as (f' & s' & B1 & B2 & B3 & B4). exists f', s'. split; [exact B1|]. split; [exact B2|]. split; [exact B3|].
    intros k f'' HT. destruct (B4 k f'' HT) as (M1 & M2 & M3 & M4). split; [exact M1|]. split; [intros K1; apply M2, E3, K1|]. split; [exact M3 | exact M4].
Qed.
Lemma Got_or D c f (N N1 N2 : names2) (H H1 H2 : role -> literal -> Prop) st : (forall k n, N k n -> N1 k n \/ N2 k n) -> (forall r h, H r h -> H1 r h \/ H2 r h) ->
  Got D c f N1 H1 st -> Got D c f N2 H2 st -> Got D c f N H st.
Proof.
  intros HN HH [A1 B1] [A2 B2]. split.
  - intros k n K. destruct (HN k n K); [apply A1 | apply A2]; assumption.
  - intros r h K. destruct (HH r h K); [apply B1 | apply B2]; assumption.
Qed.
Lemma Got_none D c f N H st : (forall k n, ~ N k n) -> (forall r h, ~ H r h) -> Got D c f N H st.
Proof. intros HN HH. split; [intros k n K; destruct (HN k n K) | intros r h K; destruct (HH r h K)]. Qed.
(** one level up *)
Lemma Item_up D c c' f' s' (H : role -> literal -> Prop) st : fs f' = inl s' -> (forall r h, mentioned r h s' -> H r h) -> incl (inc_files c) (inc_files c') -> ~ In f' (inc_files c) -> In f' (loaded st) ->
  Read D c' f' H st -> Item (S D) c st f'.
Proof.
  intros Hs HH Hi Hn Hl HR k f'' HT. inversion HT; subst.
  - split; [lia|]. split; [exact Hn|]. split; [exact Hl|]. split; [exists s'; exact Hs|]. intros s r h f3 s3 Es Hm Hr Es3. assert (s = s') by congruence. subst s.
    destruct (HR r h (HH r h Hm)) as (f4 & s4 & R1 & R2 & R3 & _). assert (f4 = f3) by congruence. subst f4. assert (s4 = s3) by congruence. subst s4. exact R3.
  - match goal with K : Opens _ _ _ |- _ => destruct K as (s & r & h & Es & Hm & Hr) end. assert (s = s') by congruence. subst s.
    destruct (HR r h (HH r h Hm)) as (f4 & s4 & R1 & _ & _ & R4). assert (f4 = f'0) by congruence. subst f4.
    match goal with K : Trail _ _ f'0 f'' |- _ => destruct (R4 _ _ K) as (M1 & M2 & M3 & M4) end. split; [lia|]. split; [intros K; apply M2, Hi, K|]. split; [exact M3 | exact M4].
Qed.
Definition K_contents (D : nat) (cl : ctx -> list gcontent -> CM unit) (l : list gcontent) : Prop := forall c e ov st st',
  contents_ok fs (fe_path e) (fe_decls e) l -> gctx c -> agrees c e -> wf st -> tabs_in st c -> chain_in st c -> hides c ov -> cl c l st = fok (tt, st') ->
  contents_fine O C fs false (fe_path e) (fe_decls e) ov l /\ Got D c (fe_path e) (NamesL fs (fe_path e) l) (IncL l) st'.
Definition K_pattern (D : nat) (cp : ctx -> spat -> CM mpat) (p : spat) : Prop := forall c e ov st X st',
  pat_ok fs (fe_path e) (fe_decls e) p -> agrees c e -> wf st -> tabs_in st c -> hides c ov -> cp c p st = fok (X, st') ->
  fine O C fs false (fe_path e) (fe_decls e) ov (parent_attribute c) (within c) p /\
  Got D c (fe_path e) (fun k n => Names fs (fe_path e) k n p) (fun r h => mentions_in r h p) st'.
Lemma loc_incl {A} (m : CM A) st a st' : loc fs fs m m -> m st = fok (a, st') -> incl (loaded st) (loaded st').
Proof. intros H E. apply (H _ _ _ E). Qed.
Lemma schema_incl f st s st' : get_schema fs f st = fok (s, st') -> incl (loaded st) (loaded st') /\ In f (loaded st').
Proof.
  intros E. split; [exact (proj1 (loc_get fs fs f _ _ _ E))|]. unfold get_schema in E. destruct (fs f); [|cbad E]. apply fok_inj in E. destruct E as [_ <-]. cbn. destruct (in_dec _ _ _); [assumption | apply in_or_app; right; left; reflexivity].
Qed.
Lemma new_include_kept c f st inc st' : new_include c f st = fok (inc, st') -> ~ In f (inc_files c) /\ loaded st' = loaded st.
Proof. intros E. split; [|eapply q_new_include; exact E]. unfold new_include in E. cinv E. eapply check_include_new; exact E0. Qed.

Lemma fine_weaken f ds ov : forall p self, fine O C fs false f ds ov true self p -> fine O C fs false f ds ov false self p.
Proof.
  fix IH 1. intros p self H. destruct p; cbn [fine] in *; try exact H; try (apply IH; exact H); try (destruct H as [H1 H2]; split; apply IH; assumption).
  - destruct H as [H _]. discriminate H.
  - destruct H as (-> & f' & s' & K1 & K2 & K3). split; [reflexivity|]. exists f', s'. split; [exact K1|]. split; [exact K2|]. destruct s' as [sd [q|l]]; cbn [s_top] in *; [intros K; discriminate K | exact K3].
  - destruct H as [H1 H2]. split; [exact H1|]. destruct ex as [e|]; [apply IH; exact H2 | exact I].
Qed.
Lemma fine_no_shows f p : Shows fs f p -> forall ds ov self, ~ fine O C fs false f ds ov true self p.
Proof.
  induction 1 as [f nc x|f p q Hc Hq IH|f h i f' ds q Hr Hs Hq IH]; intros ds0 ov self K.
  - destruct K as [K _]. discriminate K.
  - destruct Hc; cbn [fine] in K;
      first [ destruct K as (K & _); discriminate K | eapply IH; exact K | eapply IH; apply K ].
  - destruct K as (_ & f1 & s1 & K1 & K2 & K3). assert (f1 = f') by congruence. subst f1. assert (s1 = Schema ds (TPattern q)) by congruence. subst s1. cbn in K3. exact (K3 eq_refl Hq).
Qed.
Lemma mentioned_back r h s l : mentioned r h s -> file_contents s l -> IncL l r h.
Proof.
  intros Hm Hc. destruct Hc, r; cbn in Hm; inversion Hm; subst; try (eexists; split; eassumption).
  - match goal with K : in_pattern _ (SGrammar _) |- _ => inversion K; subst end; [match goal with K : child _ _ |- _ => inversion K end | eexists; split; eassumption].
  - match goal with K : occurs_in _ (SGrammar _) |- _ => inversion K; subst end; [match goal with K : child _ _ |- _ => inversion K end | eexists; split; eassumption].
Qed.
Lemma grammar_kept D pl l c e st t st1 st2 X st3 : wf st -> tabs_in st c -> agrees c e -> new_table st = fok (t, st1) -> CP O C fs (XGrammar c t) e l st1 st2 ->
  Got D (XGrammar c t) (fe_path e) (NamesL fs (fe_path e) l) (IncL l) st2 -> take_start t st2 = fok (X, st3) ->
  (pl <> Inner -> forall n x, look st2 t n = Some x -> content st2 t n <> None) ->
  grammar_fine fs false pl e l /\ (forall n g, within c = Some n -> In g l -> ~ NamesC fs (fe_path e) 1 n g) /\
  Got D c (fe_path e) (fun k n => NamesL fs (fe_path e) l (S k) n) (IncL l) st3.
Proof.
  intros W HT HA E0 (dx & Ed & (A1 & A2 & A3 & A4 & A5)) HG E3 Hund. change (owner (XGrammar c t)) with t in *.
  pose proof (new_table_ok st t st1 W E0) as (W1 & E1 & _ & Ht & _ & Hempty).
  assert (A5' : forall n, merged n None dx = fok (content st2 t n)) by (intros n; specialize (A5 n); rewrite Hempty in A5; exact A5).
  pose proof (q_take_start t st2 X st3 E3) as HL.
  destruct (take_start_ok t st2 X st3 A1 E3) as (W3 & E23 & _ & R & HR & _ & _).
  split; [|split].
  - exists (map fst dx). split; [apply Ed; reflexivity|]. split; [intros n; eapply combinable_of; [reflexivity | apply A5']|].
    split; [eapply named_back; rewrite A5', HR; reflexivity|]. intros g n Hg Hn. split; [|intros K; discriminate K]. intros [K|K]; [discriminate K|].
    destruct (proj1 HG 0 n) as (t' & K1 & K2 & _); [exists g; auto|]. cbn in K1. injection K1 as <-.
    destruct (look st2 t n) as [x|] eqn:El; [|congruence]. pose proof (Hund K n x El) as Hc. destruct (content st2 t n) as [R'|] eqn:Ec; [|congruence]. eapply named_back. rewrite A5', Ec. reflexivity.
  - intros n g Hw Hg Hn. destruct (proj1 HG 1 n) as (t' & K1 & K2 & K3); [exists g; auto|]. apply (K3 eq_refl). exact Hw.
  - eapply Got_ext; [exact E23 | rewrite HL; apply incl_refl|]. destruct HG as [HG1 HG2]. split.
    + intros k n Hk. destruct (HG1 (S k) n Hk) as (t' & K1 & K2 & _). exists t'. split; [exact K1|]. split; [exact K2|]. intros ->. exfalso. destruct Hk as (g & _ & Hk). apply (proj2 (Names_le fs)) in Hk. lia.
    + exact HG2.
Qed.
Lemma new_grammar_kept c st g st' : new_grammar c st = fok (g, st') -> exists t, g = XGrammar c t /\ new_table st = fok (t, st').
Proof. unfold new_grammar. intros H. cinv H. cret H. eauto. Qed.
Lemma undefined_none t st st' : undefined_in t st = fok (None, st') -> st' = st /\ forall n x, look st t n = Some x -> content st t n <> None.
Proof.
  intros H. unfold undefined_in in H. apply fok_inj in H. destruct H as [Eu <-]. split; [reflexivity|].
  intros n x Hx. unfold content. rewrite Hx. destruct (find _ _) eqn:Ef; [discriminate Eu|]. unfold look in Hx. intros K.
  assert (Hin : In (n, x) (nth t (tables st) [])).
  { clear - Hx. induction (nth t (tables st) []) as [|[k v] l IH]; cbn in Hx; [discriminate|]. unfold str_eqb in Hx. destruct (str_eq_dec k n) as [->|]; [injection Hx as ->; left; reflexivity | right; auto]. }
  apply (find_none _ _ Ef) in Hin. cbn in Hin. rewrite K in Hin. discriminate Hin.
Qed.
Section Rec.
Variable D : nat.
Variable rp : ctx -> spat -> CM mpat.
Variable ri : ctx -> list gcontent -> CM unit.
Hypothesis Hri : forall c e l st st', contents_ok fs (fe_path e) (fe_decls e) l -> gctx c -> agrees c e -> wf st -> tabs_in st c -> chain_in st c ->
  ri c l st = fok (tt, st') -> CP O C fs c e l st st'.
Hypothesis Hrp : forall c e p st X st', pat_ok fs (fe_path e) (fe_decls e) p -> agrees c e -> wf st -> tabs_in st c ->
  rp c p st = fok (X, st') -> PP O C fs c e p st X st'.
Hypothesis Hlp : forall c p, loc fs fs (rp c p) (rp c p).
Hypothesis Hli : forall c l, loc fs fs (ri c l) (ri c l).
Hypothesis Krp : forall p, K_pattern D rp p.
Hypothesis Kri : forall l, K_contents D ri l.
Notation compile_pattern := (compile_pattern O C fs rp ri).
Notation compile_content := (compile_content O C fs rp ri).
Notation compile_override := (compile_override O C fs rp ri).
Notation KP := (K_pattern (S D) compile_pattern).
Definition K_con (g : gcontent) : Prop := forall c e ov st st',
  content_ok fs (fe_path e) (fe_decls e) g -> gctx c -> agrees c e -> wf st -> tabs_in st c -> chain_in st c -> hides c ov -> compile_content c g st = fok (tt, st') ->
  content_fine O C fs false (fe_path e) (fe_decls e) ov g /\ Got (S D) c (fe_path e) (fun k n => NamesC fs (fe_path e) k n g) (fun r h => mentions r h g) st'.
Definition MentO (i : icontent) (r : role) (h : literal) : Prop := exists m how p, i = IDefine m how p /\ mentions_in r h p.
Definition K_ovr (i : icontent) : Prop := forall q f o e h st st',
  override_ok fs (fe_path e) (fe_decls e) i -> gctx q -> agrees q e -> wf st -> tabs_in st q -> o < List.length (ovrs st) -> (forall o', In o' (chain q) -> o' < o) ->
  resolve (fe_path e) (lit_value h) = Some f -> compile_override (XOverrides (XInclude q f o initial_ns initial_dts)) i st = fok (tt, st') ->
  override_fine O C fs false (fe_path e) (fe_decls e) h i /\
  (NoDup (map fst (nth o (ovrs st) [])) -> NoDup (map fst (nth o (ovrs st) []) ++ names_of (overrides1 e i))) /\
  Got (S D) q (fe_path e) (NamesO fs (fe_path e) i) (MentO i) st'.
Let mP p : P_pat O C fs rp ri p. Proof. apply (main_ok O C fs Hfs rp ri Hri Hrp). Qed.
Let mC g : P_con O C fs rp ri g. Proof. apply (main_ok O C fs Hfs rp ri Hri Hrp). Qed.
Let mO i : P_ovr O C fs rp ri i. Proof. apply (main_ok O C fs Hfs rp ri Hri Hrp). Qed.
Let lP p c : loc fs fs (compile_pattern c p) (compile_pattern c p). Proof. apply (local O C fs fs rp rp ri ri Hlp Hli). Qed.
Let lC g c : loc fs fs (compile_content c g) (compile_content c g). Proof. apply (local O C fs fs rp rp ri ri Hlp Hli). Qed.
Let lO i c : loc fs fs (compile_override c i) (compile_override c i). Proof. apply (local O C fs fs rp rp ri ri Hlp Hli). Qed.
Let lCs l c : loc fs fs (citer (compile_content c) l) (citer (compile_content c) l). Proof. apply loc_citer, Forall_forall. intros g _. apply lC. Qed.

Lemma contents_kept l : Forall K_con l -> K_contents (S D) (fun c => citer (compile_content c)) l.
Proof.
  induction 1 as [|g l Hg Hl IH]; intros c e ov st st' Hok HG HA W HT HC HS H; cbn [citer] in H.
  - cret H. split; [exact I|]. apply Got_none; [intros k n (g & [] & _) | intros r h (g & [] & _)].
  - cinv H. destruct x. destruct Hok as [Ho1 Ho2]. pose proof E as E'. apply (Hg c e ov) in E; try assumption. destruct E as [F1 G1].
    apply (mC g c e) in E'; try assumption. destruct E' as (dx & _ & (A1 & A2 & A3 & _)).
    assert (HT1 : tabs_in st0 c) by (eapply tabs_in_ext; eassumption). assert (HC1 : chain_in st0 c) by (eapply chain_in_step; eassumption).
    pose proof H as H'. pose proof (loc_incl _ _ _ _ (lCs l c) H) as HL. apply (IH c e ov) in H; try assumption. destruct H as [F2 G2].
    apply (contents_iter O C fs rp ri l ltac:(apply Forall_forall; intros; apply mC) c e) in H'; try assumption. destruct H' as (dx2 & _ & (_ & B2 & _)).
    split; [split; assumption|]. eapply Got_or; [| |eapply Got_ext; [exact B2 | exact HL | exact G1] | exact G2].
    + intros k n (g' & [<-|K1] & K2); [left; exact K2 | right; exists g'; auto].
    + intros r h (g' & [<-|K1] & K2); [left; exact K2 | right; exists g'; auto].
Qed.
Lemma define_kept n how p : KP p -> K_con (GDefine n how p).
Proof.
  intros Hp c e ov st st' Hok HG HA W HT HC HS H. cbn [SchemaCompile.compile_content] in H. cinv H.
  pose proof E as E'. apply (Hp (XDefine c n) e ov) in E; try assumption. cbn [parent_attribute within] in E. rewrite gctx_attr in E by exact HG. destruct E as [F G].
  apply (mP p (XDefine c n) e) in E'; try assumption. destruct E' as (P1 & P2 & P3 & _).
  pose proof (q_define _ _ _ _ _ _ H) as HL. apply define_ok in H; [|exact HG | exact P1 | eapply tabs_in_ext; eassumption | eapply chain_in_step; eassumption]. destruct H as (_ & D2 & _).
  split; [exact F|]. eapply Got_ext; [exact D2 | rewrite HL; apply incl_refl|]. eapply (Got_sub _ (XDefine c n)); [reflexivity | reflexivity | apply incl_refl | | | exact G].
  - intros k m K. inversion K; subst; assumption.
  - intros r h K. destruct r; inversion K; subst; assumption.
Qed.
Lemma override_kept n how p : KP p -> K_ovr (IDefine n how p).
Proof.
  intros Hp q f o e h st st' Hok HG HA W HT Ho Hch Hr H. pose proof H as H0. apply (mO _ q f o e) in H0; try assumption. destruct H0 as (dx & Edx & (A1 & A2 & A3 & A4 & A5 & A6 & _)).
  pose proof (loc_incl _ _ _ _ (lO _ _) H) as HL0.
  cbn [SchemaCompile.compile_override] in H. cinv H. rename x into X. rename st0 into st1. set (inc := XInclude q f o initial_ns initial_dts) in *.
  pose proof (agrees_overrides q e f o HA) as HAo. pose proof E as E'.
  assert (HAd : agrees (XDefine (XOverrides inc) n) e) by (apply agrees_sub; exact HAo).
  apply (Hp (XDefine (XOverrides inc) n) e true) in E; try assumption.
  2:{ intros _ x Hx. cbn [namespace_uri inc] in Hx. unfold initial_ns in Hx. rewrite assoc_one in Hx. destruct (str_eqb (lit "xml") x) eqn:Es; [apply str_eqb_eq in Es; congruence | exfalso; apply Hx; reflexivity]. }
  cbn [parent_attribute within inc] in E. rewrite gctx_attr in E by exact HG. destruct E as [F G].
  apply (mP p (XDefine (XOverrides inc) n) e) in E'; try assumption. destruct E' as (P1 & P2 & P3 & _). pose proof P3 as (P30 & P31 & P32).
  pose proof (q_define _ _ _ _ _ _ H) as HL. cbn [define inc] in H. cinv H. unfold get_ovr in E. cfok E. destruct (assoc n (nth o (ovrs st1) [])) eqn:Ea; [cbad H|].
  cinv H. unfold insert_ovr in E. apply fok_inj in E. destruct E as [_ E].
  assert (R : same_refs st1 st0) by (rewrite <- E; split; reflexivity).
  assert (V : List.length (ovrs st0) = List.length (ovrs st1)) by (rewrite <- E; apply length_upd). clear E.
  apply define_ok in H; [|exact HG | eapply same_refs_wf; eassumption | eapply tabs_in_ext; [apply (same_refs_ext []); exact R | eapply tabs_in_ext; eassumption] | intros o' Ho'; apply Hch in Ho'; lia].
  destruct H as (_ & B2 & _). rewrite P31 in Ea by (exact Ho || intros []). apply assoc_in_none in Ea.
  split; [|split].
  - split; [exact F|]. intros r h' f' f'' k Hm R1 R2 HTr. destruct (proj2 G r h' Hm) as (f1 & s1 & K1 & _ & _ & K4). assert (f1 = f') by congruence. subst f1. assert (f'' = f) by congruence. subst f''.
    destruct (K4 k f HTr) as (_ & K5 & _). apply K5. left; reflexivity.
  - intros HN. cbn. apply NoDup_app_snoc; assumption.
  - eapply Got_ext; [eapply ext_trans; [apply (same_refs_ext [owner q]); exact R | exact B2] | rewrite HL; apply incl_refl|].
    eapply (Got_sub _ (XDefine (XOverrides inc) n)); [reflexivity | reflexivity | intros z Hz; right; exact Hz | | | exact G].
    + intros k m (m' & how' & p' & Ei & K). injection Ei as _ _ <-. exact K.
    + intros r h' (m' & how' & p' & Ei & K). injection Ei as _ _ <-. exact K.
Qed.
Lemma overrides_kept l : Forall K_ovr l -> forall q f o e h st st', (fix all (l : list icontent) : Prop := match l with [] => True | i :: l' => override_ok fs (fe_path e) (fe_decls e) i /\ all l' end) l ->
  gctx q -> agrees q e -> wf st -> tabs_in st q -> o < List.length (ovrs st) -> (forall o', In o' (chain q) -> o' < o) -> resolve (fe_path e) (lit_value h) = Some f ->
  citer (fun i => cmap_err EInclude (compile_override (XOverrides (XInclude q f o initial_ns initial_dts)) i)) l st = fok (tt, st') ->
  (fix all (l : list icontent) : Prop := match l with [] => True | i :: l' => override_fine O C fs false (fe_path e) (fe_decls e) h i /\ all l' end) l /\
  (NoDup (map fst (nth o (ovrs st) [])) -> NoDup (map fst (nth o (ovrs st) []) ++ names_of (overrides e l))) /\
  Got (S D) q (fe_path e) (NamesOL fs (fe_path e) l) (fun r h => exists m how p, In (IDefine m how p) l /\ mentions_in r h p) st'.
Proof.
  induction 1 as [|i l Hi Hl IH]; intros q f o e h st st' Hok HG HA W HT Ho HC Hr H; cbn [citer] in H.
  - cret H. split; [exact I|]. split; [intros K; cbn; rewrite app_nil_r; exact K|]. apply Got_none; [intros k n (m & how & p & [] & _) | intros r h' (m & how & p & [] & _)].
  - cinv H. destruct x. apply cmap_err_ok in E. destruct Hok as [Ho1 Ho2]. pose proof E as E'. apply (Hi q f o e h) in E; try assumption. destruct E as (F1 & N1 & G1).
    apply (mO i q f o e) in E'; try assumption. destruct E' as (dx & Edx & (A1 & A2 & A3 & A4 & A5 & A6 & _)). rewrite Edx in A6.
    assert (HT1 : tabs_in st0 q) by (eapply tabs_in_ext; eassumption).
    assert (HL : incl (loaded st0) (loaded st')).
    { eapply loc_incl; [|exact H]. apply loc_citer, Forall_forall. intros x _. apply loc_cmap, lO. }
    pose proof H as H'. apply (IH q f o e h) in H; try assumption; [|lia]. destruct H as (F2 & N2 & G2).
    apply (overrides_iter O C fs rp ri l ltac:(apply Forall_forall; intros; apply mO) q f o e) in H'; try assumption; [|lia]. destruct H' as (dx2 & _ & (_ & B2 & _)).
    split; [split; assumption|]. split.
    + intros K. apply N1 in K. change (overrides e (i :: l)) with (overrides1 e i ++ overrides e l). unfold names_of in *. rewrite map_app, app_assoc.
      rewrite A6, map_app, map_map in N2. cbn [fst] in N2. rewrite map_id in N2. apply N2. exact K.
    + eapply Got_or; [| |eapply Got_ext; [exact B2 | exact HL | exact G1] | exact G2].
      * intros k n (m & how & p & [->|K1] & K2); [left; exists m, how, p; auto | right; exists m, how, p; auto].
      * intros r h' (m & how & p & [->|K1] & K2); [left; exists m, how, p; auto | right; exists m, how, p; auto].
Qed.
Lemma include_kept h i ov0 : (match ov0 with Some l => Forall K_ovr l | None => True end) -> K_con (GInclude h i ov0).
Proof.
  intros Hov c e ov st st' Hok HG HA W HT HC HS H. cbn [SchemaCompile.compile_content] in H. destruct Hok as [-> Hok].
  pose proof (agrees_env c e HA) as Ee.
  cinv H. apply (path_from_ok c e) in E; [|exact HA]. destruct E as [-> Ef]. rename x into f.
  cinv H. apply cmap_err_ok in E. destruct (schema_incl _ _ _ _ E) as [_ Hload]. apply get_schema_ok in E. destruct E as (Es & R1 & V1). rename x into s. rename st0 into st1.
  cinv H. destruct (new_include_kept _ _ _ _ _ E) as [Hnew Hl12]. apply new_include_ok in E. destruct E as (-> & R2 & V2). rename st0 into st2.
  assert (R : same_refs st st2) by (destruct R1 as [? ?], R2 as [? ?]; split; congruence). rewrite V1 in V2.
  set (o := List.length (ovrs st1)) in *. assert (Eo : o = List.length (ovrs st)) by (subst o; rewrite V1; reflexivity). clearbody o. subst o.
  set (o := List.length (ovrs st)) in *.
  cinv H. cbn [inherit_prefix] in E. cret E. rename st0 into st2.
  assert (W2 : wf st2) by (eapply same_refs_wf; eassumption).
  assert (HT2 : tabs_in st2 c) by (eapply tabs_in_ext; [apply (same_refs_ext []); exact R | exact HT]).
  assert (Lo : List.length (ovrs st2) = S o) by (rewrite V2, app_length; cbn; subst o; lia).
  assert (Hch : forall o', In o' (chain c) -> o' < o) by exact HC.
  assert (Hnil : nth o (ovrs st2) [] = []) by (rewrite V2, app_nth2, Nat.sub_diag by (subst o; lia); reflexivity).
  cinv H. rename st0 into st3. destruct x.
  assert (HOV : (match ov0 with Some l => NoDup (names_of (overrides e l)) /\ (fix all (l : list icontent) : Prop := match l with [] => True | i :: l' => override_fine O C fs false (fe_path e) (fe_decls e) h i /\ all l' end) l | None => True end) /\
    Got (S D) c (fe_path e) (NamesOL fs (fe_path e) (match ov0 with Some l => l | None => [] end)) (fun r h => exists m how p, In (IDefine m how p) (match ov0 with Some l => l | None => [] end) /\ mentions_in r h p) st3 /\
    wf st3 /\ ext (tabs c) st2 st3 /\ o < List.length (ovrs st3) /\ incl (loaded st2) (loaded st3)).
  { destruct ov0 as [l|].
    - pose proof E as E'. pose proof E as E''. apply (overrides_kept l Hov c f o e h) in E; try assumption; [|lia]. destruct E as (F1 & N1 & G1). rewrite Hnil in N1. cbn [map app] in N1.
      apply (overrides_iter O C fs rp ri l ltac:(apply Forall_forall; intros; apply mO) c f o e) in E'; try assumption; [|lia]. destruct E' as (dxo & _ & (A1 & A2 & A3 & _)).
      split; [split; [apply N1; constructor | exact F1]|]. split; [exact G1|]. split; [exact A1|]. split; [rewrite <- (app_nil_l (tabs c)); eapply ext_mono; [|exact A2]; apply owner_tabs, incl_refl|]. split; [lia|].
      eapply loc_incl; [|exact E'']. apply loc_citer, Forall_forall. intros x _. apply loc_cmap, lO.
    - cret E. split; [exact I|]. split; [apply Got_none; [intros k n (m & how & p & [] & _) | intros r h' (m & how & p & [] & _)]|]. split; [exact W2|]. split; [apply same_refs_ext; split; reflexivity|]. split; [lia | apply incl_refl]. }
  clear E. destruct HOV as (FO & GO & W3 & X23 & Lo3 & L23).
  cinv H. apply cmap_err_ok in E. rename st0 into st4. rename x into inc'.
  unfold compile_schema_with in E. cinv E. pose proof (Hfs _ _ Es) as [Dok Tok]. pose proof E0 as E0'.
  apply declared_kept in E0'; [|exact I | reflexivity].
  apply (declared_agrees f) in E0; [|exact I | reflexivity | reflexivity | reflexivity | exact Dok]. destruct E0 as (-> & (ns & ds & ->) & HAi). cbn [with_decls] in *.
  set (inc := XInclude c f o ns ds) in *.
  assert (HL : exists l', file_contents s l' /\ contents_ok fs f (s_decls s) l' /\ ri inc l' st3 = fok (tt, st4) /\ inc' = inc).
  { destruct s as [sd [p|l']]; cbn [s_top s_decls] in *.
    - cbn [is_include inc] in E. destruct p; try (cbad E). cinv E. cret E. destruct x. exists l. split; [constructor|]. split; [apply all_contents; exact Tok|]. auto.
    - cinv E. cret E. destruct x. exists l'. split; [constructor|]. auto. }
  clear E. destruct HL as (l' & Fc & Cok & E & ->).
  assert (HT3 : tabs_in st3 c) by (eapply tabs_in_ext; eassumption).
  assert (HC3 : chain_in st3 inc).
  { intros o' [<-|Ho']; [lia|]. apply Hch in Ho'. lia. }
  pose proof (loc_incl _ _ _ _ (Hli inc l') E) as L34. pose proof E as E'.
  apply (Kri l' inc (FEnv f (s_decls s) []) false) in E; try assumption; [|intros K; discriminate K]. destruct E as [FI GI]. cbn [fe_path fe_decls] in FI, GI.
  apply (Hri inc (FEnv f (s_decls s) [])) in E'; try assumption. destruct E' as (dxi & _ & (_ & B2 & _)).
  unfold check_overrides, inc in H. destruct (find _ (nth o (ovrs st4) [])) as [[? ?]|] eqn:Ef2; [cbad H|]. apply fok_inj in H. destruct H as [_ <-].
  destruct GI as [AI RI].
  assert (Hff : file_fine O C fs false f s).
  { split; [exact E0'|]. inversion Fc; subst s; exact FI. }
  split.
  - cbn [content_fine]. destruct ov0 as [l|]; [|exact I]. rewrite <- Ee. exact FO.
  - eapply (Got_or _ _ _ _ (NamesOL fs (fe_path e) (match ov0 with Some l => l | None => [] end)) (NamesL fs f l') _
       (fun r h => exists m how p, In (IDefine m how p) (match ov0 with Some l => l | None => [] end) /\ mentions_in r h p) (fun r h' => r = RInclude /\ h' = h)).
    + intros k n K. inversion K; subst; [left; unfold NamesOL; do 3 eexists; split; eassumption|]. right.
      match goal with HR : resolve _ _ = Some ?g, HF : fs ?g = inl ?s' |- _ => assert (g = f) by congruence; subst g; assert (s' = s) by congruence; subst s' end.
      match goal with HF : file_contents s ?k |- _ => rewrite (contents_of_file _ _ _ Fc HF) in * end. eexists; split; eassumption.
    + intros r h' K. destruct r; cbn [mentions] in K; inversion K; subst; try (right; split; reflexivity); left; do 3 eexists; split; eassumption.
    + eapply Got_ext; [exact B2 | exact L34 | exact GO].
    + split; [exact AI|]. intros r h' [-> ->]. exists f, s. split; [exact Ef|]. split; [exact Es|]. split; [exact Hff|].
      eapply (Item_up D c inc f s (IncL l')); [exact Es | intros r' h'' K; eapply mentioned_back; eassumption | intros z Hz; right; exact Hz | exact Hnew | | exact RI].
      apply L34, L23. rewrite Hl12. exact Hload.
Qed.
Lemma ngrammar_kept l : Forall K_con l -> KP (SGrammar l).
Proof.
  intros Hl c e ov st X st' Hok HA W HT HS H. cbn [SchemaCompile.compile_pattern] in H. pose proof (agrees_env c e HA) as Ee.
  cinv H. apply new_grammar_kept in E. destruct E as (t & -> & E0). rename st0 into st1'. cinv H. destruct x. cbn [table_of] in H.
  pose proof (new_table_ok st t st1' W E0) as (W1 & X1 & _ & Et & Ht & _).
  assert (HAg : agrees (XGrammar c t) e) by (apply agrees_sub; exact HA).
  assert (HT1 : tabs_in st1' (XGrammar c t)) by (intros t' [<-|Ht']; [exact Ht | apply HT in Ht'; destruct X1; lia]).
  assert (HC1 : chain_in st1' (XGrammar c t)) by (intros o []).
  assert (Hok' : contents_ok fs (fe_path e) (fe_decls e) l) by (apply all_contents; exact Hok).
  pose proof E as E'. apply (contents_kept l Hl (XGrammar c t) e ov) in E; try assumption; [|exact I]. destruct E as [F G].
  apply (contents_iter O C fs rp ri l ltac:(apply Forall_forall; intros; apply mC) (XGrammar c t) e) in E'; try assumption; [|exact I].
  pose proof (grammar_kept (S D) Inner l c e st t st1' st0 X st' W HT HA E0 E' G H ltac:(intros K; contradiction K; reflexivity)) as (K1 & K2 & K3).
  split.
  - cbn [fine]. rewrite <- Ee. split; [exact K1|]. split; [exact K2 | apply all_finef; exact F].
  - eapply Got_sub; [reflexivity | reflexivity | apply incl_refl | | | exact K3].
    + intros k n K. inversion K; subst; [match goal with K' : child _ _ |- _ => inversion K' end | eexists; split; eassumption].
    + intros r h K. destruct r; cbn in K; inversion K; subst; try (match goal with K' : child _ _ |- _ => inversion K' end); eexists; split; eassumption.
Qed.
Lemma external_kept h i : KP (SExternal h i).
Proof.
  intros c e ov st X st' [-> Hok] HA W HT HS H. cbn [SchemaCompile.compile_pattern] in H.
  cinv H. apply (path_from_ok c e) in E; [|exact HA]. destruct E as [-> Ef]. rename x into f.
  cinv H. apply cmap_err_ok in E. destruct (schema_incl _ _ _ _ E) as [_ Hload]. apply get_schema_ok in E. destruct E as (Es & R1 & V1). rename x into s. rename st0 into st1.
  cinv H. destruct (new_include_kept _ _ _ _ _ E) as [Hnew Hl12]. apply new_include_ok in E. destruct E as (-> & R2 & V2). rename st0 into st2.
  assert (R : same_refs st st2) by (destruct R1, R2; split; congruence).
  assert (W2 : wf st2) by (eapply same_refs_wf; eassumption).
  assert (HT2 : tabs_in st2 c) by (eapply tabs_in_ext; [apply (same_refs_ext []); exact R | exact HT]).
  specialize (Hok f s Ef Es). destruct (Hfs _ _ Es) as [Dok Tok].
  set (inc := XInclude c f (List.length (ovrs st1)) initial_ns initial_dts) in *.
  assert (HP : role_fine O C fs false RExternal f s /\ (exists c', incl (inc_files c) (inc_files c') /\ Read D c' f (fun r h' => mentioned r h' s) st') /\ incl (loaded st2) (loaded st') /\
    (forall k n, Names fs (fe_path e) k n (SExternal h None) -> exists t, nth_error (tabs c) k = Some t /\ look st' t n <> None /\ (k = 1 -> outer_self c <> Some n)) /\
    match s_top s with TPattern q => parent_attribute c = true -> ~ Shows fs f q
    | TGrammar l => grammar_fine fs false Outside (FEnv f (s_decls s) []) l /\ forall n g, within c = Some n -> In g l -> ~ NamesC fs f 1 n g end).
  { destruct s as [sd [q|l]]; cbn [s_top s_decls role_fine] in *.
    - apply cmap_err_ok in H. pose proof (loc_incl _ _ _ _ (Hlp inc q) H) as HL. apply (Krp q inc (FEnv f sd []) true) in H; try assumption.
      2:{ apply external_agrees; assumption. }
      2:{ intros _ x Hx. cbn [namespace_uri inc] in Hx. unfold initial_ns in Hx. rewrite assoc_one in Hx. destruct (str_eqb (lit "xml") x) eqn:Es'; [apply str_eqb_eq in Es'; congruence | exfalso; apply Hx; reflexivity]. }
      destruct H as [F [GA GR]]. cbn [fe_path fe_decls] in *. change (parent_attribute inc) with (parent_attribute c) in F. change (within inc) with (@None str) in F.
      split; [|split; [|split; [exact HL|split]]].
      + destruct (parent_attribute c); [apply fine_weaken; exact F | exact F].
      + exists inc. split; [intros z Hz; right; exact Hz|]. intros r h' K. apply GR. destruct r; cbn in K |- *; inversion K; subst; assumption.
      + intros k n K. inversion K; subst; [match goal with K' : child _ _ |- _ => inversion K' end | |].
        * assert (f' = f) by congruence. subst f'. assert (Schema ds (TPattern q0) = Schema sd (TPattern q)) as [= -> ->] by congruence. apply GA. assumption.
        * assert (f' = f) by congruence. subst f'. congruence.
      + intros Ha Hsh. rewrite Ha in F. eapply fine_no_shows; eassumption.
    - destruct Hok as [-> HS']. cinv H. apply new_grammar_kept in E. destruct E as (x0 & -> & E0). rename st0 into st3. pose proof (new_table_ok st2 x0 st3 W2 E0) as (A1 & A2 & A3 & Ht & A4 & A5).
      cinv H. destruct x. cbn [table_of] in H. cinv H. destruct x as [x|]; [cbad H|]. apply undefined_none in E1. destruct E1 as [-> Eu].
      assert (HAg : agrees (XGrammar c x0) (FEnv f (fe_decls e) [])).
      { destruct HA as ((f0 & F1 & F2) & G1 & G2 & G3 & G4 & G5). split; [exists f0; split; [exact F1 | intros h'; rewrite F2; apply HS']|].
        split; [exact G1|]. split; [reflexivity|]. split; [exact G3|]. split; [exact G4 | exact G5]. }
      assert (HT3 : tabs_in st3 (XGrammar c x0)) by (intros t' [<-|Ht']; [exact A4 | apply HT2 in Ht'; destruct A2; lia]).
      assert (HC3 : chain_in st3 (XGrammar c x0)) by (intros o []).
      pose proof (loc_incl _ _ _ _ (Hli (XGrammar c x0) l) E) as L3. pose proof E as E'.
      apply (Kri l (XGrammar c x0) (FEnv f (fe_decls e) []) false) in E; try assumption; [|exact I | intros K; discriminate K]. destruct E as [F G]. cbn [fe_path fe_decls] in F, G.
      apply (Hri (XGrammar c x0) (FEnv f (fe_decls e) [])) in E'; try assumption; [|exact I].
      assert (HAc : agrees c (FEnv f (fe_decls e) [])) by exact HAg.
      pose proof (q_take_start _ _ _ _ H) as Hl4.
      assert (Hl3 : loaded st3 = loaded st2) by (injection E0 as _ <-; reflexivity).
      pose proof (grammar_kept D Outside l c (FEnv f (fe_decls e) []) st2 x0 st3 st0 X st' W2 HT2 HAc E0 E' G H) as HGK.
      destruct HGK as (K1 & K2 & K3).
      { intros _. exact Eu. }
      cbn [fe_path fe_decls] in *. destruct K3 as [GA GR].
      split; [exact F|]. split; [|split; [|split; [|split; [exact K1 | exact K2]]]].
      + exists c. split; [apply incl_refl|]. intros r h' K. apply GR. eapply mentioned_back; [exact K | constructor].
      + rewrite Hl4. eapply incl_tran; [|exact L3]. rewrite Hl3. apply incl_refl.
      + intros k n K. inversion K; subst; [match goal with K' : child _ _ |- _ => inversion K' end | |].
        * assert (f' = f) by congruence. subst f'. congruence.
        * assert (f' = f) by congruence. subst f'. assert (Schema ds (TGrammar l0) = Schema (fe_decls e) (TGrammar l)) as [= -> ->] by congruence. apply GA. eexists; split; eassumption. }
  destruct HP as (P1 & P2 & P3 & P4 & P5). split.
  - cbn [fine]. split; [reflexivity|]. exists f, s. split; [exact Ef|]. split; [exact Es|]. destruct s as [sd [q|l]]; cbn [s_top s_decls] in *; [exact P5|]. split; [intros K; discriminate K | exact P5].
  - split; [exact P4|]. intros r h' K. assert (r = RExternal /\ h' = h) as [-> ->].
    { destruct r; cbn in K; inversion K; subst; try (match goal with K' : child _ _ |- _ => inversion K' end); auto. }
    exists f, s. split; [exact Ef|]. split; [exact Es|]. split; [exact P1|].
    destruct P2 as (c' & Hc' & P2). eapply (Item_up D c c' f s (fun r h' => mentioned r h' s)); [exact Es | auto | exact Hc' | exact Hnew | | exact P2].
    apply P3. rewrite Hl12. exact Hload.
Qed.
Lemma main_kept : (forall p, KP p) /\ (forall g, K_con g) /\ (forall i, K_ovr i).
Proof.
  assert (H_sub : forall q p c' c e ov st X st', tabs c' = tabs c -> outer_self c' = outer_self c -> inc_files c' = inc_files c -> hides c' ov ->
    (forall r h, mentions_in r h p -> mentions_in r h q) -> (forall k n, Names fs (fe_path e) k n p -> Names fs (fe_path e) k n q) ->
    KP q -> pat_ok fs (fe_path e) (fe_decls e) q -> agrees c' e -> wf st -> tabs_in st c -> compile_pattern c' q st = fok (X, st') ->
    fine O C fs false (fe_path e) (fe_decls e) ov (parent_attribute c') (within c') q /\
    Got (S D) c (fe_path e) (fun k n => Names fs (fe_path e) k n p) (fun r h => mentions_in r h p) st').
  { intros q p c' c e ov st X st' Et Eo Ei HS HM HN IH Hok HA W HT H. apply (IH c' e ov) in H; try assumption; [|intros t; rewrite Et; apply HT]. destruct H as [F G].
    split; [exact F|]. eapply Got_sub; [symmetry; exact Et | symmetry; exact Eo | rewrite Ei; apply incl_refl | exact HN | exact HM | exact G]. }
  assert (M_one : forall q p, (forall q', child q' p -> q' = q) -> (forall l, p <> SGrammar l) -> (forall h i, p <> SExternal h i) -> (forall i, p <> SIdent i) -> (forall i, p <> SParent i) ->
    (forall r h, mentions_in r h p -> mentions_in r h q) /\ (forall f k n, Names fs f k n p -> Names fs f k n q)).
  { intros q p Hq Hg He Hi Hp. split.
    - intros r h K. destruct r; cbn in K |- *; inversion K; subst; try (match goal with K' : child _ _ |- _ => apply Hq in K'; subst; assumption end);
        exfalso; try (eapply Hg; reflexivity); eapply He; reflexivity.
    - intros f k n K. inversion K; subst; try (match goal with K' : child _ _ |- _ => apply Hq in K'; subst; assumption end);
        exfalso; first [eapply Hg; reflexivity | eapply He; reflexivity | eapply Hi; reflexivity | eapply Hp; reflexivity]. }
  assert (H_one : forall W F, (forall c q st, compile_pattern c (W q) st = (do x <- compile_pattern c q; cret (F x)) st) -> (forall q, child q (W q)) ->
    (forall q q', child q' (W q) -> q' = q) -> (forall q l, W q <> SGrammar l) -> (forall q h i, W q <> SExternal h i) -> (forall q i, W q <> SIdent i) -> (forall q i, W q <> SParent i) ->
    (forall f ds q, pat_ok fs f ds (W q) = pat_ok fs f ds q) -> (forall f ds ov a s q, fine O C fs false f ds ov a s (W q) = fine O C fs false f ds ov a s q) -> forall q, KP q -> KP (W q)).
  { intros W F HW Hc Hc' Hg He Hi Hp HP Hfi q IH c e ov st X st' Hok HA W0 HT HS H. rewrite HW in H. rewrite HP in Hok. rewrite Hfi. cinv H. cret H.
    destruct (M_one q (W q) (Hc' q) (Hg q) (He q) (Hi q) (Hp q)) as [M1 M2]. eapply (H_sub q (W q) c c); eauto. }
  assert (H_two : forall W F, (forall c a b st, compile_pattern c (W a b) st = (do x <- compile_pattern c a; do y <- compile_pattern c b; cret (F x y)) st) ->
    (forall a b, child a (W a b)) -> (forall a b, child b (W a b)) -> (forall a b q, child q (W a b) -> q = a \/ q = b) ->
    (forall a b l, W a b <> SGrammar l) -> (forall a b h i, W a b <> SExternal h i) -> (forall a b i, W a b <> SIdent i) -> (forall a b i, W a b <> SParent i) ->
    (forall f ds a b, pat_ok fs f ds (W a b) = (pat_ok fs f ds a /\ pat_ok fs f ds b)) -> (forall f ds ov at' s a b, fine O C fs false f ds ov at' s (W a b) = (fine O C fs false f ds ov at' s a /\ fine O C fs false f ds ov at' s b)) ->
    forall a b, KP a -> KP b -> KP (W a b)).
  { intros W F HW Hca Hcb Hc' Hg He Hi Hp HP Hfi a b IHa IHb c e ov st X st' Hok HA W0 HT HS H. rewrite HW in H. rewrite HP in Hok. rewrite Hfi. destruct Hok as [Ok1 Ok2].
    cinv H. cinv H. cret H. pose proof E as Ea. apply (IHa c e ov) in E; try assumption. destruct E as [Fa Ga].
    apply (mP a c e) in Ea; try assumption. destruct Ea as (P1 & P2 & _). assert (HT1 : tabs_in st0 c) by (eapply tabs_in_ext; eassumption).
    pose proof E0 as Eb. pose proof (loc_incl _ _ _ _ (lP b c) E0) as HL. apply (IHb c e ov) in E0; try assumption. destruct E0 as [Fb Gb].
    apply (mP b c e) in Eb; try assumption. destruct Eb as (Q1 & Q2 & _).
    split; [split; assumption|]. eapply Got_or; [| |eapply Got_ext; [exact Q2 | exact HL | exact Ga] | exact Gb].
    - intros k n K. inversion K; subst; try (match goal with K' : child _ _ |- _ => apply Hc' in K'; destruct K' as [-> | ->]; auto end);
        exfalso; first [eapply Hg; eassumption | eapply He; eassumption | eapply Hi; eassumption | eapply Hp; eassumption | eapply Hg; symmetry; eassumption | eapply He; symmetry; eassumption | eapply Hi; symmetry; eassumption | eapply Hp; symmetry; eassumption].
    - intros r h K. destruct r; cbn in K |- *; inversion K; subst; try (match goal with K' : child _ _ |- _ => apply Hc' in K'; destruct K' as [-> | ->]; auto end);
        exfalso; first [eapply Hg; eassumption | eapply He; eassumption | eapply Hg; symmetry; eassumption | eapply He; symmetry; eassumption]. }
  assert (H_el : forall nc p, KP p -> KP (SElement nc p)).
  { intros nc p IH c e ov st X st' Hok HA W HT HS H. cbn [SchemaCompile.compile_pattern] in H. cinv H. apply (nameclass_kept c e ov) in E; [|exact HA | exact HS]. destruct E as [-> En].
    cinv H. apply new_element_ok in E. destruct E as (-> & -> & Ha). cinv H. cret H.
    destruct (M_one p (SElement nc p)) as [M1 M2]; [intros q' K; inversion K; reflexivity | discriminate | discriminate | discriminate | discriminate |].
    destruct (H_sub p (SElement nc p) (XElement c) c e ov st x0 st') as [F G]; try assumption; try reflexivity; [apply M2|].
    split; [|exact G]. cbn [fine]. cbn [parent_attribute within] in F. rewrite Ha in F. auto. }
  assert (H_at : forall nc p, KP p -> KP (SAttribute nc p)).
  { intros nc p IH c e ov st X st' Hok HA W HT HS H. cbn [SchemaCompile.compile_pattern] in H. cinv H. apply (nameclass_kept c e ov) in E; [|exact HA | exact HS]. destruct E as [-> En].
    cinv H. cret H.
    destruct (M_one p (SAttribute nc p)) as [M1 M2]; [intros q' K; inversion K; reflexivity | discriminate | discriminate | discriminate | discriminate |].
    destruct (H_sub p (SAttribute nc p) (XAttribute c) c e ov st x0 st') as [F G]; try assumption; try reflexivity; [apply M2|].
    split; [|exact G]. cbn [fine]. split; [exact En | exact F]. }
  assert (H_li : forall p, KP p -> KP (SList p)) by (apply (H_one SList MList); try reflexivity; try discriminate; [constructor | intros q q' K; inversion K; reflexivity]).
  assert (H_mi : forall p, KP p -> KP (SMixed p)) by (apply (H_one SMixed MMixed); try reflexivity; try discriminate; [constructor | intros q q' K; inversion K; reflexivity]).
  assert (H_op : forall p, KP p -> KP (SOptional p)) by (apply (H_one SOptional MOptional); try reflexivity; try discriminate; [constructor | intros q q' K; inversion K; reflexivity]).
  assert (H_ze : forall p, KP p -> KP (SZeroOrMore p)) by (apply (H_one SZeroOrMore MZeroOrMore); try reflexivity; try discriminate; [constructor | intros q q' K; inversion K; reflexivity]).
  assert (H_on : forall p, KP p -> KP (SOneOrMore p)) by (apply (H_one SOneOrMore MOneOrMore); try reflexivity; try discriminate; [constructor | intros q q' K; inversion K; reflexivity]).
  assert (H_gp : forall p, KP p -> KP (SGroup p)).
  { apply (H_one SGroup (fun x => x)); try reflexivity; try discriminate; [|constructor | intros q q' K; inversion K; reflexivity].
    intros c q st. cbn [SchemaCompile.compile_pattern]. unfold cbind, cret. destruct (compile_pattern c q st) as [[[? ?]|?]|?|]; reflexivity. }
  assert (H_lp : forall a b, KP a -> KP b -> KP (SListPair a b)) by (apply (H_two SListPair (fun x y => MGroup (seq_members x ++ seq_members y))); try reflexivity; try discriminate; try (intros a b; constructor; fail); intros a b q K; inversion K; auto).
  assert (H_ip : forall a b, KP a -> KP b -> KP (SInterleavePair a b)) by (apply (H_two SInterleavePair (fun x y => MInterleave (inter_members x ++ inter_members y))); try reflexivity; try discriminate; try (intros a b; constructor; fail); intros a b q K; inversion K; auto).
  assert (H_cp : forall a b, KP a -> KP b -> KP (SChoicePair a b)) by (apply (H_two SChoicePair (fun x y => MChoice (choice_members x ++ choice_members y))); try reflexivity; try discriminate; try (intros a b; constructor; fail); intros a b q K; inversion K; auto).
  assert (H_id : forall i, KP (SIdent i)).
  { intros i c e ov st X st' Hok HA W HT HS H. cbn [SchemaCompile.compile_pattern] in H. cinv H. cret H. split.
    - cbn [fine]. unfold acquire_ref in E. cinv E. eapply SchemaVisit.check_rec_ok; exact E0.
    - apply acquire_ok in E; try assumption. destruct E as (_ & _ & _ & K4). split.
      + intros k n K. inversion K; subst; [|match goal with K' : child _ _ |- _ => inversion K' end]. exists (owner c). split; [rewrite tabs_owner; reflexivity|]. split; [rewrite K4; discriminate | discriminate].
      + intros r h K. destruct r; cbn in K; inversion K; subst; match goal with K' : child _ _ |- _ => inversion K' end. }
  assert (H_pa : forall i, KP (SParent i)).
  { intros i c e ov st X st' Hok HA W HT HS H. cbn [SchemaCompile.compile_pattern] in H. cinv H. cret H. split; [exact I|].
    pose proof (parent_self _ _ _ _ _ E) as Hs. apply acquire_parent_ok in E; try assumption. destruct E as (_ & _ & _ & t & t1 & ts & K4 & K5). split.
    - intros k n K. inversion K; subst; [|match goal with K' : child _ _ |- _ => inversion K' end]. exists t1. split; [rewrite K4; reflexivity|]. split; [rewrite K5; discriminate | intros _; exact Hs].
    - intros r h K. destruct r; cbn in K; inversion K; subst; match goal with K' : child _ _ |- _ => inversion K' end. }
  assert (H_none : forall p st c f, (forall q, ~ child q p) -> (forall l, p <> SGrammar l) -> (forall h i, p <> SExternal h i) -> (forall i, p <> SIdent i) -> (forall i, p <> SParent i) ->
    Got (S D) c f (fun k n => Names fs f k n p) (fun r h => mentions_in r h p) st).
  { intros p st c f Hc Hg He Hi Hp. apply Got_none.
    - intros k n K. inversion K; subst; try (match goal with K' : child _ _ |- _ => apply Hc in K'; exact K' end);
        first [eapply Hg; reflexivity | eapply He; reflexivity | eapply Hi; reflexivity | eapply Hp; reflexivity].
    - intros r h K. destruct r; cbn in K; inversion K; subst; try (match goal with K' : child _ _ |- _ => apply Hc in K'; exact K' end);
        first [eapply Hg; reflexivity | eapply He; reflexivity]. }
  assert (H_em : KP SEmpty) by (intros c e ov st X st' _ _ _ _ _ _; split; [exact I | apply (H_none SEmpty); try discriminate; intros q K; inversion K]).
  assert (H_te : KP SText) by (intros c e ov st X st' _ _ _ _ _ _; split; [exact I | apply (H_none SText); try discriminate; intros q K; inversion K]).
  assert (H_na : KP SNotAllowed) by (intros c e ov st X st' _ _ _ _ _ _; split; [exact I | apply (H_none SNotAllowed); try discriminate; intros q K; inversion K]).
  assert (H_va : forall n v, KP (SValue n v)).
  { intros n v c e ov st X st' Hok HA W HT HS H. split; [|apply H_none; try discriminate; intros q K; inversion K]. cbn [SchemaCompile.compile_pattern] in H. pose proof (agrees_env c e HA) as Ee.
    cinv H. apply (dtname_ok' c e) in E; [|exact HA | destruct n; [exact Hok | exact I]]. destruct E as [-> En].
    cinv H. apply lift_dt_ok in E. destruct E as [-> E]. cbn [fine]. rewrite <- Ee. intros d Hd. apply En in Hd. subst d. eauto. }
  assert (H_da : forall n ps ex, (match ex with Some e => KP e | None => True end) -> KP (SData n ps ex)).
  { intros n ps ex IH c e ov st X st' [Hk1 Hk2] HA W HT HS H. cbn [SchemaCompile.compile_pattern] in H. pose proof (agrees_env c e HA) as Ee.
    cinv H. apply (dtname_ok' c e) in E; [|exact HA | exact Hk1]. destruct E as [-> En].
    cinv H. apply lift_dt_ok in E. destruct E as [-> E]. rewrite values_eq in E. cinv H. cret H. cbn [fine]. rewrite <- Ee.
    assert (Hd : data_fine O C e n ps) by (intros d Hd; apply En in Hd; subst d; eauto). destruct ex as [ex|].
    - cinv E0. cret E0. destruct (M_one ex (SData n ps (Some ex))) as [M1 M2]; [intros q' K; inversion K; reflexivity | discriminate | discriminate | discriminate | discriminate |].
      destruct (H_sub ex (SData n ps (Some ex)) c c e ov st x2 st') as [F G]; try assumption; try reflexivity; [apply M2|]. split; [split; assumption | exact G].
    - cret E0. split; [auto|]. apply (H_none (SData n ps None)); try discriminate. intros q K; inversion K. }
  assert (H_gv : forall l, Forall K_con l -> K_con (GDiv l)).
  { intros l Hl c e ov st st' Hok HG HA W HT HC HS H. cbn [SchemaCompile.compile_content] in H.
    apply (contents_kept l Hl c e ov) in H; try assumption; [|apply all_contents; exact Hok]. destruct H as [F G]. split; [cbn [content_fine]; apply all_finef; exact F|].
    eapply Got_sub; [reflexivity | reflexivity | apply incl_refl | | | exact G].
    - intros k n K. inversion K; subst. eexists; split; eassumption.
    - intros r h K. destruct r; cbn in K; inversion K; subst; eexists; split; eassumption. }
  assert (H_ga : forall a, K_con (GAnnotation a)).
  { intros a c e ov st st' Hok HG HA W HT HC HS H. split; [exact I|]. apply Got_none; [intros k n K; inversion K | intros r h K; destruct r; cbn in K; inversion K]. }
  assert (H_iv : forall l, Forall K_ovr l -> K_ovr (IDiv l)).
  { intros l _ q f o e h st st' _ _ _ _ _ _ _ _ H. cbn [SchemaCompile.compile_override] in H. cbad H. }
  assert (H_ia : forall a, K_ovr (IAnnotation a)).
  { intros a q f o e h st st' _ _ _ W _ _ _ _ H. cbn [SchemaCompile.compile_override] in H. cret H. split; [exact I|]. split; [intros K; cbn; rewrite app_nil_r; exact K|].
    apply Got_none; [intros k n (m & how & p & K & _); discriminate K | intros r h' (m & how & p & K & _); discriminate K]. }
  split; [|split]; [apply (spat_ind' (K_pattern (S D) compile_pattern) K_con K_ovr) | apply (gcontent_ind' (K_pattern (S D) compile_pattern) K_con K_ovr) | apply (icontent_ind' (K_pattern (S D) compile_pattern) K_con K_ovr)];
    auto using ngrammar_kept, external_kept, include_kept, override_kept, define_kept.
Qed.
End Rec.
Lemma nested_kept d : (forall l, K_contents d (snd (nested O C fs d)) l) /\ (forall p, K_pattern d (fst (nested O C fs d)) p).
Proof.
  induction d as [|d [IH1 IH2]].
  - split; [intros l c e ov st st' _ _ _ _ _ _ _ H | intros p c e ov st X st' _ _ _ _ _ H]; cbn in H; cbad H.
  - pose proof (nested_ok O C fs Hfs d) as [HI HP]. pose proof (nested_local O C fs fs d) as [LP LI]. try (pose proof (fun c p => LP c p)).
    cbn [nested]. destruct (nested O C fs d) as [rp ri]. cbn [fst snd] in *.
    destruct (main_kept d rp ri HI HP LP LI IH2 IH1) as (M1 & M2 & _). split; [|exact M1].
    intros l. unfold compile_contents. apply contents_kept; try assumption. apply Forall_forall. intros g _. apply M2.
Qed.
Lemma Trail_app m k f f' f'' : Trail fs m f f' -> Trail fs k f' f'' -> Trail fs (m + k) f f''.
Proof. induction 1 as [|n a b c H _ IH]; intros K; [exact K | econstructor; [exact H | apply IH; exact K]]. Qed.
Lemma Trail_loop k f : Trail fs k f f -> forall j, Trail fs (j * k) f f.
Proof. intros H j. induction j as [|j IH]; [constructor | cbn; eapply Trail_app; eassumption]. Qed.
Theorem compiles_lawful d name r st : compile_grammar O C fs d name = fok (r, st) -> lawful O C fs name.
Proof.
  intros H. unfold compile_grammar in H. cinv H. destruct (schema_incl _ _ _ _ E) as [_ Hload]. apply get_schema_ok in E. destruct E as (Es & R0 & V0). rename x into s.
  cinv H. unfold new_root in E. cinv E. cret E. rename st1 into st1'.
  assert (W0 : wf empty_cst) by (split; intros t n r'; unfold look; cbn; destruct t; discriminate).
  pose proof (same_refs_wf _ _ R0 W0) as W1. assert (Hl1 : loaded st1' = loaded st0) by (injection E0 as _ <-; reflexivity).
  apply new_table_ok in E0; [|exact W1]. destruct E0 as (A1 & A2 & A3 & -> & A4 & A5).
  destruct R0 as [_ R0]. cbn [tables empty_cst] in R0. rewrite R0 in *. cbn [List.length] in *. clear W0 W1 A2 R0.
  pose proof (nested_ok O C fs Hfs (S d)) as [HI HP]. pose proof (nested_local O C fs fs (S d)) as [LP LI]. pose proof (nested_kept (S d)) as [KI KP]. cbn [nested] in HI, HP, LP, LI, KI, KP.
  destruct (nested O C fs d) as [rp ri] eqn:En. clear V0 A3. cbn [fst snd] in *. cinv H. rename x into c'. rename st1 into st2.
  destruct (Hfs _ _ Es) as [Dok Tok].
  unfold compile_schema_with in E. cinv E. pose proof E0 as E0'. apply declared_kept in E0'; [|exact I | reflexivity].
  apply (declared_agrees name) in E0; [|exact I | reflexivity | reflexivity | reflexivity | exact Dok].
  destruct E0 as (-> & (ns & ds & ->) & HA). cbn [with_decls] in *. set (c := XRoot name 0 ns ds) in *.
  assert (HT : tabs_in st1' c) by (intros t [<-|[]]; exact A4).
  assert (HG : exists dx, wf st2 /\ (forall n, merged n None dx = fok (content st2 0 n)) /\ In name (loaded st2) /\ c' = c /\ Read (S d) c name (fun r h => mentioned r h s) st2 /\
    match s_top s with
    | TGrammar l => (forall ds', Expand fs (FEnv name (s_decls s) []) l ds' <-> ds' = map fst dx) /\ contents_fine O C fs false name (s_decls s) false l /\ Acq c (NamesL fs name l) st2
    | TPattern p => names_of (map fst dx) = [lit "start"] /\ fine O C fs false name (s_decls s) false false None p /\ Acq c (fun k n => Names fs name k n p) st2
    end).
  { destruct s as [sd [p|l]]; cbn [s_top s_decls] in *.
    - cbn [is_include c] in E. cinv E. cinv E. apply cret_ok in E. destruct E as [<- <-]. destruct x0. pose proof E0 as Ek. pose proof (loc_incl _ _ _ _ (LP c p) E0) as HL.
      apply (KP p c (FEnv name sd []) false) in Ek; try assumption; [|intros K; discriminate K]. destruct Ek as [F G]. cbn [fe_path fe_decls parent_attribute within c] in F, G.
      apply (HP c (FEnv name sd []) p) in E0; try assumption. pose proof E0 as (P1 & P2 & _).
      pose proof (q_define _ _ _ _ _ _ E1) as HLd. pose proof E1 as E1'. apply define_ok in E1'; [|exact I | exact P1 | eapply tabs_in_ext; eassumption | intros o []]. destruct E1' as (D1 & D2 & _).
      exists [(SDef (lit "start") MAssign (FEnv name sd []) p, x)].
      eapply (define_CPx O C fs c (FEnv name sd []) (lit "start") MAssign p st1' x st1 st3) in E1; [|exact I | exact A1 | exact HT | intros o [] | exact E0]. destruct E1 as (B1 & B2 & B3 & B4 & B5).
      split; [exact B1|]. split; [intros n; specialize (B5 n); change (owner c) with 0 in B5; rewrite A5 in B5; exact B5|]. split; [rewrite HLd; apply HL; rewrite Hl1; exact Hload|]. split; [reflexivity|].
      assert (G' : Got (S d) c name (fun k n => Names fs name k n p) (fun r h => mentions_in r h p) st3) by (eapply Got_ext; [exact D2 | rewrite HLd; apply incl_refl | exact G]). destruct G' as [GA GR].
      split; [intros r' h K; apply GR; destruct r'; cbn in K |- *; inversion K; subst; assumption|]. split; [reflexivity|]. split; [exact F | exact GA].
    - cinv E. apply cret_ok in E. destruct E as [<- <-]. destruct x. pose proof E0 as Ek. pose proof (loc_incl _ _ _ _ (LI c l) E0) as HL.
      apply (KI l c (FEnv name sd []) false) in Ek; try assumption; [|exact I | intros o [] | intros K; discriminate K]. destruct Ek as [F [GA GR]]. cbn [fe_path fe_decls] in *.
      apply (HI c (FEnv name sd []) l) in E0; try assumption; [|exact I | intros o []]. destruct E0 as (dx & Ee & (B1 & B2 & B3 & B4 & B5)). exists dx.
      split; [exact B1|]. split; [intros n; specialize (B5 n); change (owner c) with 0 in B5; rewrite A5 in B5; exact B5|]. split; [apply HL; rewrite Hl1; exact Hload|]. split; [reflexivity|].
      split; [intros r' h K; apply GR; eapply mentioned_back; [exact K | constructor]|]. split; [exact Ee|]. split; [exact F | exact GA]. }
  clear E. destruct HG as (dx & W2 & HM & HL2 & -> & HR & HTop).
  cinv H. destruct x; [cbad H|]. apply undefined_none in E. destruct E as [-> Hund]. cbn [table_of c] in *.
  cinv H. unfold get_ref_in in E. cfok E. fold (look st2 0 (lit "start")) in H. destruct (look st2 0 (lit "start")) as [r0|] eqn:El; [|cbad H]. clear H.
  assert (Hdef : forall n, look st2 0 n <> None -> In n (names_of (map fst dx))).
  { intros n Hn. destruct (look st2 0 n) as [x|] eqn:Ex; [|congruence]. pose proof (Hund n x Ex) as Hc. destruct (content st2 0 n) as [R|] eqn:Ec; [|congruence]. eapply named_back. rewrite HM, Ec. reflexivity. }
  assert (HI' : Item (S (S d)) c st2 name) by (eapply (Item_up (S d) c c name s (fun r h => mentioned r h s)); [exact Es | auto | apply incl_refl | intros [] | exact HL2 | exact HR]).
  assert (HB : forall m f, Trail fs m name f -> m < S (S d)) by (intros m f K; apply (HI' m f K)).
  assert (Hff : file_fine O C fs false name s).
  { split; [exact E0'|]. destruct s as [sd [p|l]]; cbn [s_top s_decls] in *; [|apply HTop]. destruct HTop as (_ & F & _). destruct p; try exact F. cbn [fine] in F. apply all_finef, F. }
  split; [|split; [|split; [|split]]].
  - exists (loaded st2). intros m f K. apply (HI' m f K).
  - intros m f k K1 K2. pose proof (Trail_loop _ _ K2 (S (S d))) as K3. pose proof (Trail_app _ _ _ _ _ K1 K3) as K4. apply HB in K4. nia.
  - intros s' Es'. assert (s' = s) by congruence. subst s'. exact Hff.
  - intros m f s1 r1 h f' s' HTr Es1 Hm Hr Es'. apply (HI' m f HTr) with (s := s1) (h := h); assumption.
  - unfold top_fine. rewrite Es. destruct s as [sd [p|l]]; cbn [s_top s_decls] in *.
    + destruct HTop as (Hn & F & GA). split; [exact F|]. intros k n K. destruct (GA k n K) as (t & K1 & K2 & _). destruct k as [|[|k]]; try discriminate K1. injection K1 as <-.
      split; [reflexivity|]. split; [reflexivity|]. apply Hdef in K2. rewrite Hn in K2. destruct K2 as [<-|[]]. reflexivity.
    + destruct HTop as (Hx & F & GA). split.
      * exists (map fst dx). split; [apply Hx; reflexivity|]. split; [intros n; eapply combinable_of; [reflexivity | apply HM]|]. split; [apply Hdef; rewrite El; discriminate|].
        intros g n Hg Hn. split; [|intros K; discriminate K]. intros _. apply Hdef. destruct (GA 0 n) as (t & K1 & K2 & _); [exists g; auto|]. injection K1 as <-. exact K2.
      * intros g k n Hg Hn. destruct (GA (S k) n) as (t & K1 & _); [exists g; auto|]. destruct k; discriminate K1.
Qed.
(** ** [tidy]: the lenient rules imply the strict ones *)
Definition neat (f : path) (Q : spat -> Prop) : Prop :=
  (forall l g n, Q (SGrammar l) -> In g l -> NamesC fs f 0 n g -> n <> lit "start" /\ forall ds x, Expand fs (FEnv f ds []) l x -> In n (names_of x)) /\
  (forall h f' ds l, Q (SExternal h None) -> resolve f (lit_value h) = Some f' -> fs f' <> inl (Schema ds (TGrammar l))).
Lemma neat_sub f (Q Q' : spat -> Prop) : (forall p, Q' p -> Q p) -> neat f Q -> neat f Q'.
Proof. intros H [A B]. split; intros; [eapply A | eapply B]; eauto. Qed.
Lemma all_finet f ds ov l : (fix all (l : list gcontent) : Prop := match l with [] => True | g :: l' => content_fine O C fs true f ds ov g /\ all l' end) l <-> contents_fine O C fs true f ds ov l.
Proof. induction l as [|g l IH]; [reflexivity|]. cbn. rewrite IH. reflexivity. Qed.
Definition U_pat (p : spat) : Prop := forall f ds ov attr self, neat f (fun q => occurs_in q p) -> fine O C fs false f ds ov attr self p -> fine O C fs true f ds ov attr self p.
Definition U_con (g : gcontent) : Prop := forall f ds ov, neat f (fun q => occurs q g) -> content_fine O C fs false f ds ov g -> content_fine O C fs true f ds ov g.
Definition U_ovr (i : icontent) : Prop := forall f ds h, (forall m how p, i = IDefine m how p -> neat f (fun q => occurs_in q p)) -> override_fine O C fs false f ds h i -> override_fine O C fs true f ds h i.
Lemma contents_upgrade l : Forall U_con l -> forall f ds ov, neat f (fun q => exists g, In g l /\ occurs q g) -> contents_fine O C fs false f ds ov l -> contents_fine O C fs true f ds ov l.
Proof.
  induction 1 as [|g l Hg Hl IH]; intros f ds ov HN H; [exact I|]. destruct H as [H1 H2]. split.
  - apply Hg; [|exact H1]. eapply neat_sub; [|exact HN]. intros p K. exists g. split; [left; reflexivity | exact K].
  - apply IH; [|exact H2]. eapply neat_sub; [|exact HN]. intros p (g' & K1 & K2). exists g'. split; [right; exact K1 | exact K2].
Qed.
Lemma upgrade : (forall p, U_pat p) /\ (forall g, U_con g) /\ (forall i, U_ovr i).
Proof.
  assert (N_child : forall f q p, child q p -> neat f (fun x => occurs_in x p) -> neat f (fun x => occurs_in x q)).
  { intros f q p Hc. apply neat_sub. intros x K. eapply Oi_child; eassumption. }
  assert (H_one : forall q p, child q p -> U_pat q -> forall f ds ov attr self, neat f (fun x => occurs_in x p) -> fine O C fs false f ds ov attr self q -> fine O C fs true f ds ov attr self q).
  { intros q p Hc IH f ds ov attr self HN K. apply IH; [eapply N_child; eassumption | exact K]. }
  assert (H_gr : forall l, Forall U_con l -> U_pat (SGrammar l)).
  { intros l Hl f ds ov attr self HN (K1 & K2 & K3). split; [|split; [exact K2|]].
    - destruct K1 as (x & E1 & E2 & E3 & E4). exists x. split; [exact E1|]. split; [exact E2|]. split; [exact E3|]. intros g n Hg Hn. destruct (proj1 HN l g n (Oi_here _) Hg Hn) as [A B].
      split; [intros _; eapply B; exact E1 | intros _ _; exact A].
    - apply all_finet. apply all_finef in K3. apply contents_upgrade; [exact Hl | | exact K3]. eapply neat_sub; [|exact HN]. intros p (g & K4 & K5). eapply Oi_grammar; eassumption. }
  assert (H_ex : forall h i, U_pat (SExternal h i)).
  { intros h i f ds ov attr self HN (-> & f' & s' & K1 & K2 & K3). split; [reflexivity|]. exists f', s'. split; [exact K1|]. split; [exact K2|].
    destruct s' as [sd [q|l]]; cbn [s_top s_decls] in *; [exact K3|]. exfalso. eapply (proj2 HN); [apply Oi_here | exact K1 | exact K2]. }
  assert (H_gi : forall h inh ov, (match ov with Some l => Forall U_ovr l | None => True end) -> U_con (GInclude h inh ov)).
  { intros h inh [l|] Hl f ds ov HN K; [|exact I]. destruct K as [K1 K2]. split; [exact K1|].
    assert (HN' : forall m how p, In (IDefine m how p) l -> neat f (fun q => occurs_in q p)) by (intros m how p Hi; eapply neat_sub; [|exact HN]; intros q Hq; eapply Oc_override; eassumption).
    clear K1 HN. induction Hl as [|i l Hi Hl IH]; [exact I|]. destruct K2 as [K2 K3]. split.
    - apply Hi; [|exact K2]. intros m how p ->. eapply HN'. left; reflexivity.
    - apply IH; [exact K3|]. intros m how p K. eapply HN'. right; exact K. }
  assert (H_gv : forall l, Forall U_con l -> U_con (GDiv l)).
  { intros l Hl f ds ov HN K. cbn [content_fine] in *. apply all_finet. apply all_finef in K. apply contents_upgrade; [exact Hl | | exact K]. eapply neat_sub; [|exact HN]. intros p (g & K4 & K5). eapply Oc_div; eassumption. }
  assert (H_gd : forall n how p, U_pat p -> U_con (GDefine n how p)).
  { intros n how p IH f ds ov HN K. cbn [content_fine] in *. apply IH; [|exact K]. eapply neat_sub; [|exact HN]. intros q Hq. constructor; exact Hq. }
  assert (H_if : forall n how p, U_pat p -> U_ovr (IDefine n how p)).
  { intros n how p IH f ds h HN [K1 K2]. split; [|exact K2]. apply IH; [|exact K1]. eapply HN; reflexivity. }
  assert (H_da : forall n ps ex, (match ex with Some e => U_pat e | None => True end) -> U_pat (SData n ps ex)).
  { intros n ps [ex|] IH f ds ov attr self HN [K1 K2]; (split; [exact K1|]); [|exact I]. eapply H_one; [constructor | exact IH | exact HN | exact K2]. }
  assert (H_iv : forall l, Forall U_ovr l -> U_ovr (IDiv l)) by (intros l _ f ds h HN K; exact K).
  split; [|split]; [apply (spat_ind' U_pat U_con U_ovr) | apply (gcontent_ind' U_pat U_con U_ovr) | apply (icontent_ind' U_pat U_con U_ovr)]; auto.
  all: try (intros; intros f ds ov attr self HN K; cbn [fine] in *; first [exact K | eapply H_one; [| eassumption | exact HN | exact K]; constructor
    | destruct K as (K1 & K2); split; [exact K1|]; eapply H_one; [| eassumption | exact HN | exact K2]; constructor
    | destruct K as (K1 & K2 & K3); split; [exact K1|]; split; [exact K2|]; eapply H_one; [| eassumption | exact HN | exact K3]; constructor
    | destruct K as (K1 & K2); split; [eapply H_one; [| eassumption | exact HN | exact K1]; constructor | eapply H_one; [| eassumption | exact HN | exact K2]; constructor] ]; fail).
  all: intros; intros f ds x y; intros; assumption.
Qed.
Lemma file_upgrade f s : neat f (fun q => file_occurs q s) -> file_fine O C fs false f s -> file_fine O C fs true f s.
Proof.
  intros HN [K1 K2]. split; [exact K1|]. destruct s as [ds [p|l]]; cbn [s_top s_decls] in *.
  - assert (HN' : neat f (fun q => occurs_in q p)) by (eapply neat_sub; [|exact HN]; intros q Hq; constructor; exact Hq).
    destruct p; try (apply upgrade; assumption). apply contents_upgrade; [apply Forall_forall; intros; apply upgrade | | exact K2]. eapply neat_sub; [|exact HN']. intros q (g & A & B). eapply Oi_grammar; eassumption.
  - apply contents_upgrade; [apply Forall_forall; intros; apply upgrade | | exact K2]. eapply neat_sub; [|exact HN]. intros q (g & A & B). econstructor; eassumption.
Qed.
Theorem tidy_lawful_correct name : tidy fs name -> lawful O C fs name -> correct O C fs name.
Proof.
  intros (T1 & T2 & T3) (A1 & A2 & A3 & A4 & A5).
  assert (HN : forall m f s, Trail fs m name f -> fs f = inl s -> neat f (fun q => file_occurs q s)).
  { intros m f s HT Hs. split; [intros l g n Hq Hg Hn; eapply T1; eassumption | intros h f' ds l Hq Hr; eapply T2; eassumption]. }
  split; [exact A1|]. split; [exact A2|]. split; [|split].
  - intros s Es. apply file_upgrade; [eapply HN; [constructor | exact Es] | apply A3; exact Es].
  - intros m f s r h f' s' HT Es Hm Hr Es'. pose proof (A4 m f s r h f' s' HT Es Hm Hr Es') as K.
    assert (HN' : neat f' (fun q => file_occurs q s')) by (eapply HN; [eapply Trail_end; [exact HT | exists s, r, h; eauto] | exact Es']).
    destruct r; cbn [role_fine] in *; [apply file_upgrade; assumption|]. destruct s' as [sd [q|l]]; cbn [s_top s_decls] in *.
    + apply upgrade; [|exact K]. eapply neat_sub; [|exact HN']. intros x Hx. constructor; exact Hx.
    + exfalso. eapply T2; eassumption.
  - unfold top_fine in *. destruct (fs name) as [[ds [p|l]]|] eqn:Es; [| |exact A5].
    + destruct A5 as [F N]. split; [|intros k n K; exfalso; eapply T3; [reflexivity | exact K]]. apply upgrade; [|exact F]. eapply neat_sub; [|eapply HN; [constructor | exact Es]]. intros x Hx. constructor; exact Hx.
    + destruct A5 as [(x & E1 & E2 & E3 & E4) N]. split; [|exact N]. exists x. split; [exact E1|]. split; [exact E2|]. split; [exact E3|]. intros g n Hg Hn. split; [|intros _ K; contradiction K; reflexivity].
      intros _. apply (proj1 (E4 g n Hg Hn)). right. discriminate.
Qed.
Theorem compiles_iff_correct name : tidy fs name -> ((exists d r st, compile_grammar O C fs d name = fok (r, st)) <-> correct O C fs name).
Proof.
  intros HT. split.
  - intros (d & r & st & H). apply tidy_lawful_correct; [exact HT | eapply compiles_lawful; exact H].
  - intros H. destruct (correct_compiles O C fs Hfs name H) as (r & st & N & K). exists N, r, st. apply K, le_n.
Qed.
End Kept.
