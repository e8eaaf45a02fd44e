(** * LocatedProof: positions that fit do not change what the compiler does. *)
From Coq Require Import String.
From Verif Require Import Base Datatype Facets FacetAt Store Compile Syntax SchemaCompile Located.

Definition sim {A} (a b : fres rerror A) : Prop :=
  a = b \/ (exists e, b = ferr e /\ parent_error e /\ a = Panic PSubspan).
Definition simc {A} (m n : CM A) : Prop := forall st, sim (m st) (n st).

Lemma sim_refl {A} (a : fres rerror A) : sim a a. Proof. now left. Qed.
Lemma simc_refl {A} (m : CM A) : simc m m. Proof. intro. apply sim_refl. Qed.

Lemma sim_bind {A B} (m n : CM A) (f g : A -> CM B) st :
  sim (m st) (n st) -> (forall a st', n st = fok (a, st') -> sim (f a st') (g a st')) -> sim (cbind m f st) (cbind n g st).
Proof.
  unfold cbind. intros [E | (e & E & P & E')] F.
  - rewrite E. destruct (n st) as [[[a st']|e]|p|] eqn:N; try apply sim_refl. exact (F a st' eq_refl).
  - right. exists e. rewrite E, E'. auto.
Qed.
Lemma simc_bind {A B} (m n : CM A) (f g : A -> CM B) : simc m n -> (forall a, simc (f a) (g a)) -> simc (cbind m f) (cbind n g).
Proof. intros H F st. apply sim_bind; [apply H | intros; apply F]. Qed.
Lemma sim_map {A} (m n : CM A) st : sim (m st) (n st) -> sim (cmap_err EInclude m st) (cmap_err EInclude n st).
Proof.
  unfold cmap_err. intros [E | (e & E & P & E')].
  - rewrite E. apply sim_refl.
  - right. exists (EInclude e). rewrite E, E'. repeat split; constructor; auto.
Qed.
Lemma cbind_ok {A B} (m : CM A) (f : A -> CM B) st a st' : m st = fok (a, st') -> cbind m f st = f a st'.
Proof. unfold cbind. intros ->. reflexivity. Qed.
Lemma simc_citer {A B} (f : A -> CM unit) (g : B -> CM unit) (h : A -> B) l :
  Forall (fun x => simc (f x) (g (h x))) l -> simc (citer f l) (citer g (map h l)).
Proof.
  induction 1 as [|x l Hx Hl IH]; cbn; [apply simc_refl|]. apply simc_bind; auto.
Qed.

Section P.
Variable O : oracles.
Variable C : coracles.
Variable fs : lfilesys.
Variable flen : path -> N.

Definition fits (f : path) (l : list span) : Prop := forall a b, In (a, b) l -> (a <= b <= flen f)%N.
Definition exts (f : path) (l : list literal) : Prop :=
  forall h f' s', In h l -> resolve f (lit_value h) = Some f' -> fs f' = inl s' -> exists p, ls_top s' = LTPattern p.
Lemma fits_app f a b : fits f (a ++ b) -> fits f a /\ fits f b.
Proof. intros H; split; intros x y I; apply H; apply in_or_app; auto. Qed.
Lemma fits_cons f x l : fits f (x :: l) -> in_file flen f x = true /\ fits f l.
Proof.
  intros H; split.
  - destruct x as [a b]. assert (K := H a b (or_introl eq_refl)). unfold in_file. cbn.
    apply andb_true_iff. rewrite !N.leb_le. lia.
  - intros a b I. apply H. now right.
Qed.
Lemma fits_in f l a b : fits f l -> In (a, b) l -> in_file flen f (a, b) = true.
Proof. intros H I. specialize (H a b I). unfold in_file. cbn [fst snd]. apply andb_true_iff. rewrite !N.leb_le. exact H. Qed.
Lemma exts_app f a b : exts f (a ++ b) -> exts f a /\ exts f b.
Proof. intros H; split; intros x y z I; apply H; apply in_or_app; auto. Qed.

Lemma conv_id {A} c f sp (m : CM A) : file_of c = Some f -> in_file flen f sp = true -> conv flen c sp m = m.
Proof. unfold conv. intros -> ->. reflexivity. Qed.
Lemma conv_err_id {A} c f sp (m : CM A) st : file_of c = Some f -> in_file flen f sp = true -> conv_err flen c sp m st = m st.
Proof.
  unfold conv_err. intros F I. destruct (m st) as [[a|e]|p|]; try reflexivity. rewrite (conv_id c f sp _ F I). reflexivity.
Qed.
Lemma simc_conv {A} c f sp (m n : CM A) : file_of c = Some f -> in_file flen f sp = true -> simc m n -> simc (conv flen c sp m) n.
Proof. intros F I H. rewrite (conv_id c f sp m F I). exact H. Qed.
Lemma simc_conv_err {A} c f sp (m : CM A) : file_of c = Some f -> in_file flen f sp = true -> simc (conv_err flen c sp m) m.
Proof. intros F I st. rewrite (conv_err_id c f sp m st F I). apply sim_refl. Qed.
Lemma simc_conv_dt {A} c f at_ (x : fres dt_error A) : file_of c = Some f -> (forall e sp, at_ e = Some sp -> in_file flen f sp = true) -> simc (conv_dt flen c at_ x) (lift_dt x).
Proof.
  intros F I st. unfold conv_dt. destruct x as [[a|e]|p|]; try apply sim_refl. destruct (at_ e) as [sp|] eqn:E; [|apply sim_refl]. rewrite (conv_id c f sp _ F (I _ _ E)). apply sim_refl.
Qed.
Lemma zero_in f : in_file flen f (0, 0)%N = true.
Proof. unfold in_file. cbn [fst snd]. rewrite N.leb_refl. apply N.leb_le. lia. Qed.
Lemma library_in f n : (forall sp, In sp (dt_spans n) -> in_file flen f sp = true) -> in_file flen f (library_span n) = true.
Proof. intros H. destruct n; cbn [library_span]; try apply zero_in; apply H; cbn; auto. Qed.
Lemma type_in f n : (forall sp, In sp (dt_spans n) -> in_file flen f sp = true) -> in_file flen f (type_span n) = true.
Proof. intros H. destruct n; cbn [type_span]; try apply zero_in; apply H; cbn; auto. Qed.
Lemma value_in f n e sp : (forall m sp, n = Some m -> In sp (dt_spans m) -> in_file flen f sp = true) -> value_span n e = Some sp -> in_file flen f sp = true.
Proof. intros H E. destruct n as [n|]; [|discriminate E]. destruct e; cbn in E; try discriminate E; injection E as <-; first [apply library_in | apply type_in]; eauto. Qed.
Lemma data_in f n d ps e sp : (forall sp, In sp (dt_spans n ++ param_spans ps) -> in_file flen f sp = true) -> data_span O C n d ps e = Some sp -> in_file flen f sp = true.
Proof.
  intros H E. assert (H1 : forall sp, In sp (dt_spans n) -> in_file flen f sp = true) by (intros; apply H, in_or_app; auto).
  assert (K : forall k, option_map fst (nth_error (match ps with Some l => l | None => [] end) k) = Some sp -> in_file flen f sp = true).
  { intros k Ek. destruct ps as [l|]; [|destruct k; discriminate Ek]. destruct (nth_error l k) as [x|] eqn:En; [|discriminate Ek]. injection Ek as <-. apply H, in_or_app. right. apply in_map. eapply nth_error_In; exact En. }
  unfold data_span in E. destruct e as [s|s|fe|s| |s].
  - apply (K 0). rewrite <- E. destruct ps as [[|x l]|]; reflexivity.
  - injection E as <-. now apply type_in.
  - destruct fe; try discriminate E; (destruct (failing _ _ _ _) as [k|]; [exact (K k E) | discriminate E]).
  - injection E as <-. now apply type_in.
  - injection E as <-. now apply type_in.
  - destruct n; injection E as <-; try apply zero_in. apply H1. cbn. auto.
Qed.

Lemma nameclass_sim : forall n c el f, file_of c = Some f -> fits f (nc_spans n) -> simc (lcompile_nameclass flen c el n) (compile_nameclass c el (erase_nc n)).
Proof.
  fix IH 1. intros [nm sp|nm sp ex|ex|a b|a] c el f F S; cbn [nc_spans] in S.
  - cbn. destruct nm; try apply simc_refl. apply fits_cons in S as [S _].
    apply simc_bind; [eapply simc_conv_err; eauto | intros; apply simc_refl].
  - apply fits_cons in S as [S S']. cbn. apply simc_bind.
    + destruct ex as [e|]; [|apply simc_refl]. apply simc_bind; [eapply IH; eauto | intros; apply simc_refl].
    + intros e'. apply simc_bind; [|intros; apply simc_refl]. destruct nm; [eapply simc_conv_err; eauto | apply simc_refl].
  - cbn. apply simc_bind; [|intros; apply simc_refl].
    destruct ex as [e|]; [|apply simc_refl]. apply simc_bind; [eapply IH; eauto | intros; apply simc_refl].
  - apply fits_app in S as [S1 S2]. cbn. apply simc_bind; [eapply IH; eauto|]. intros. apply simc_bind; [eapply IH; eauto | intros; apply simc_refl].
  - cbn. eapply IH; eauto.
Qed.

(** every context has a file *)
Fixpoint rooted (c : ctx) : Prop :=
  match c with
  | XRoot _ _ _ _ => True
  | XInclude p _ _ _ _ => rooted p
  | XOverrides p => match p with XInclude q _ _ _ _ => rooted q | _ => False end
  | XGrammar p _ | XDefine p _ | XElement p | XAttribute p => rooted p
  end.
Lemma rooted_file : forall c, rooted c -> exists f, file_of c = Some f.
Proof.
  fix IH 1. intros c H. destruct c as [f t ns d|p f o ns d|p|p t|p i|p|p]; cbn in *; eauto.
  destruct p; try contradiction. apply IH. exact H.
Qed.
Lemma conv_err_sim {A} c sp e : rooted c -> parent_error e -> simc (conv flen c sp (cerr e) : CM A) (cerr e).
Proof.
  intros R P st. unfold conv. destruct (rooted_file c R) as [f ->].
  destruct (in_file flen f sp); [apply sim_refl|]. right. exists e. auto.
Qed.
Lemma recursion_sim sp i : forall c, rooted c -> simc (lcheck_ref_recursion flen c sp i) (check_ref_recursion c i).
Proof.
  induction c; cbn [lcheck_ref_recursion check_ref_recursion]; intros R; try apply simc_refl; auto.
  destruct (str_eqb id i) eqn:E; [|apply simc_refl]. apply conv_err_sim; auto. constructor.
Qed.
Lemma acquire_sim sp i c : rooted c -> simc (lacquire_ref flen c sp i) (acquire_ref c i).
Proof. intros R. unfold lacquire_ref, acquire_ref. apply simc_bind; [now apply recursion_sim | intros; apply simc_refl]. Qed.
Lemma rooted_parent : forall p, rooted (XOverrides p) -> rooted p.
Proof. intros p. destruct p; cbn; tauto. Qed.
Lemma parent_sim sp i : forall c, rooted c -> simc (lacquire_parent_ref flen c sp i) (acquire_parent_ref c i).
Proof.
  induction c; cbn [lacquire_parent_ref acquire_parent_ref]; intros R; auto using acquire_sim, rooted_parent.
  apply conv_err_sim; auto. constructor.
Qed.

Lemma declare_ns_ctx c p u st c' st' : declare_namespace c p u st = fok (c', st') -> file_of c' = file_of c /\ (rooted c -> rooted c') /\ is_include c' = is_include c.
Proof.
  unfold declare_namespace, cret, cpanic. destruct c; try discriminate.
  - destruct (assoc p ns); intros E; injection E as <- <-; cbn; auto.
  - destruct (assoc p ns); intros E; injection E as <- <-; cbn; auto.
Qed.
Lemma decls_ctx : forall l c st c' st', compile_declarations c l st = fok (c', st') -> file_of c' = file_of c /\ (rooted c -> rooted c').
Proof.
  induction l as [|d l IH]; intros c st c' st' E; cbn in E.
  - injection E as <- <-. auto.
  - unfold cbind in E. destruct (compile_declaration c d st) as [[[c1 s1]|]| |] eqn:D; try discriminate. cbn in E.
    apply IH in E as [E1 E2]. enough (file_of c1 = file_of c /\ (rooted c -> rooted c1)) by (destruct H; split; [congruence|auto]).
    destruct d as [p [|u]|[p|] [|u]|p u]; cbn in D; try discriminate.
    + apply declare_ns_ctx in D; tauto.
    + apply declare_ns_ctx in D; tauto.
    + injection D as <- <-. auto.
    + unfold declare_datatype, cret, cerr, cpanic in D. destruct c; try discriminate;
      destruct (assoc p dts); try discriminate; injection D as <- <-; cbn; auto.
Qed.

Section F.
Variable lrp : ctx -> lspat -> CM mpat.
Variable lri : ctx -> list lgcontent -> CM unit.
Variable rp : ctx -> spat -> CM mpat.
Variable ri : ctx -> list gcontent -> CM unit.
Hypothesis posok : positions_ok fs flen.
Hypothesis extok : externals_are_patterns fs.
Hypothesis Hp : forall c f p, file_of c = Some f -> rooted c -> fits f (pat_spans p) -> exts f (pat_externals p) -> simc (lrp c p) (rp c (erase_pat p)).
Hypothesis Hi : forall c f l, file_of c = Some f -> rooted c -> fits f (flat_map content_spans l) -> exts f (flat_map content_externals l) -> simc (lri c l) (ri c (map erase_content l)).

Lemma file_ok f s : fs f = inl s -> fits f (top_spans (ls_top s)) /\ exts f (top_externals (ls_top s)).
Proof.
  intros E. split.
  - intros a b I. exact (posok f s E a b I).
  - intros h f' s' I R E'. exact (extok f s h f' s' E I R E').
Qed.

Lemma get_sim f st :
  (exists s st', lget_schema fs f st = fok (s, st') /\ get_schema (erase_files fs) f st = fok (erase s, st') /\ fs f = inl s) \/
  (exists e, lget_schema fs f st = ferr e /\ get_schema (erase_files fs) f st = ferr e).
Proof.
  unfold lget_schema, get_schema, erase_files. destruct (fs f) as [s|e]; [left | right]; eauto.
Qed.

Lemma get_bind {B} g f st (k : lschema -> CM B) (k' : schema -> CM B) :
  (forall s st', fs f = inl s -> sim (k s st') (k' (erase s) st')) ->
  sim (cbind (cmap_err g (lget_schema fs f)) k st) (cbind (cmap_err g (get_schema (erase_files fs) f)) k' st).
Proof.
  intros H. unfold cbind, cmap_err. destruct (get_sim f st) as [(s & st2 & -> & -> & Fs)|(e & -> & ->)]; [|apply sim_refl]. exact (H s st2 Fs).
Qed.

Lemma schema_sim lcp lci cp ci c f s :
  file_of c = Some f -> rooted c -> fs f = inl s ->
  (forall c p, file_of c = Some f -> rooted c -> fits f (pat_spans p) -> exts f (pat_externals p) -> simc (lcp c p) (cp c (erase_pat p))) ->
  (forall c l, file_of c = Some f -> rooted c -> fits f (flat_map content_spans l) -> exts f (flat_map content_externals l) -> simc (lci c l) (ci c (map erase_content l))) ->
  simc (lcompile_schema_with lcp lci c s) (compile_schema_with cp ci c (erase s)).
Proof.
  intros F R E Cp Ci st. destruct (file_ok f s E) as [S X].
  unfold lcompile_schema_with, compile_schema_with. cbn [s_decls s_top erase].
  apply sim_bind; [apply sim_refl|]. intros c' st' D. apply decls_ctx in D as [F' R'].
  rewrite F in F'. specialize (R' R). destruct (ls_top s) as [p|l]; cbn [erase_top top_spans top_externals] in *.
  - destruct (is_include c') eqn:Inc.
    + destruct p; cbn [erase_pat]; try apply sim_refl. cbn [pat_spans pat_externals] in *. apply fits_cons in S as [_ S].
      apply sim_bind; [apply Ci; auto | intros; apply sim_refl].
    + apply sim_bind; [apply Cp; auto | intros; apply sim_refl].
  - apply sim_bind; [apply Ci; auto | intros; apply sim_refl].
Qed.

Lemma new_element_ctx c st c' st' : new_element c st = fok (c', st') -> c' = XElement c.
Proof. unfold new_element, cerr, cret. destruct (parent_attribute c); intros E; [discriminate | injection E as <- <-; reflexivity]. Qed.
Lemma new_include_ctx c f st c' st' : new_include c f st = fok (c', st') -> exists o, c' = XInclude c f o initial_ns initial_dts.
Proof.
  unfold new_include, cbind. destruct (check_include c f st) as [[[a s]|]| |]; try discriminate. cbn. intros E. injection E as <- <-. eauto.
Qed.
Lemma new_grammar_ctx c st c' st' : new_grammar c st = fok (c', st') -> exists t, c' = XGrammar c t.
Proof. unfold new_grammar, cbind. cbn. intros E. injection E as <- <-. eauto. Qed.
Lemma inherit_sim c f inc inh st : file_of c = Some f -> fits f (match inh with Some (isp, _) => [isp] | None => [] end) ->
  sim (linherit_prefix flen c inc inh st) (inherit_prefix c inc (option_map snd inh) st).
Proof.
  intros F S. destruct inh as [[sp i]|]; cbn; [|apply sim_refl]. destruct (namespace_uri c (ik_string i)); [apply sim_refl|].
  apply fits_cons in S as [S _]. rewrite (conv_id c f sp _ F S). apply sim_refl.
Qed.
Lemma path_from_ctx c f h st f' st' : file_of c = Some f -> path_from c h st = fok (f', st') -> resolve f (lit_value h) = Some f'.
Proof. unfold path_from. intros ->. destruct (resolve f (lit_value h)); [|discriminate]. unfold cret. intros E. injection E as <- <-. reflexivity. Qed.
Lemma inherit_inc c p f o ns d inh st inc' st' : inherit_prefix c (XInclude p f o ns d) inh st = fok (inc', st') -> exists ns', inc' = XInclude p f o ns' d.
Proof.
  destruct inh as [i|]; cbn.
  - destruct (namespace_uri c (ik_string i)); [|discriminate]. cbn. unfold cret. destruct (assoc (ik_string i) ns); intros E; injection E as <- <-; eauto.
  - intros E. injection E as <- <-. eauto.
Qed.

Ltac sub := first [ apply simc_refl | apply simc_bind; [ | intros ? ] ].
Lemma pattern_sim : forall p c f, file_of c = Some f -> rooted c -> fits f (pat_spans p) -> exts f (pat_externals p) ->
  simc (lcompile_pattern O C fs flen lrp lri c p) (compile_pattern O C (erase_files fs) rp ri c (erase_pat p))
with content_sim : forall g c f, file_of c = Some f -> rooted c -> fits f (content_spans g) -> exts f (content_externals g) ->
  simc (lcompile_content O C fs flen lrp lri c g) (compile_content O C (erase_files fs) rp ri c (erase_content g))
with override_sim : forall i c f, file_of c = Some f -> rooted c -> fits f (override_spans i) -> exts f (override_externals i) ->
  simc (lcompile_override O C fs flen lrp lri c i) (compile_override O C (erase_files fs) rp ri c (erase_override i)).
Proof.
  - intros p c f F R S X. destruct p; cbn [pat_spans pat_externals] in S, X; cbn [lcompile_pattern compile_pattern erase_pat].
    + (* element *) apply fits_cons in S as [S0 S]. apply fits_app in S as [S1 S2].
      apply simc_bind; [eapply nameclass_sim; eauto|]. intros n st.
      apply sim_bind; [rewrite (conv_id c f sp _ F S0); apply sim_refl|]. intros c' st' E. apply new_element_ctx in E as ->.
      revert st'. change (simc (do x <- lcompile_pattern O C fs flen lrp lri (XElement c) p; cret (MElement n x)) (do x <- compile_pattern O C (erase_files fs) rp ri (XElement c) (erase_pat p); cret (MElement n x))).
      sub; [eapply pattern_sim; cbn [file_of rooted]; eauto | sub].
    + (* attribute *) apply fits_cons in S as [S0 S]. apply fits_app in S as [S1 S2].
      apply simc_bind; [eapply nameclass_sim; eauto|]. intros n st.
      unfold cbind at 1. rewrite (conv_id c f sp _ F S0). cbn [cret fbind fok rbind].
      revert st. change (simc (do x <- lcompile_pattern O C fs flen lrp lri (XAttribute c) p; cret (MAttribute n x)) (do x <- compile_pattern O C (erase_files fs) rp ri (XAttribute c) (erase_pat p); cret (MAttribute n x))).
      sub; [eapply pattern_sim; cbn [file_of rooted]; eauto | sub].
    + sub; [eapply pattern_sim; cbn [file_of rooted]; eauto | sub].
    + sub; [eapply pattern_sim; cbn [file_of rooted]; eauto | sub].
    + apply fits_cons in S as [S _]. sub; [eapply simc_conv; eauto using acquire_sim | sub].
    + apply fits_cons in S as [S _]. sub; [eapply simc_conv; eauto using parent_sim | sub].
    + sub.
    + sub.
    + sub.
    + (* external *) destruct inherit; [sub|]. apply fits_cons in S as [S _]. intros st. apply sim_bind; [apply sim_refl|].
      intros f' st1 PF. apply (path_from_ctx c f) in PF; [|exact F]. rewrite (conv_id c f sp _ F S).
      apply get_bind. intros s st2 Fs.
      destruct (X href f' s (or_introl eq_refl) PF Fs) as [q Q]. rewrite Q. cbn [s_top erase]. rewrite Q. cbn [erase_top].
      apply sim_bind; [apply sim_refl|]. intros inc st3 NI. apply new_include_ctx in NI as [o ->].
      apply sim_map. destruct (file_ok f' s Fs) as [S' X']. rewrite Q in S', X'. eapply Hp; cbn [file_of rooted]; eauto.
    + (* grammar *) apply fits_cons in S as [S0 S]. intros st. apply sim_bind; [apply sim_refl|].
      intros g st' NG. apply new_grammar_ctx in NG as [t ->]. apply sim_bind.
      * revert st'. fold (simc (citer (lcompile_content O C fs flen lrp lri (XGrammar c t)) l) (citer (compile_content O C (erase_files fs) rp ri (XGrammar c t)) (map erase_content l))).
        apply simc_citer. clear S0. induction l as [|g l IHl]; constructor.
        -- cbn in S, X. apply fits_app in S as [S _]. apply exts_app in X as [X _]. eapply content_sim; cbn [file_of rooted]; eauto.
        -- cbn in S, X. apply fits_app in S as [_ S]. apply exts_app in X as [_ X]. auto.
      * intros. rewrite (conv_err_id c f sp _ _ F S0). apply sim_refl.
    + eapply pattern_sim; cbn [file_of rooted]; eauto.
    + apply fits_app in S as [S1 S2]. apply exts_app in X as [X1 X2]. sub; [eapply pattern_sim; cbn [file_of rooted]; eauto|]. sub; [eapply pattern_sim; cbn [file_of rooted]; eauto|sub].
    + apply fits_app in S as [S1 S2]. apply exts_app in X as [X1 X2]. sub; [eapply pattern_sim; cbn [file_of rooted]; eauto|]. sub; [eapply pattern_sim; cbn [file_of rooted]; eauto|sub].
    + apply fits_app in S as [S1 S2]. apply exts_app in X as [X1 X2]. sub; [eapply pattern_sim; cbn [file_of rooted]; eauto|]. sub; [eapply pattern_sim; cbn [file_of rooted]; eauto|sub].
    + sub; [eapply pattern_sim; cbn [file_of rooted]; eauto | sub].
    + sub; [eapply pattern_sim; cbn [file_of rooted]; eauto | sub].
    + sub; [eapply pattern_sim; cbn [file_of rooted]; eauto | sub].
    + assert (S1 : forall m sp, n = Some m -> In sp (dt_spans m) -> in_file flen f sp = true) by (intros m [a b] -> Hm; exact (fits_in _ _ _ _ S Hm)).
      sub; [destruct n as [n|]; cbn [option_map]; [eapply simc_conv_err; [eassumption | apply library_in; eauto] | sub]|]. sub; [eapply simc_conv_dt; eauto using value_in | sub].
    + assert (S1 : forall sp, In sp (dt_spans n ++ param_spans ps) -> in_file flen f sp = true) by (intros [a b] Hm; rewrite app_assoc in S; exact (fits_in _ _ _ _ (proj1 (fits_app _ _ _ S)) Hm)).
      rewrite app_assoc in S. apply fits_app in S as [_ S'].
      sub; [eapply simc_conv_err; [eassumption | apply library_in; intros; apply S1, in_or_app; auto]|]. sub; [eapply simc_conv_dt; eauto using data_in|].
      sub; [|sub]. destruct ex as [e|]; [|sub]. sub; [eapply pattern_sim; cbn [file_of rooted]; eauto|sub].
  - intros g c f F R S X. destruct g; cbn [content_spans content_externals] in S, X; cbn [lcompile_content compile_content erase_content].
    + apply fits_cons in S as [S0 S]. apply simc_bind; [eapply pattern_sim; cbn [file_of rooted]; eauto|]. intros x. eapply simc_conv; eauto. sub.
    + apply simc_citer. induction l as [|g l IHl]; constructor.
      * cbn in S, X. apply fits_app in S as [S _]. apply exts_app in X as [X _]. eapply content_sim; cbn [file_of rooted]; eauto.
      * cbn in S, X. apply fits_app in S as [_ S]. apply exts_app in X as [_ X]. auto.
    + apply fits_cons in S as [S0 S]. apply fits_app in S as [S1 S2].
      intros st. apply sim_bind; [apply sim_refl|].
      intros f' st1 PF. rewrite (conv_id c f sp _ F S0).
      apply get_bind. intros s st2 Fs.
      apply sim_bind; [apply sim_refl|]. intros inc st3 NI. apply new_include_ctx in NI as [o ->].
      apply sim_bind; [eapply inherit_sim; eauto|]. intros inc st4 IN. apply inherit_inc in IN as [ns' ->].
      apply sim_bind.
      * destruct ov as [l|]; [|apply sim_refl]. revert st4. 
        match goal with |- forall st4, sim (?a st4) (?b st4) => change (simc a b) end.
        apply simc_citer. clear S0 S1. induction l as [|g l IHl]; constructor.
        -- cbn in S2, X. apply fits_app in S2 as [S2 _]. apply exts_app in X as [X _]. intros st0. apply sim_map. eapply override_sim; cbn [file_of rooted]; eauto.
        -- cbn in S2, X. apply fits_app in S2 as [_ S2]. apply exts_app in X as [_ X]. auto.
      * intros ? st5 _. apply sim_bind; [|intros; apply sim_refl]. apply sim_map. eapply schema_sim; cbn [file_of rooted]; eauto.
    + sub.
  - intros i c f F R S X. destruct i; cbn [override_spans override_externals] in S, X; cbn [lcompile_override compile_override erase_override].
    + apply fits_cons in S as [S0 S]. apply simc_bind; [eapply pattern_sim; cbn [file_of rooted]; eauto|]. intros x. eapply simc_conv; eauto. sub.
    + sub.
    + sub.
Qed.
End F.

Lemma nested_sim (posok : positions_ok fs flen) (extok : externals_are_patterns fs) : forall d,
  (forall c f p, file_of c = Some f -> rooted c -> fits f (pat_spans p) -> exts f (pat_externals p) -> simc (fst (lnested O C fs flen d) c p) (fst (nested O C (erase_files fs) d) c (erase_pat p))) /\
  (forall c f l, file_of c = Some f -> rooted c -> fits f (flat_map content_spans l) -> exts f (flat_map content_externals l) -> simc (snd (lnested O C fs flen d) c l) (snd (nested O C (erase_files fs) d) c (map erase_content l))).
Proof.
  induction d as [|d [IHp IHi]]; cbn.
  - split; intros; apply simc_refl.
  - destruct (lnested O C fs flen d) as [lrp lri], (nested O C (erase_files fs) d) as [rp ri]. cbn in *. split.
    + intros c f p F R S X. eapply pattern_sim; cbn [file_of rooted]; eauto.
    + intros c f l F R S X. apply simc_citer. induction l as [|g l IHl]; constructor.
      * cbn in S, X. apply fits_app in S as [S _]. apply exts_app in X as [X _]. eapply content_sim; cbn [file_of rooted]; eauto.
      * cbn in S, X. apply fits_app in S as [_ S]. apply exts_app in X as [_ X]. auto.
Qed.

Theorem located_sim d name : positions_ok fs flen -> externals_are_patterns fs ->
  sim (lcompile_grammar O C fs flen d name) (compile_grammar O C (erase_files fs) d name).
Proof.
  intros Po Ex. destruct (nested_sim Po Ex d) as [Hp Hi]. unfold lcompile_grammar, compile_grammar.
  destruct (get_sim name empty_cst) as [(s & st2 & E1 & E2 & Fs)|(e & E1 & E2)];
    [|left; unfold cbind; rewrite E1, E2; reflexivity].
  rewrite (cbind_ok _ _ _ _ _ E1), (cbind_ok _ _ _ _ _ E2). clear E1 E2. destruct (lnested O C fs flen d) as [lrp lri], (nested O C (erase_files fs) d) as [rp ri]. cbn [fst snd] in Hp, Hi.
  apply sim_bind; [apply sim_refl|]. intros c st3 NR.
  assert (exists t, c = XRoot name t initial_ns initial_dts) as [t ->] by (unfold new_root, cbind in NR; cbn in NR; injection NR as <- <-; eauto).
  apply sim_bind; [|intros; apply sim_refl].
  apply (schema_sim Po Ex _ _ _ _ (XRoot name t initial_ns initial_dts) name s eq_refl Logic.I Fs).
  - intros c p F R S X. eapply pattern_sim; cbn [file_of rooted]; eauto.
  - intros c l F R S X. apply simc_citer. induction l as [|g l IHl]; constructor.
    + cbn in S, X. apply fits_app in S as [S _]. apply exts_app in X as [X _]. eapply content_sim; cbn [file_of rooted]; eauto.
    + cbn in S, X. apply fits_app in S as [_ S]. apply exts_app in X as [_ X]. auto.
Qed.
End P.

Theorem positions_harmless : forall O C fs flen, positions_ok fs flen -> externals_are_patterns fs -> forall d name,
  lcompile_grammar O C fs flen d name = compile_grammar O C (erase_files fs) d name \/
  (lcompile_grammar O C fs flen d name = Panic PSubspan /\ exists e, compile_grammar O C (erase_files fs) d name = ferr e /\ parent_error e).
Proof.
  intros O C fs flen Po Ex d name. destruct (located_sim O C fs flen d name Po Ex) as [E|(e & E & P & E')]; [left; exact E | right; eauto].
Qed.
