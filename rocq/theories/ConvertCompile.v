(** * ConvertCompile: a converted schema compiles to the same as the schema. *)
From Coq Require Import String.
From Verif Require Import Base Datatype Facets Store Lang Compile Syntax SchemaCompile SourceSpec SourceCompile XmlSyntax Convert ConvertRead.
Local Open Scope cm_scope.

Definition eqm {A} (m' m : CM A) : Prop := forall st, m' st = m st.
Lemma eqm_refl {A} (m : CM A) : eqm m m. Proof. intros st. reflexivity. Qed.
Lemma eqm_bind {A B} (m' m : CM A) (k' k : A -> CM B) : eqm m' m -> (forall a, eqm (k' a) (k a)) -> eqm (cbind m' k') (cbind m k).
Proof. intros H K st. unfold cbind. rewrite H. destruct (m st) as [[[a st1]|e]|p|]; try reflexivity. apply K. Qed.
Lemma eqm_cmap {A} g (m' m : CM A) : eqm m' m -> eqm (cmap_err g m') (cmap_err g m).
Proof. intros H st. unfold cmap_err. rewrite H. reflexivity. Qed.
Lemma eqm_trans {A} (a b c : CM A) : eqm a b -> eqm b c -> eqm a c.
Proof. intros H K st. rewrite H. apply K. Qed.
Lemma bind_ret {A B} (a : A) (k : A -> CM B) : eqm (cbind (cret a) k) (k a).
Proof. intros st. reflexivity. Qed.
Lemma citer_app {X} (f : X -> CM unit) a b : eqm (citer f (a ++ b)) (run citer f a; citer f b).
Proof.
  induction a as [|x a IH]; [intros st; reflexivity|]. cbn [app citer]. intros st. unfold cbind. destruct (f x st) as [[[u st1]|e]|p|]; try reflexivity. apply IH.
Qed.
Lemma citer_flat {X Y} (f' : Y -> CM unit) (f : X -> CM unit) (t : X -> list Y) l : Forall (fun x => eqm (citer f' (t x)) (f x)) l -> eqm (citer f' (flat_map t l)) (citer f l).
Proof.
  induction 1 as [|x l Hx _ IH]; [apply eqm_refl|]. cbn [flat_map citer]. eapply eqm_trans; [apply citer_app|]. apply eqm_bind; [exact Hx | intros _; exact IH].
Qed.
Lemma citer_one {X} (f : X -> CM unit) x : eqm (citer f [x]) (f x).
Proof. intros st. cbn [citer]. unfold cbind. destruct (f x st) as [[[[] st1]|e]|p|]; reflexivity. Qed.

(** ** contexts without declarations *)
Fixpoint strip (c : ctx) : ctx :=
  match c with
  | XRoot f t _ _ => XRoot f t initial_ns initial_dts
  | XInclude p f o _ _ => XInclude (strip p) f o initial_ns initial_dts
  | XOverrides p => XOverrides (strip p)
  | XGrammar p t => XGrammar (strip p) t
  | XDefine p i => XDefine (strip p) i
  | XElement p => XElement (strip p)
  | XAttribute p => XAttribute (strip p)
  end.
Lemma s_check c f : check_include (strip c) f = check_include c f.
Proof. induction c; cbn; try assumption; try reflexivity. rewrite IHc. reflexivity. Qed.
Lemma s_att c : parent_attribute (strip c) = parent_attribute c.
Proof. induction c; cbn; auto. Qed.
Lemma s_file c : file_of (strip c) = file_of c.
Proof.
  assert (H : forall n c, (forall d, (exists f o ns dt, c = XInclude d f o ns dt) -> file_of (strip d) = file_of d) -> n = 0 -> True) by auto. clear H.
  revert c. fix IH 1. intros [f t ns d|p f o ns d|p|p t|p i|p|p]; cbn [strip file_of]; try reflexivity; try apply IH.
  destruct p as [f t ns d|q f o ns d|q|q t|q i|q|q]; cbn [strip]; try reflexivity. apply IH.
Qed.
Lemma s_impl c i : acquire_ref_impl (strip c) i = acquire_ref_impl c i.
Proof. induction c; cbn; auto. Qed.
Lemma s_rec c i : check_ref_recursion (strip c) i = check_ref_recursion c i.
Proof. induction c; cbn; auto. Qed.
Lemma s_acquire c i : acquire_ref (strip c) i = acquire_ref c i.
Proof. unfold acquire_ref. rewrite s_impl, s_rec. reflexivity. Qed.
Lemma s_parent c i : acquire_parent_ref (strip c) i = acquire_parent_ref c i.
Proof. induction c; cbn; auto. apply s_acquire. Qed.
Lemma s_define : forall c i r, eqm (define (strip c) i r) (define c i r).
Proof.
  fix IH 1. intros [f t ns d|p f o ns d|p|p t|p j|p|p] i r; cbn [strip define]; try apply eqm_refl.
  - apply eqm_bind; [apply eqm_refl|]. intros [b|]; [apply eqm_refl | apply IH].
  - destruct p as [f t ns d|q f o ns d|q|q t|q j|q|q]; cbn [strip]; try apply eqm_refl.
    apply eqm_bind; [apply eqm_refl|]. intros [b|]; [apply eqm_refl|]. apply eqm_bind; [apply eqm_refl | intros _; apply IH].
Qed.
Lemma s_default c : default_namespace_uri c = [].
Proof. induction c; cbn; auto. Qed.
Lemma s_path c h h' : lit_value h' = lit_value h -> path_from (strip c) h' = path_from c h.
Proof. unfold path_from. rewrite s_file. intros ->. reflexivity. Qed.
Lemma s_over c : check_overrides (strip c) = check_overrides c.
Proof. destruct c; reflexivity. Qed.
Lemma s_include c : is_include (strip c) = is_include c.
Proof. destruct c; reflexivity. Qed.
Lemma s_table c : table_of (strip c) = table_of c.
Proof. destruct c; reflexivity. Qed.
Lemma s_element {A} c (k' k : ctx -> CM A) : eqm (k' (XElement (strip c))) (k (XElement c)) -> eqm (cbind (new_element (strip c)) k') (cbind (new_element c) k).
Proof. intros H. unfold new_element. rewrite s_att. destruct (parent_attribute c); [intros st; reflexivity|]. intros st. exact (H st). Qed.
Lemma s_grammar {A} c (k' k : ctx -> CM A) : (forall t, eqm (k' (XGrammar (strip c) t)) (k (XGrammar c t))) -> eqm (cbind (new_grammar (strip c)) k') (cbind (new_grammar c) k).
Proof. intros H st. exact (H _ _). Qed.
Lemma s_new_include {A} c f (k' k : ctx -> CM A) : (forall o, eqm (k' (XInclude (strip c) f o initial_ns initial_dts)) (k (XInclude c f o initial_ns initial_dts))) ->
  eqm (cbind (new_include (strip c) f) k') (cbind (new_include c f) k).
Proof.
  intros H st. unfold new_include. rewrite s_check. unfold cbind. destruct (check_include c f st) as [[[u st1]|e]|p|]; try reflexivity. exact (H _ _).
Qed.

(** ** prefixes *)
Lemma prefix_assoc p l : prefix_of p l = assoc p l.
Proof.
  induction l as [|[q u] l IH]; [reflexivity|]. cbn. rewrite IH. destruct (str_eqb p q) eqn:E1, (str_eqb q p) eqn:E2; try reflexivity.
  - apply str_eqb_eq in E1. subst. rewrite str_eqb_refl in E2. discriminate E2.
  - apply str_eqb_eq in E2. subst. rewrite str_eqb_refl in E1. discriminate E1.
Qed.
Record agree (c : ctx) (e : env) (np dp : str -> Prop) : Prop := {
  ag_ns : forall p, np p -> namespace_uri c p = Some (ns_of e p);
  ag_dt : forall p, dp p -> datatype_uri c p = Some (lib_of e p);
  ag_xml : namespace_uri c (lit "xml") = Some xml_uri;
  ag_xsd : datatype_uri c (lit "xsd") = Some xsd_uri;
  ag_def : e_default e = [];
  ag_exml : ns_of e (lit "xml") = xml_uri }.
Lemma agree_up c e np dp : agree c e np dp ->
  agree (XElement c) e np dp /\ agree (XAttribute c) e np dp /\ (forall i, agree (XDefine c i) e np dp) /\ (forall t, agree (XGrammar c t) e np dp).
Proof. intros [H1 H2 H3 H4 H5 H6]. repeat split; assumption. Qed.
Lemma agree_over c e np dp f o : agree c e np dp -> agree (XOverrides (XInclude c f o initial_ns initial_dts)) e (fun p => p = lit "xml") dp.
Proof.
  intros [H1 H2 H3 H4 H5 H6]. split; auto.
  - intros p ->. rewrite H6. reflexivity.
  - intros p Hp. cbn [datatype_uri]. specialize (H2 p Hp). unfold initial_dts. cbn [assoc]. destruct (str_eqb (lit "xsd") p) eqn:E; [|exact H2].
    apply str_eqb_eq in E. subst p. rewrite H4 in H2. exact H2.
Qed.
Lemma compile_nc c e np dp el n : agree c e np dp -> forall exc, fit_nc np exc n -> eqm (compile_nameclass (strip c) el (t_nc e el n)) (compile_nameclass c el n).
Proof.
  intros Ha. induction n as [n|n ex IH|ex IH|a IHa b IHb|a IH] using snc_ind'; intros exc F; cbn [t_nc fit_nc] in *.
  - destruct n as [i|p l|u l]; cbn [t_name compile_nameclass].
    + rewrite s_default, (ag_def _ _ _ _ Ha). destruct el; apply eqm_refl.
    + unfold namespace_uri_for_prefix. rewrite (ag_ns _ _ _ _ Ha p (proj1 F)). intros st. cbn. rewrite app_nil_r. reflexivity.
    + intros st. cbn. rewrite app_nil_r. reflexivity.
  - cbn [compile_nameclass]. destruct F as [F1 F2]. apply eqm_bind.
    + destruct ex as [x|]; [|apply eqm_refl]. apply eqm_bind; [exact (IH true F2) | intros; apply eqm_refl].
    + intros x. apply eqm_bind; [|intros; apply eqm_refl]. destruct n as [p|u]; cbn [x_space].
      * unfold namespace_uri_for_prefix. rewrite (ag_ns _ _ _ _ Ha p F1). intros st. cbn. rewrite app_nil_r. reflexivity.
      * intros st. cbn. rewrite app_nil_r. reflexivity.
  - cbn [compile_nameclass]. destruct F as [F1 F2]. apply eqm_bind; [|intros; apply eqm_refl].
    destruct ex as [x|]; [|apply eqm_refl]. apply eqm_bind; [exact (IH true F2) | intros; apply eqm_refl].
  - cbn [compile_nameclass]. destruct F as [F1 F2]. apply eqm_bind; [exact (IHa exc F1)|]. intros x. apply eqm_bind; [exact (IHb exc F2) | intros; apply eqm_refl].
  - cbn [compile_nameclass]. exact (IH exc F).
Qed.
Lemma compile_type U O C c e np dp n : agree c e np dp -> fit_type U e dp n -> exists d d', compile_dtname c n = cret d /\ compile_dtname (strip c) (t_type e n) = cret d' /\
  (forall v, Facets.datatype_value d' v = Facets.datatype_value d v) /\
  (~ (snd (type_of e n) = lit "token" /\ fst (type_of e n) <> []) -> exists d2, compile_dtname (strip c) (t_data e n) = cret d2 /\ forall ps, Facets.datatype_name O C d2 ps = Facets.datatype_name O C d ps).
Proof.
  intros Ha (F1 & F2 & F3). unfold t_type, t_data. destruct n as [| |p l|u l]; cbn [type_of fst snd] in *.
  - exists DnString, (DnCName [] (lit "string")). split; [reflexivity|]. split; [reflexivity|]. split; [intros v; reflexivity|]. intros _. exists (DnCName [] (lit "string")). split; [reflexivity|]. intros ps; destruct ps as [|[k v] ps]; reflexivity.
  - exists DnToken, (DnCName [] (lit "token")). split; [reflexivity|]. split; [reflexivity|]. split; [intros v; reflexivity|]. intros _. exists DnToken. split; [reflexivity|]. reflexivity.
  - exists (DnCName (lib_of e p) l), (DnCName (lib_of e p) l). cbn [compile_dtname]. unfold try_datatype_uri. rewrite (ag_dt _ _ _ _ Ha p F1).
    split; [reflexivity|]. split; [cbn; rewrite app_nil_r; reflexivity|]. split; [reflexivity|]. intros Ht. destruct (str_eqb l (lit "token")) eqn:E.
    + apply str_eqb_eq in E. subst l. exists DnToken. split; [reflexivity|]. destruct (lib_of e p) as [|c0 r0]; [|exfalso; apply Ht; split; [reflexivity | discriminate]]. intros ps; destruct ps as [|[k v] ps]; reflexivity.
    + exists (DnCName (lib_of e p) l). split; [cbn; rewrite app_nil_r; reflexivity | reflexivity].
  - exists (DnCName (lit_value u) l), (DnCName (lit_value u) l). cbn [compile_dtname].
    split; [reflexivity|]. split; [cbn; rewrite app_nil_r; reflexivity|]. split; [reflexivity|]. intros Ht. destruct (str_eqb l (lit "token")) eqn:E.
    + apply str_eqb_eq in E. subst l. exists DnToken. split; [reflexivity|]. destruct (lit_value u) as [|c0 r0]; [|exfalso; apply Ht; split; [reflexivity | discriminate]]. intros ps; destruct ps as [|[k v] ps]; reflexivity.
    + exists (DnCName (lit_value u) l). split; [cbn; rewrite app_nil_r; reflexivity | reflexivity].
Qed.
Lemma t_params ps : param_values (Some (map t_param (params_of ps))) = param_values ps.
Proof.
  destruct ps as [l|]; [|reflexivity]. cbn [params_of param_values]. rewrite map_map. apply map_ext. intros [[i k] v]. cbn. rewrite app_nil_r. reflexivity.
Qed.

(** ** declarations *)
Lemma assoc_app' {A} p (a b : list (str * A)) : assoc p (a ++ b) = match assoc p a with Some x => Some x | None => assoc p b end.
Proof. induction a as [|[q u] a IH]; [reflexivity|]. cbn. destruct (str_eqb q p); auto. Qed.
Lemma assoc_not {A} p (l : list (str * A)) : ~ In p (map fst l) -> assoc p l = None.
Proof. induction l as [|[q u] l IH]; [reflexivity|]. cbn. intros H. destruct (str_eqb q p) eqn:E; [apply str_eqb_eq in E; tauto | apply IH; tauto]. Qed.
Lemma decls_run ds : Forall (fun d => match d with DNamespace _ u | DDefault (Some _) u => u <> UInherit | DDefault None u => u <> UInherit | _ => True end) ds ->
  forall c, declares c -> NoDup (map fst (own_dt c ++ flat_map decl_lib ds)) -> exists ns, (forall st, compile_declarations c ds st = fok (with_decls c ns (own_dt c ++ flat_map decl_lib ds), st)) /\
    forall p, assoc p ns = assoc p (own_ns c ++ flat_map decl_ns ds).
Proof.
  induction 1 as [|d ds Hd _ IH]; intros c Dc N.
  - exists (own_ns c). cbn [flat_map]. rewrite !app_nil_r. rewrite with_self by exact Dc. split; reflexivity.
  - assert (K : forall p u, exists ns1, (forall st, declare_namespace c p u st = fok (with_decls c ns1 (own_dt c), st)) /\ forall q, assoc q ns1 = assoc q (own_ns c ++ [(p, u)])).
    { intros p u. destruct c as [f t ns dt|q f o ns dt| | | | |]; destruct Dc; cbn [declare_namespace own_ns own_dt with_decls]; destruct (assoc p ns) as [v|] eqn:E.
      1,3: exists ns; split; [reflexivity|]; intros q0; rewrite assoc_app'; cbn [assoc]; destruct (str_eqb p q0) eqn:E1; [apply str_eqb_eq in E1; subst q0; rewrite E; reflexivity | destruct (assoc q0 ns); reflexivity].
      all: exists (ns ++ [(p, u)]); split; reflexivity. }
    assert (K2 : forall p u, flat_map decl_lib (d :: ds) = flat_map decl_lib ds -> flat_map decl_ns (d :: ds) = (p, u) :: flat_map decl_ns ds -> (forall st, compile_declaration c d st = declare_namespace c p u st) ->
       exists ns, (forall st, compile_declarations c (d :: ds) st = fok (with_decls c ns (own_dt c ++ flat_map decl_lib (d :: ds)), st)) /\ forall q, assoc q ns = assoc q (own_ns c ++ flat_map decl_ns (d :: ds))).
    { intros p u E1 E2 E3. destruct (K p u) as (ns1 & H1 & H2). rewrite E1 in *. rewrite E2.
      assert (Dc' : declares (with_decls c ns1 (own_dt c))) by (apply with_declares; exact Dc).
      assert (E4 : own_dt (with_decls c ns1 (own_dt c)) = own_dt c /\ own_ns (with_decls c ns1 (own_dt c)) = ns1) by (destruct c; destruct Dc; split; reflexivity).
      destruct E4 as [E4 E5]. destruct (IH _ Dc') as (ns & H3 & H4); [rewrite E4; exact N|]. rewrite E4 in H3. rewrite E5 in H4. exists ns. split.
      - intros st. cbn [compile_declarations]. unfold cbind. rewrite E3, H1. cbn. rewrite H3, with_twice. reflexivity.
      - intros q. rewrite H4, !assoc_app', H2, assoc_app'. cbn [assoc]. destruct (assoc q (own_ns c)); [reflexivity|]. destruct (str_eqb p q); reflexivity. }
    destruct d as [p [|u]|[p|] [|u]|p u]; try congruence.
    + apply (K2 p (lit_value u)); reflexivity.
    + apply (K2 p (lit_value u)); reflexivity.
    + destruct (IH c Dc N) as (ns & H1 & H2). exists ns. split; [|exact H2]. intros st. cbn [compile_declarations]. unfold cbind. cbn. apply H1.
    + cbn [flat_map decl_lib decl_ns app] in *. assert (Hn : assoc p (own_dt c) = None).
      { apply assoc_not. rewrite map_app in N. apply NoDup_remove_2 in N. rewrite in_app_iff in N. tauto. }
      assert (E1 : forall st, compile_declaration c (DDatatypes p u) st = fok (with_decls c (own_ns c) (own_dt c ++ [(p, lit_value u)]), st)).
      { intros st. cbn [compile_declaration]. destruct c; destruct Dc; cbn [declare_datatype own_dt] in *; rewrite Hn; reflexivity. }
      set (c1 := with_decls c (own_ns c) (own_dt c ++ [(p, lit_value u)])). assert (Dc' : declares c1) by (apply with_declares; exact Dc).
      assert (E4 : own_dt c1 = own_dt c ++ [(p, lit_value u)] /\ own_ns c1 = own_ns c) by (unfold c1; destruct c; destruct Dc; split; reflexivity). destruct E4 as [E4 E5].
      destruct (IH c1 Dc') as (ns & H1 & H2); [rewrite E4, <- app_assoc; exact N|]. rewrite E4, <- app_assoc in H1. rewrite E5 in H2. exists ns. split; [|exact H2].
      intros st. cbn [compile_declarations]. unfold cbind. rewrite E1. cbn [fbind rbind]. fold c1. change (compile_declarations c1 ds st = fok (with_decls c ns (own_dt c ++ [(p, lit_value u)] ++ flat_map decl_lib ds), st)).
      rewrite H1. unfold c1. rewrite with_twice. reflexivity.
Qed.
Lemma fresh_agree c ds ns : declares c -> own_ns c = initial_ns -> own_dt c = initial_dts -> fit_decls ds -> (forall p, assoc p ns = assoc p (own_ns c ++ flat_map decl_ns ds)) ->
  agree (with_decls c ns (own_dt c ++ flat_map decl_lib ds)) (env_of ds) (in_list (e_ns (env_of ds))) (in_list (e_lib (env_of ds))).
Proof.
  intros Dc E1 E2 (_ & F2 & _) Hn. rewrite E1 in Hn. rewrite E2.
  assert (K1 : forall p, namespace_uri (with_decls c ns (initial_dts ++ flat_map decl_lib ds)) p = assoc p (e_ns (env_of ds))) by (intros p; destruct c; destruct Dc; cbn [with_decls namespace_uri]; rewrite Hn; reflexivity).
  assert (K2 : forall p u, assoc p (e_lib (env_of ds)) = Some u -> datatype_uri (with_decls c ns (initial_dts ++ flat_map decl_lib ds)) p = Some u).
  { intros p u H. destruct c; destruct Dc; cbn [with_decls datatype_uri]; change (initial_dts ++ flat_map decl_lib ds) with (e_lib (env_of ds)); rewrite H; reflexivity. }
  split.
  - intros p Hp. rewrite K1. unfold in_list in Hp. unfold ns_of. rewrite prefix_assoc in *. destruct (assoc p _); [reflexivity | congruence].
  - intros p Hp. unfold in_list in Hp. unfold lib_of. rewrite prefix_assoc in *. destruct (assoc p _) as [u|] eqn:E; [|congruence]. apply K2 in E. exact E.
  - rewrite K1. reflexivity.
  - apply K2. reflexivity.
  - exact F2.
  - reflexivity.
Qed.
Lemma strip_with c ns d : strip (with_decls c ns d) = strip c.
Proof. destruct c; reflexivity. Qed.

(** ** compilation *)
Section Compile.
Variable U : str -> bool.
Variable O : oracles.
Variable C : coracles.
Variable fs : filesys.
Hypothesis HF : convertible U fs.
Variable fs' : filesys.
Hypothesis HF' : forall f, fs' f = match fs f with inl s => inl (t_schema s) | inr x => inr x end.
Notation Ext := (without_decls fs).
Definition eqc (m' m : CM ctx) : Prop := forall st, m' st = match m st with Ok (inl (c, st')) => Ok (inl (strip c, st')) | Ok (inr e) => Ok (inr e) | Panic p => Panic p | OutOfFuel => OutOfFuel end.
Lemma eqc_bind {A} (m' m : CM ctx) (k' k : ctx -> CM A) : eqc m' m -> (forall c, eqm (k' (strip c)) (k c)) -> eqm (cbind m' k') (cbind m k).
Proof. intros H K st. unfold cbind. rewrite H. destruct (m st) as [[[c st1]|e]|p|]; try reflexivity. apply K. Qed.
Lemma eqc_cmap g m' m : eqc m' m -> eqc (cmap_err g m') (cmap_err g m).
Proof. intros H st. unfold cmap_err. rewrite H. destruct (m st) as [[[c st1]|e]|p|]; reflexivity. Qed.
Lemma get_bind {A} f (k' k : schema -> CM A) g : (forall s, fs f = inl s -> eqm (k' (t_schema s)) (k s)) -> eqm (cbind (cmap_err g (get_schema fs' f)) k') (cbind (cmap_err g (get_schema fs f)) k).
Proof. intros H st. unfold cbind, cmap_err, get_schema. rewrite HF'. destruct (fs f) as [s|x] eqn:E; [|reflexivity]. cbn. apply H. reflexivity. Qed.
Lemma get_bind0 {A} f (k' k : schema -> CM A) : (forall s, fs f = inl s -> eqm (k' (t_schema s)) (k s)) -> eqm (cbind (get_schema fs' f) k') (cbind (get_schema fs f) k).
Proof. intros H st. unfold cbind, get_schema. rewrite HF'. destruct (fs f) as [s|x] eqn:E; [|reflexivity]. cbn. apply H. reflexivity. Qed.
Lemma root_bind {A} f (k' k : ctx -> CM A) : (forall t, eqm (k' (XRoot f t initial_ns initial_dts)) (k (XRoot f t initial_ns initial_dts))) -> eqm (cbind (new_root f) k') (cbind (new_root f) k).
Proof. intros H st. exact (H _ _). Qed.
Section Rec.
Variables (rp' rp : ctx -> spat -> CM mpat) (ri' ri : ctx -> list gcontent -> CM unit).
Hypothesis Hp : forall e np dp p c, fit_pat U Ext e np dp p -> agree c e np dp -> eqm (rp' (strip c) (t_pat e p)) (rp c p).
Hypothesis Hi : forall e np dp l c, all (fit_con U Ext e np dp) l -> agree c e np dp -> eqm (ri' (strip c) (flat_map (t_con e) l)) (ri c l).
Notation P' := (compile_pattern O C fs' rp' ri').
Notation P := (compile_pattern O C fs rp ri).
Notation G' := (compile_content O C fs' rp' ri').
Notation G := (compile_content O C fs rp ri).
Notation V' := (compile_override O C fs' rp' ri').
Notation V := (compile_override O C fs rp ri).
Lemma agree_fresh c f o s : fs f = inl s -> s_decls s = [] -> agree (XInclude c f o initial_ns initial_dts) (env_of (s_decls s)) (in_list (e_ns (env_of (s_decls s)))) (in_list (e_lib (env_of (s_decls s)))).
Proof.
  intros Hf E. destruct (HF f s Hf) as [Fd _]. rewrite E in *. apply (fresh_agree (XInclude c f o initial_ns initial_dts) [] initial_ns I eq_refl eq_refl Fd). intros p. cbn. rewrite ?app_nil_r. reflexivity.
Qed.
Lemma in_one p q u : in_list [(q, u)] p -> p = q.
Proof. unfold in_list. cbn [prefix_of]. destruct (str_eqb p q) eqn:E; [intros _; apply str_eqb_eq; exact E | congruence]. Qed.
Lemma agree_outer c e np dp s : agree c e np dp -> s_decls s = [] -> agree c (env_of (s_decls s)) (in_list (e_ns (env_of (s_decls s)))) (in_list (e_lib (env_of (s_decls s)))).
Proof.
  intros [H1 H2 H3 H4 H5 H6] ->. split; try reflexivity; try assumption.
  - intros p Hp0. apply in_one in Hp0. subst p. exact H3.
  - intros p Hp0. apply in_one in Hp0. subst p. exact H4.
Qed.
Lemma schema_same f s (cp' cp : ctx -> spat -> CM mpat) (ci' ci : ctx -> list gcontent -> CM unit) c : fs f = inl s -> declares c -> own_ns c = initial_ns -> own_dt c = initial_dts ->
  (forall e np dp p c, fit_pat U Ext e np dp p -> agree c e np dp -> eqm (cp' (strip c) (t_pat e p)) (cp c p)) ->
  (forall e np dp l c, all (fit_con U Ext e np dp) l -> agree c e np dp -> eqm (ci' (strip c) (flat_map (t_con e) l)) (ci c l)) ->
  eqc (compile_schema_with cp' ci' (strip c) (t_schema s)) (compile_schema_with cp ci c s).
Proof.
  intros Hf Dc E1 E2 Hcp Hci. destruct (HF f s Hf) as [Fd Ft]. destruct Fd as (F1 & F2 & F3) eqn:EF. clear EF.
  destruct (decls_run (s_decls s) F1 c Dc) as (ns & Hr & Hn); [rewrite E2; exact F3|].
  pose proof (fresh_agree c (s_decls s) ns Dc E1 E2 (conj F1 (conj F2 F3)) Hn) as Ha. set (c' := with_decls c ns (own_dt c ++ flat_map decl_lib (s_decls s))) in *.
  assert (Es : strip c = strip c') by (symmetry; apply strip_with).
  assert (B1 : forall st, compile_schema_with cp ci c s st = (match s_top s with
    | TPattern p => if is_include c' then match p with SGrammar l => run ci c' l; cret c' | _ => cerr EIncludedFileMustBeGrammar end
        else do r <- cp c' p; run define c' (lit "start") (AssignCombine None r); cret c'
    | TGrammar l => run ci c' l; cret c' end) st).
  { intros st. unfold compile_schema_with. unfold cbind at 1. rewrite Hr. reflexivity. }
  intros st. rewrite B1. change (compile_schema_with cp' ci' (strip c) (t_schema s) st) with ((match s_top (t_schema s) with
    | TPattern p => if is_include (strip c) then match p with SGrammar l => run ci' (strip c) l; cret (strip c) | _ => cerr EIncludedFileMustBeGrammar end
        else do r <- cp' (strip c) p; run define (strip c) (lit "start") (AssignCombine None r); cret (strip c)
    | TGrammar l => run ci' (strip c) l; cret (strip c) end) st).
  rewrite Es. clear Hr B1. unfold t_schema. cbn [s_top].
  destruct (s_top s) as [p|l].
  - destruct Ft as [Ft Hg]. rewrite s_include. destruct (is_include c').
    + assert (Eg : forall (m : CM ctx) (k : list gcontent -> CM ctx), (match t_pat (env_of (s_decls s)) p with SGrammar l => k l | _ => m end) = m) by (intros; destruct p; try reflexivity; destruct (Hg l eq_refl)).
      rewrite Eg. destruct p; try reflexivity. destruct (Hg l eq_refl).
    + unfold cbind. rewrite (Hcp _ _ _ p c' Ft Ha st). destruct (cp c' p st) as [[[x st1]|er]|pp|]; try reflexivity. cbn. rewrite (s_define c' _ _ st1). destruct (define c' _ _ st1) as [[[x1 st2]|er]|pp|]; reflexivity.
  - unfold cbind. rewrite (Hci _ _ _ l c' Ft Ha st). destruct (ci c' l st) as [[[x st1]|er]|pp|]; reflexivity.
Qed.
Lemma same e : (forall p np dp c, fit_pat U Ext e np dp p -> agree c e np dp -> eqm (P' (strip c) (t_pat e p)) (P c p)) /\
  (forall g np dp c, fit_con U Ext e np dp g -> agree c e np dp -> eqm (citer (G' (strip c)) (t_con e g)) (G c g)).
Proof.
  assert (H_one : forall (W : spat -> spat) (F : mpat -> mpat), (forall c q, P c (W q) = (do x <- P c q; cret (F x))) -> (forall c q, P' c (W q) = (do x <- P' c q; cret (F x))) ->
     forall q c, eqm (P' (strip c) (t_pat e q)) (P c q) -> eqm (P' (strip c) (W (t_pat e q))) (P c (W q))).
  { intros W F E1 E2 q c H. rewrite E1, E2. apply eqm_bind; [exact H | intros; apply eqm_refl]. }
  assert (H_two : forall (F : mpat -> mpat -> mpat) a b c, eqm (P' (strip c) (t_pat e a)) (P c a) -> eqm (P' (strip c) (t_pat e b)) (P c b) ->
     eqm (do x <- P' (strip c) (t_pat e a); do y <- P' (strip c) (t_pat e b); cret (F x y)) (do x <- P c a; do y <- P c b; cret (F x y))).
  { intros F a b c Ha Hb. apply eqm_bind; [exact Ha|]. intros x. apply eqm_bind; [exact Hb | intros; apply eqm_refl]. }
  assert (H_def : forall p n how np dp c, (forall np dp c, fit_pat U Ext e np dp p -> agree c e np dp -> eqm (P' (strip c) (t_pat e p)) (P c p)) -> fit_pat U Ext e np dp p -> agree c e np dp ->
     eqm (do x <- P' (XDefine (strip c) n) (t_pat e p); define (strip c) n (rule_of how x)) (do x <- P (XDefine c n) p; define c n (rule_of how x))).
  { intros p n how np dp c IH F Ha. apply eqm_bind; [exact (IH np dp (XDefine c n) F (proj1 (proj2 (proj2 (agree_up _ _ _ _ Ha))) n))|]. intros x. apply s_define. }
  assert (H_inc : forall h ov c np dp, (forall l, ov = Some l -> forall o f, eqm (citer (fun i => cmap_err EInclude (V' (XOverrides (XInclude (strip c) f o initial_ns initial_dts)) i)) (flat_map (t_inc e) l))
       (citer (fun i => cmap_err EInclude (V (XOverrides (XInclude c f o initial_ns initial_dts)) i)) l)) -> agree c e np dp ->
     forall inh, inh = None -> eqm (citer (G' (strip c)) (t_con e (GInclude h inh ov))) (G c (GInclude h inh ov))).
  { intros h ov c np dp Hov Ha inh ->. cbn [t_con]. eapply eqm_trans; [apply citer_one|]. cbn [SchemaCompile.compile_content]. rewrite (s_path c h) by (cbn; apply app_nil_r).
    apply eqm_bind; [apply eqm_refl|]. intros f. apply get_bind. intros s Hf. apply s_new_include. intros o. cbn [inherit_prefix]. do 2 (eapply eqm_trans; [apply bind_ret|]; intros st; symmetry; revert st).
    apply eqm_bind.
    - destruct ov as [l|]; [apply Hov; reflexivity | apply eqm_refl].
    - intros _. apply eqc_bind; [|intros c'; rewrite s_over; apply eqm_refl]. apply eqc_cmap.
      change (XInclude (strip c) f o initial_ns initial_dts) with (strip (XInclude c f o initial_ns initial_dts)).
      apply (schema_same f s rp' rp ri' ri (XInclude c f o initial_ns initial_dts) Hf I eq_refl eq_refl); [exact Hp | exact Hi]. }
  assert (P1 : forall p np dp c, fit_pat U Ext e np dp p -> agree c e np dp -> eqm (P' (strip c) (t_pat e p)) (P c p)).
  { apply (spat_ind' (fun p => forall np dp c, fit_pat U Ext e np dp p -> agree c e np dp -> eqm (P' (strip c) (t_pat e p)) (P c p))
      (fun g => forall np dp c, fit_con U Ext e np dp g -> agree c e np dp -> eqm (citer (G' (strip c)) (t_con e g)) (G c g))
      (fun i => forall dp c, fit_inc U Ext e dp i -> agree c e (fun p => p = lit "xml") dp -> eqm (citer (fun i => cmap_err EInclude (V' (strip c) i)) (t_inc e i)) (cmap_err EInclude (V c i)))).
    - intros nc p IH np dp c [F1 F2] Ha. cbn [t_pat SchemaCompile.compile_pattern]. apply eqm_bind; [exact (compile_nc c e np dp true nc Ha false F1)|]. intros n. apply s_element.
      apply eqm_bind; [|intros; apply eqm_refl]. exact (IH np dp (XElement c) F2 (proj1 (agree_up _ _ _ _ Ha))).
    - intros nc p IH np dp c [F1 F2] Ha. cbn [t_pat SchemaCompile.compile_pattern]. apply eqm_bind; [exact (compile_nc c e np dp false nc Ha false F1)|]. intros n.
      apply eqm_bind; [|intros; apply eqm_refl]. exact (IH np dp (XAttribute c) F2 (proj1 (proj2 (agree_up _ _ _ _ Ha)))).
    - intros p IH np dp c F Ha. exact (H_one SList MList (fun _ _ => eq_refl) (fun _ _ => eq_refl) p c (IH np dp c F Ha)).
    - intros p IH np dp c F Ha. exact (H_one SMixed MMixed (fun _ _ => eq_refl) (fun _ _ => eq_refl) p c (IH np dp c F Ha)).
    - intros i np dp c F Ha. cbn [t_pat SchemaCompile.compile_pattern]. rewrite s_acquire. apply eqm_refl.
    - intros i np dp c F Ha. cbn [t_pat SchemaCompile.compile_pattern]. rewrite s_parent. apply eqm_refl.
    - intros; apply eqm_refl.
    - intros; apply eqm_refl.
    - intros; apply eqm_refl.
    - intros h i np dp c [-> F] Ha. cbn [t_pat SchemaCompile.compile_pattern]. rewrite (s_path c h) by (cbn; apply app_nil_r).
      intros st0. unfold path_from. destruct (file_of c) as [f0|]; [|reflexivity]. destruct (resolve f0 (lit_value h)) as [f|] eqn:Er; [|reflexivity].
      pose proof (fun s => F f0 f s Er) as Fd. rewrite (bind_ret f _ st0), (bind_ret f _ st0). revert st0. apply get_bind. intros s Hf. specialize (Fd s Hf).
      apply s_new_include. intros o. destruct (HF f s Hf) as [_ Ft]. pose proof (agree_fresh c f o s Hf Fd) as Ag. pose proof (agree_outer c e np dp s Ha Fd) as Ao.
      unfold t_schema. cbn [s_top]. destruct (s_top s) as [q|l].
      + apply eqm_cmap. exact (Hp _ _ _ q (XInclude c f o initial_ns initial_dts) (proj1 Ft) Ag).
      + apply s_grammar. intros t. apply eqm_bind; [|intros; apply eqm_refl]. exact (Hi _ _ _ l (XGrammar c t) Ft (proj2 (proj2 (proj2 (agree_up _ _ _ _ Ao))) t)).
    - intros l IH np dp c F Ha. cbn [t_pat SchemaCompile.compile_pattern]. apply s_grammar. intros t. apply eqm_bind; [|intros; apply eqm_refl].
      change (XGrammar (strip c) t) with (strip (XGrammar c t)). apply citer_flat. apply (all_lift (fit_con U Ext e np dp)); [|exact F]. eapply Forall_impl; [|exact IH]. cbn beta.
      intros g Hg Fg. exact (Hg np dp (XGrammar c t) Fg (proj2 (proj2 (proj2 (agree_up _ _ _ _ Ha))) t)).
    - intros p IH np dp c F Ha. exact (IH np dp c F Ha).
    - intros a b IHa IHb np dp c [F1 F2] Ha. exact (H_two (fun x y => MGroup (seq_members x ++ seq_members y)) a b c (IHa np dp c F1 Ha) (IHb np dp c F2 Ha)).
    - intros a b IHa IHb np dp c [F1 F2] Ha. exact (H_two (fun x y => MInterleave (inter_members x ++ inter_members y)) a b c (IHa np dp c F1 Ha) (IHb np dp c F2 Ha)).
    - intros a b IHa IHb np dp c [F1 F2] Ha. exact (H_two (fun x y => MChoice (choice_members x ++ choice_members y)) a b c (IHa np dp c F1 Ha) (IHb np dp c F2 Ha)).
    - intros p IH np dp c F Ha. exact (H_one SOptional MOptional (fun _ _ => eq_refl) (fun _ _ => eq_refl) p c (IH np dp c F Ha)).
    - intros p IH np dp c F Ha. exact (H_one SZeroOrMore MZeroOrMore (fun _ _ => eq_refl) (fun _ _ => eq_refl) p c (IH np dp c F Ha)).
    - intros p IH np dp c F Ha. exact (H_one SOneOrMore MOneOrMore (fun _ _ => eq_refl) (fun _ _ => eq_refl) p c (IH np dp c F Ha)).
    - intros n v np dp c F Ha. cbn [t_pat SchemaCompile.compile_pattern]. replace (lit_value [lit_value v]) with (lit_value v) by (cbn; rewrite app_nil_r; reflexivity).
      destruct n as [n|]; [|apply eqm_refl]. destruct (compile_type U O C c e np dp n Ha F) as (d & d' & E1 & E2 & E3 & _). rewrite E1, E2. intros st. rewrite (bind_ret d' _ st), (bind_ret d _ st), E3. reflexivity.
    - intros n ps ex IH np dp c (F1 & F2 & F3 & F4) Ha. cbn [t_pat SchemaCompile.compile_pattern].
      destruct (compile_type U O C c e np dp n Ha F1) as (d & d' & E1 & _ & _ & E2). destruct (E2 F2) as (d2 & E3 & E4). rewrite E1, E3. intros st. rewrite (bind_ret d2 _ st), (bind_ret d _ st), E4, t_params.
      revert st. apply eqm_bind; [apply eqm_refl|]. intros x. apply eqm_bind; [|intros; apply eqm_refl]. destruct ex as [q|]; [|apply eqm_refl]. apply eqm_bind; [exact (IH np dp c F4 Ha) | intros; apply eqm_refl].
    - intros n how p IH np dp c [F1 F2] Ha. cbn [t_con]. eapply eqm_trans; [apply citer_one|]. exact (H_def p n how np dp c IH F2 Ha).
    - intros l IH np dp c F Ha. cbn [t_con]. eapply eqm_trans; [apply citer_one|]. cbn [SchemaCompile.compile_content].
      apply citer_flat. apply (all_lift (fit_con U Ext e np dp)); [|exact F]. eapply Forall_impl; [|exact IH]. cbn beta. intros g Hg Fg. exact (Hg np dp c Fg Ha).
    - intros h i ov IH np dp c [F1 F2] Ha. apply (H_inc h ov c np dp); [|exact Ha | exact F1]. intros l -> o f.
      change (XOverrides (XInclude (strip c) f o initial_ns initial_dts)) with (strip (XOverrides (XInclude c f o initial_ns initial_dts))). apply citer_flat.
      apply (all_lift (fit_inc U Ext e dp)); [|exact F2]. eapply Forall_impl; [|exact IH]. cbn beta. intros g Hg Fg. exact (Hg dp _ Fg (agree_over c e np dp f o Ha)).
    - intros a np dp c _ _. apply eqm_refl.
    - intros n how p IH dp c [F1 F2] Ha. cbn [t_inc]. eapply eqm_trans; [apply citer_one|]. apply eqm_cmap. exact (H_def p n how _ dp c IH F2 Ha).
    - intros l IH dp c F Ha. cbn [t_inc]. eapply eqm_trans; [apply citer_one|]. apply eqm_refl.
    - intros a dp c _ _. apply eqm_refl. }
  split; [exact P1|].
  assert (P2 : forall i dp c, fit_inc U Ext e dp i -> agree c e (fun p => p = lit "xml") dp -> eqm (citer (fun i => cmap_err EInclude (V' (strip c) i)) (t_inc e i)) (cmap_err EInclude (V c i))).
  { intros [n how p|l|a] dp c F Ha.
    - destruct F as [F1 F2]. cbn [t_inc]. eapply eqm_trans; [apply citer_one|]. apply eqm_cmap. exact (H_def p n how _ dp c (P1 p) F2 Ha).
    - cbn [t_inc]. eapply eqm_trans; [apply citer_one|]. apply eqm_refl.
    - apply eqm_refl. }
  fix IH 1. intros [n how p|l|h i ov|a] np dp c F Ha.
  - destruct F as [F1 F2]. cbn [t_con]. eapply eqm_trans; [apply citer_one|]. exact (H_def p n how np dp c (P1 p) F2 Ha).
  - cbn [t_con]. eapply eqm_trans; [apply citer_one|]. cbn [SchemaCompile.compile_content].
    apply citer_flat. apply (all_lift (fit_con U Ext e np dp)); [|exact F]. clear F. induction l as [|g l IHl]; constructor; [|exact IHl]. intros Fg. exact (IH g np dp c Fg Ha).
  - destruct F as [F1 F2]. apply (H_inc h ov c np dp); [|exact Ha | exact F1]. intros l -> o f.
    change (XOverrides (XInclude (strip c) f o initial_ns initial_dts)) with (strip (XOverrides (XInclude c f o initial_ns initial_dts))). apply citer_flat.
    apply (all_lift (fit_inc U Ext e dp)); [|exact F2]. apply Forall_forall. intros g _ Fg. exact (P2 g dp _ Fg (agree_over c e np dp f o Ha)).
  - apply eqm_refl.
Qed.
Lemma same_contents e np dp l c : all (fit_con U Ext e np dp) l -> agree c e np dp -> eqm (compile_contents O C fs' rp' ri' (strip c) (flat_map (t_con e) l)) (compile_contents O C fs rp ri c l).
Proof.
  intros F Ha. unfold compile_contents. apply citer_flat. apply (all_lift (fit_con U Ext e np dp)); [|exact F]. apply Forall_forall. intros g _ Fg. exact (proj2 (same e) g np dp c Fg Ha).
Qed.
End Rec.
Lemma nested_same d : (forall e np dp p c, fit_pat U Ext e np dp p -> agree c e np dp -> eqm (fst (nested O C fs' d) (strip c) (t_pat e p)) (fst (nested O C fs d) c p)) /\
  (forall e np dp l c, all (fit_con U Ext e np dp) l -> agree c e np dp -> eqm (snd (nested O C fs' d) (strip c) (flat_map (t_con e) l)) (snd (nested O C fs d) c l)).
Proof.
  induction d as [|d [IH1 IH2]]; [split; intros; apply eqm_refl|]. cbn [nested]. destruct (nested O C fs' d) as [rp' ri'], (nested O C fs d) as [rp ri]. cbn [fst snd] in *. split.
  - intros e np dp p c F Ha. exact (proj1 (same rp' rp ri' ri IH1 IH2 e) p np dp c F Ha).
  - intros e np dp l c F Ha. exact (same_contents rp' rp ri' ri IH1 IH2 e np dp l c F Ha).
Qed.
Lemma same_grammar d name : compile_grammar O C fs' d name = compile_grammar O C fs d name.
Proof.
  unfold compile_grammar. destruct (nested_same d) as [H1 H2]. destruct (nested O C fs' d) as [rp' ri'], (nested O C fs d) as [rp ri]. cbn [fst snd] in *.
  match goal with |- ?m' empty_cst = ?m empty_cst => assert (E : eqm m' m); [|apply E] end.
  apply get_bind0. intros s Hf. apply root_bind. intros t. apply eqc_bind.
  - change (XRoot name t initial_ns initial_dts) with (strip (XRoot name t initial_ns initial_dts)) at 1.
    apply (schema_same name s _ _ _ _ (XRoot name t initial_ns initial_dts) Hf I eq_refl eq_refl).
    + intros e np dp p c F Ha. exact (proj1 (same rp' rp ri' ri H1 H2 e) p np dp c F Ha).
    + intros e np dp l c F Ha. exact (same_contents rp' rp ri' ri H1 H2 e np dp l c F Ha).
  - intros c. rewrite s_table. apply eqm_refl.
Qed.
End Compile.
Lemma same_compiled U O C fs d name : convertible U fs -> compile_grammar O C (in_xml U fs) d name = compile_grammar O C fs d name.
Proof.
  intros HF. apply (same_grammar U O C fs HF). intros f. unfold in_xml. destruct (fs f) as [s|x] eqn:E; [|reflexivity]. rewrite (read_schema U (without_decls fs) s (HF f s E)). reflexivity.
Qed.
