(** * SchemaRetag: the prefixes chosen for namespaces and datatype libraries do not matter (C93). *)
From Coq Require Import String.
From Verif Require Import Base Datatype Facets Store Lang Compile Syntax SchemaCompile SourceCompile.
Local Open Scope cm_scope.

Section Rename.
(** ** Specification: the files with other prefixes, [pn] for namespaces and [dn] for datatype libraries *)
Variable pn : str -> str.
Variable dn : str -> str.
Definition pre_id (i : id_or_kw) : id_or_kw := IKId (pn (ik_string i)).
Definition pre_name (n : sname) : sname := match n with NmC p l => NmC (pn p) l | n => n end.
Fixpoint pre_nc (n : snc) : snc :=
  match n with
  | CName n => CName (pre_name n)
  | CNs nm ex => CNs (match nm with NsPrefix p => NsPrefix (pn p) | nm => nm end) (match ex with Some e => Some (pre_nc e) | None => None end)
  | CAny ex => CAny (match ex with Some e => Some (pre_nc e) | None => None end)
  | CAlt a b => CAlt (pre_nc a) (pre_nc b)
  | CParen a => CParen (pre_nc a)
  end.
Definition pre_type (n : sdtname) : sdtname := match n with SdC p l => SdC (dn p) l | n => n end.
Fixpoint pre_pat (p : spat) {struct p} : spat :=
  match p with
  | SElement nc q => SElement (pre_nc nc) (pre_pat q)
  | SAttribute nc q => SAttribute (pre_nc nc) (pre_pat q)
  | SList q => SList (pre_pat q)
  | SMixed q => SMixed (pre_pat q)
  | SExternal h inh => SExternal h (option_map pre_id inh)
  | SGrammar l => SGrammar (map pre_content l)
  | SGroup q => SGroup (pre_pat q)
  | SListPair a b => SListPair (pre_pat a) (pre_pat b)
  | SInterleavePair a b => SInterleavePair (pre_pat a) (pre_pat b)
  | SChoicePair a b => SChoicePair (pre_pat a) (pre_pat b)
  | SOptional q => SOptional (pre_pat q)
  | SZeroOrMore q => SZeroOrMore (pre_pat q)
  | SOneOrMore q => SOneOrMore (pre_pat q)
  | SValue n v => SValue (option_map pre_type n) v
  | SData n ps ex => SData (pre_type n) ps (match ex with Some e => Some (pre_pat e) | None => None end)
  | p => p
  end
with pre_content (g : gcontent) {struct g} : gcontent :=
  match g with
  | GDefine n how p => GDefine n how (pre_pat p)
  | GDiv l => GDiv (map pre_content l)
  | GInclude h inh ov => GInclude h (option_map pre_id inh) (match ov with Some l => Some (map pre_override l) | None => None end)
  | GAnnotation a => GAnnotation a
  end
with pre_override (i : icontent) {struct i} : icontent :=
  match i with
  | IDefine n how p => IDefine n how (pre_pat p)
  | IDiv l => IDiv (map pre_override l)
  | IAnnotation a => IAnnotation a
  end.
Definition pre_decl (d : decl) : decl :=
  match d with DNamespace p u => DNamespace (pn p) u | DDefault p u => DDefault (option_map pn p) u | DDatatypes p u => DDatatypes (dn p) u end.
Definition pre_schema (s : schema) : schema := Schema (map pre_decl (s_decls s)) (match s_top s with TPattern p => TPattern (pre_pat p) | TGrammar l => TGrammar (map pre_content l) end).
Definition pre_files (fs : filesys) : filesys := fun f => match fs f with inl s => inl (pre_schema s) | inr e => inr e end.
(** the errors which name a prefix *)
Fixpoint pre_error (e : rerror) : rerror :=
  match e with
  | EInclude e => EInclude (pre_error e)
  | EUndefinedNamespacePrefix p => EUndefinedNamespacePrefix (pn p)
  | EUndefinedDatatypePrefix p => EUndefinedDatatypePrefix (dn p)
  | EDatatypePrefixAlreadyDefined p => EDatatypePrefixAlreadyDefined (dn p)
  | e => e
  end.

(** ** Proof *)
Hypothesis pn_inj : forall a b, pn a = pn b -> a = b.
Hypothesis dn_inj : forall a b, dn a = dn b -> a = b.
Hypothesis pn_xml : pn (lit "xml") = lit "xml".
Hypothesis dn_xsd : dn (lit "xsd") = lit "xsd".
Definition to {A B} (h : A -> B) (x : fres rerror (A * cst)) : fres rerror (B * cst) :=
  match x with Ok (inl (a, st)) => Ok (inl (h a, st)) | Ok (inr e) => Ok (inr (pre_error e)) | Panic p => Panic p | OutOfFuel => OutOfFuel end.
Definition sim {A B} (h : A -> B) (m' : CM B) (m : CM A) : Prop := forall st, m' st = to h (m st).
Lemma sim_bind {A B A2 B2} (h : A -> B) (g : A2 -> B2) m' m (k' : B -> CM B2) (k : A -> CM A2) : sim h m' m -> (forall a, sim g (k' (h a)) (k a)) -> sim g (cbind m' k') (cbind m k).
Proof. intros H K st. unfold cbind. rewrite H. destruct (m st) as [[[a s]|e]|p|]; try reflexivity. apply K. Qed.
Lemma sim_same {A B B2} (g : A -> B2) (m' m : CM B) (k' : B -> CM B2) (k : B -> CM A) : sim id m' m -> (forall a, sim g (k' a) (k a)) -> sim g (cbind m' k') (cbind m k).
Proof. intros H K. eapply sim_bind; [exact H | exact K]. Qed.
Lemma sim_ret {A B} (h : A -> B) a b : b = h a -> sim h (cret b) (cret a). Proof. intros -> st. reflexivity. Qed.
Lemma sim_err {A B} (h : A -> B) e e' : e' = pre_error e -> sim h (cerr e') (cerr e). Proof. intros -> st. reflexivity. Qed.
Lemma sim_panic {A B} (h : A -> B) p : sim h (cpanic p) (cpanic p). Proof. intros st. reflexivity. Qed.
Lemma sim_cmap {A B} (h : A -> B) m' m : sim h m' m -> sim h (cmap_err EInclude m') (cmap_err EInclude m).
Proof. intros H st. unfold cmap_err. rewrite H. destruct (m st) as [[[a s]|e]|p|]; reflexivity. Qed.
Lemma sim_iter {X} (t : X -> X) (f' f : X -> CM unit) l : Forall (fun x => sim id (f' (t x)) (f x)) l -> sim id (citer f' (map t l)) (citer f l).
Proof. induction 1 as [|x l Hx _ IH]; [apply sim_ret; reflexivity|]. cbn [map citer]. apply sim_same; [exact Hx | intros _; exact IH]. Qed.
(** what mentions no prefix *)
Definition plainly {A} (m : CM A) : Prop := forall st e, m st = Ok (inr e) -> pre_error e = e.
Lemma sim_plainly {A} (m : CM A) : plainly m -> sim id m m.
Proof. intros H st. specialize (H st). destruct (m st) as [[[a s]|e]|p|]; cbn; try reflexivity. rewrite (H e eq_refl). reflexivity. Qed.
Lemma p_ret {A} (a : A) : plainly (cret a). Proof. intros st e K. discriminate K. Qed.
Lemma p_panic {A} p : plainly (A := A) (cpanic p). Proof. intros st e K. discriminate K. Qed.
Lemma p_err {A} e : pre_error e = e -> plainly (A := A) (cerr e). Proof. intros H st e' [= <-]. exact H. Qed.
Lemma p_bind {A B} (m : CM A) (k : A -> CM B) : plainly m -> (forall a, plainly (k a)) -> plainly (cbind m k).
Proof. intros H K st e. unfold cbind. destruct (m st) as [[[a s]|e0]|p|] eqn:E; cbn; try discriminate; [apply K | intros [= <-]; exact (H st e0 E)]. Qed.

(** *** contexts *)
Lemma eqb_inj (r : str -> str) : (forall a b, r a = r b -> a = b) -> forall a b, str_eqb (r a) (r b) = str_eqb a b.
Proof. intros H a b. destruct (str_eqb a b) eqn:E; [apply str_eqb_eq in E; subst; apply str_eqb_refl|]. apply str_eqb_neq. intros K. apply str_eqb_neq in E. apply E, H, K. Qed.
Definition keys {A} (r : str -> str) (l : list (str * A)) : list (str * A) := map (fun x => (r (fst x), snd x)) l.
Lemma assoc_keys {A} r : (forall a b, r a = r b -> a = b) -> forall k (l : list (str * A)), assoc (r k) (keys r l) = assoc k l.
Proof. intros H k l. induction l as [|[k' v] l IH]; [reflexivity|]. unfold keys in *. cbn [map assoc fst snd]. rewrite (eqb_inj r H), IH. reflexivity. Qed.
Fixpoint rc (c : ctx) : ctx :=
  match c with
  | XRoot f t ns d => XRoot f t (keys pn ns) (keys dn d)
  | XInclude p f o ns d => XInclude (rc p) f o (keys pn ns) (keys dn d)
  | XOverrides p => XOverrides (rc p)
  | XGrammar p t => XGrammar (rc p) t
  | XDefine p i => XDefine (rc p) i
  | XElement p => XElement (rc p)
  | XAttribute p => XAttribute (rc p)
  end.
Lemma r_check c f : check_include (rc c) f = check_include c f.
Proof. induction c; cbn; try assumption; try reflexivity. rewrite IHc. reflexivity. Qed.
Lemma p_check c f : plainly (check_include c f).
Proof. induction c; cbn; try assumption; try apply p_ret. destruct (path_eqb f file); [apply p_err; reflexivity | assumption]. Qed.
Lemma r_att c : parent_attribute (rc c) = parent_attribute c. Proof. induction c; cbn; auto. Qed.
Lemma r_ns c p : namespace_uri (rc c) (pn p) = namespace_uri c p. Proof. induction c; cbn; auto; apply assoc_keys; exact pn_inj. Qed.
Lemma r_default c : default_namespace_uri (rc c) = default_namespace_uri c. Proof. induction c; cbn; auto. Qed.
Lemma r_dt c p : datatype_uri (rc c) (dn p) = datatype_uri c p. Proof. induction c; cbn [rc datatype_uri]; auto; rewrite (assoc_keys dn dn_inj); [reflexivity|]. rewrite IHc. reflexivity. Qed.
Lemma r_file c : file_of (rc c) = file_of c.
Proof.
  revert c. fix IH 1. intros [f t ns d|p f o ns d|p|p t|p i|p|p]; cbn [rc file_of]; try reflexivity; try apply IH.
  destruct p as [f t ns d|q f o ns d|q|q t|q i|q|q]; cbn [rc]; try reflexivity. apply IH.
Qed.
Lemma r_table c : table_of (rc c) = table_of c. Proof. destruct c; reflexivity. Qed.
Lemma r_include c : is_include (rc c) = is_include c. Proof. destruct c; reflexivity. Qed.
Lemma r_overrides c : check_overrides (rc c) = check_overrides c. Proof. destruct c; reflexivity. Qed.
Lemma r_define : forall c i r st, define (rc c) i r st = define c i r st.
Proof.
  fix IH 1. intros [f t ns d|p f o ns d|p|p t|p j|p|p] i r st; cbn [rc define]; try reflexivity.
  - unfold cbind. destruct (get_ovr o i st) as [[[[b|] s]|e]|q|]; try reflexivity. apply IH.
  - destruct p as [f t ns d|q f o ns d|q|q t|q j|q|q]; cbn [rc]; try reflexivity.
    unfold cbind. destruct (get_ovr o i st) as [[[[b|] s]|e]|x|]; try reflexivity. cbn. apply IH.
Qed.
Lemma p_merge n a b e : merge n a b = Ok (inr e) -> pre_error e = e.
Proof.
  destruct a as [a|]; [|discriminate]. cbn [merge]. destruct a as [[[|]|] pa|[|] pa], b as [[[|]|] pb|[|] pb]; cbn [merge1]; try (intros [= <-]; reflexivity).
  all: try (destruct pa; discriminate). all: try (destruct pb; discriminate).
Qed.
Lemma p_define_in t i r : plainly (define_in t i r).
Proof.
  intros st e. unfold define_in. destruct (assoc i (nth t (tables st) [])) as [k|]; [|discriminate]. destruct (merge i (snd (nth k (cells st) (i, None))) r) as [[r'|e0]|p|] eqn:E; try discriminate.
  intros [= <-]. exact (p_merge _ _ _ _ E).
Qed.
Lemma p_define : forall c i r, plainly (define c i r).
Proof.
  fix IH 1. intros [f t ns d|p f o ns d|p|p t|p j|p|p] i r; cbn [define]; try apply p_panic; try apply p_define_in.
  - apply p_bind; [intros st e K; discriminate K|]. intros [b|]; [intros st e K; discriminate K | apply IH].
  - destruct p as [f t ns d|q f o ns d|q|q t|q j|q|q]; try apply p_panic.
    apply p_bind; [intros st e K; discriminate K|]. intros [b|]; [apply p_panic|]. apply p_bind; [intros st e K; discriminate K | intros _; apply IH].
Qed.
Lemma sim_define c i r : sim id (define (rc c) i r) (define c i r).
Proof. intros st. rewrite r_define. apply (sim_plainly _ (p_define c i r)). Qed.
Lemma r_impl c i : acquire_ref_impl (rc c) i = acquire_ref_impl c i. Proof. induction c; cbn; auto. Qed.
Lemma r_rec c i : check_ref_recursion (rc c) i = check_ref_recursion c i. Proof. induction c; cbn; auto. Qed.
Lemma r_acquire c i : acquire_ref (rc c) i = acquire_ref c i. Proof. unfold acquire_ref. rewrite r_impl, r_rec. reflexivity. Qed.
Lemma r_parent c i : acquire_parent_ref (rc c) i = acquire_parent_ref c i. Proof. induction c; cbn; auto using r_acquire. Qed.
Lemma p_acquire_in t i : plainly (acquire_in t i).
Proof. intros st e. unfold acquire_in. destruct (assoc i (nth t (tables st) [])); discriminate. Qed.
Lemma p_impl c i : plainly (acquire_ref_impl c i). Proof. induction c; cbn; auto using p_acquire_in. Qed.
Lemma p_rec c i : plainly (check_ref_recursion c i).
Proof. induction c; cbn; try apply p_ret; auto. destruct (str_eqb id i); [apply p_err; reflexivity | apply p_ret]. Qed.
Lemma p_acquire c i : plainly (acquire_ref c i). Proof. apply p_bind; [apply p_rec | intros _; apply p_impl]. Qed.
Lemma p_parent c i : plainly (acquire_parent_ref c i). Proof. induction c; cbn; auto using p_acquire. apply p_err. reflexivity. Qed.
Lemma sim_acquire c i : sim id (acquire_ref (rc c) i) (acquire_ref c i). Proof. rewrite r_acquire. apply sim_plainly, p_acquire. Qed.
Lemma sim_parent c i : sim id (acquire_parent_ref (rc c) i) (acquire_parent_ref c i). Proof. rewrite r_parent. apply sim_plainly, p_parent. Qed.
Lemma sim_path c h : sim id (path_from (rc c) h) (path_from c h).
Proof. unfold path_from. rewrite r_file. destruct (file_of c) as [f|]; [destruct (resolve f (lit_value h)); [apply sim_ret; reflexivity | apply sim_panic] | apply sim_panic]. Qed.
Lemma sim_undefined t : sim id (undefined_in t) (undefined_in t). Proof. intros st. reflexivity. Qed.
Lemma sim_take_start t : sim id (take_start t) (take_start t).
Proof.
  unfold take_start. apply sim_same; [intros st; reflexivity|]. intros [r|]; [|apply sim_err; reflexivity]. apply sim_same; [intros st; unfold take_cell; destruct (nth r (cells st) ([], None)); reflexivity|].
  intros [d|]; [apply sim_ret; reflexivity | apply sim_err; reflexivity].
Qed.
Lemma sim_grammar c : sim rc (new_grammar (rc c)) (new_grammar c). Proof. intros st. reflexivity. Qed.
Lemma sim_element c : sim rc (new_element (rc c)) (new_element c).
Proof. unfold new_element. rewrite r_att. destruct (parent_attribute c); [apply sim_err; reflexivity | apply sim_ret; reflexivity]. Qed.
Lemma start_ns : keys pn initial_ns = initial_ns. Proof. unfold initial_ns, keys. cbn [map fst snd]. rewrite pn_xml. reflexivity. Qed.
Lemma start_dts : keys dn initial_dts = initial_dts. Proof. unfold initial_dts, keys. cbn [map fst snd]. rewrite dn_xsd. reflexivity. Qed.
Lemma sim_new_include c f : sim rc (new_include (rc c) f) (new_include c f).
Proof.
  unfold new_include. rewrite r_check. apply sim_same; [apply sim_plainly, p_check|]. intros _. apply sim_same; [intros st; reflexivity|]. intros o. apply sim_ret. cbn [rc]. rewrite start_ns, start_dts. reflexivity.
Qed.
Lemma sim_root f : sim rc (new_root f) (new_root f).
Proof. unfold new_root. apply sim_same; [intros st; reflexivity|]. intros t. apply sim_ret. cbn [rc]. rewrite start_ns, start_dts. reflexivity. Qed.
Lemma sim_declare_ns c p u : sim rc (declare_namespace (rc c) (pn p) u) (declare_namespace c p u).
Proof.
  destruct c; cbn [rc declare_namespace]; try apply sim_panic; rewrite (assoc_keys _ pn_inj); apply sim_ret; (destruct (assoc p ns); [reflexivity|]; cbn [rc]; unfold keys; rewrite map_app; reflexivity).
Qed.
Lemma sim_declare_dt c p u : sim rc (declare_datatype (rc c) (dn p) u) (declare_datatype c p u).
Proof.
  destruct c; cbn [rc declare_datatype]; try apply sim_panic; rewrite (assoc_keys _ dn_inj); (destruct (assoc p dts); [apply sim_err; reflexivity|]; apply sim_ret; cbn [rc]; unfold keys; rewrite map_app; reflexivity).
Qed.
Lemma sim_decls ds : forall c, sim rc (compile_declarations (rc c) (map pre_decl ds)) (compile_declarations c ds).
Proof.
  induction ds as [|d ds IH]; intros c; [apply sim_ret; reflexivity|]. cbn [map compile_declarations]. eapply sim_bind; [|exact IH].
  destruct d as [p [|u]|[p|] [|u]|p u]; cbn [pre_decl option_map compile_declaration]; try apply sim_panic; auto using sim_declare_ns, sim_declare_dt. apply sim_ret. reflexivity.
Qed.
Lemma sim_inherit c inc i : sim rc (inherit_prefix (rc c) (rc inc) (option_map pre_id i)) (inherit_prefix c inc i).
Proof. destruct i as [i|]; cbn [option_map pre_id inherit_prefix ik_string]; [|apply sim_ret; reflexivity]. rewrite r_ns. destruct (namespace_uri c (ik_string i)); [apply sim_declare_ns | apply sim_err; reflexivity]. Qed.
Lemma sim_ns c p : sim id (namespace_uri_for_prefix (rc c) (pn p)) (namespace_uri_for_prefix c p).
Proof. unfold namespace_uri_for_prefix. rewrite r_ns. destruct (namespace_uri c p); [apply sim_ret; reflexivity | apply sim_err; reflexivity]. Qed.
Lemma sim_nc c el n : sim id (compile_nameclass (rc c) el (pre_nc n)) (compile_nameclass c el n).
Proof.
  induction n as [n|n ex IH|ex IH|a IHa b IHb|a IH] using snc_ind'; cbn [pre_nc compile_nameclass].
  - destruct n; cbn [pre_name]; [rewrite r_default; apply sim_ret; reflexivity | apply sim_same; [apply sim_ns | intros; apply sim_ret; reflexivity] | apply sim_ret; reflexivity].
  - apply sim_same; [destruct ex as [e|]; [apply sim_same; [exact IH | intros; apply sim_ret; reflexivity] | apply sim_ret; reflexivity]|]. intros e. apply sim_same; [|intros; apply sim_ret; reflexivity]. destruct n; [apply sim_ns | apply sim_ret; reflexivity].
  - apply sim_same; [destruct ex as [e|]; [apply sim_same; [exact IH | intros; apply sim_ret; reflexivity] | apply sim_ret; reflexivity]|]. intros; apply sim_ret; reflexivity.
  - apply sim_same; [exact IHa|]. intros x. apply sim_same; [exact IHb | intros; apply sim_ret; reflexivity].
  - exact IH.
Qed.
Lemma sim_type c n : sim id (compile_dtname (rc c) (pre_type n)) (compile_dtname c n).
Proof. destruct n; cbn [pre_type compile_dtname]; try (apply sim_ret; reflexivity). apply sim_same; [|intros; apply sim_ret; reflexivity]. unfold try_datatype_uri. rewrite r_dt. destruct (datatype_uri c prefix); [apply sim_ret; reflexivity | apply sim_err; reflexivity]. Qed.
Lemma sim_lift {A} (x : fres dt_error A) : sim id (lift_dt x) (lift_dt x).
Proof. intros st. unfold lift_dt. destruct x as [[a|e]|p|]; reflexivity. Qed.
(** *** patterns, contents, files *)
Section Compile.
Variable O : oracles.
Variable C : coracles.
Variable fs : filesys.
Notation fs' := (pre_files fs).
Lemma sim_get f : sim pre_schema (get_schema fs' f) (get_schema fs f).
Proof. intros st. unfold get_schema, pre_files. destruct (fs f) as [s|e]; reflexivity. Qed.
Section Rec.
Variables (rp' rp : ctx -> spat -> CM mpat) (ri' ri : ctx -> list gcontent -> CM unit).
Hypothesis Hp : forall p c, sim id (rp' (rc c) (pre_pat p)) (rp c p).
Hypothesis Hi : forall l c, sim id (ri' (rc c) (map pre_content l)) (ri c l).
Notation P' := (compile_pattern O C fs' rp' ri').
Notation P := (compile_pattern O C fs rp ri).
Notation G' := (compile_content O C fs' rp' ri').
Notation G := (compile_content O C fs rp ri).
Notation V' := (compile_override O C fs' rp' ri').
Notation V := (compile_override O C fs rp ri).
Lemma sim_schema (cp' cp : ctx -> spat -> CM mpat) (ci' ci : ctx -> list gcontent -> CM unit) c s :
  (forall p c, sim id (cp' (rc c) (pre_pat p)) (cp c p)) -> (forall l c, sim id (ci' (rc c) (map pre_content l)) (ci c l)) ->
  sim rc (compile_schema_with cp' ci' (rc c) (pre_schema s)) (compile_schema_with cp ci c s).
Proof.
  intros H1 H2. unfold compile_schema_with, pre_schema. cbn [s_decls s_top]. eapply sim_bind; [apply sim_decls|]. intros c'. destruct (s_top s) as [p|l].
  - rewrite r_include. destruct (is_include c').
    + destruct p; try (apply sim_err; reflexivity). cbn [pre_pat]. apply sim_same; [apply H2 | intros; apply sim_ret; reflexivity].
    + apply sim_same; [apply H1|]. intros r. apply sim_same; [|intros; apply sim_ret; reflexivity]. apply sim_define.
  - apply sim_same; [apply H2 | intros; apply sim_ret; reflexivity].
Qed.
Lemma ren_same : (forall p c, sim id (P' (rc c) (pre_pat p)) (P c p)) /\ (forall g c, sim id (G' (rc c) (pre_content g)) (G c g)) /\ (forall i c, sim id (V' (rc c) (pre_override i)) (V c i)).
Proof.
  set (PP := fun p => forall c, sim id (P' (rc c) (pre_pat p)) (P c p)). set (GG := fun g => forall c, sim id (G' (rc c) (pre_content g)) (G c g)). set (VV := fun i => forall c, sim id (V' (rc c) (pre_override i)) (V c i)).
  assert (H_two : forall (F : mpat -> mpat -> mpat) a b c, PP a -> PP b -> sim id (do x <- P' (rc c) (pre_pat a); do y <- P' (rc c) (pre_pat b); cret (F x y)) (do x <- P c a; do y <- P c b; cret (F x y))).
  { intros F a b c Ha Hb. apply sim_same; [apply Ha|]. intros x. apply sim_same; [apply Hb | intros; apply sim_ret; reflexivity]. }
  assert (H_con : forall l, Forall GG l -> forall c, sim id (citer (G' (rc c)) (map pre_content l)) (citer (G c) l)).
  { intros l H c. apply sim_iter. eapply Forall_impl; [|exact H]. intros g Hg. apply Hg. }
  assert (H_gr : forall l, Forall GG l -> PP (SGrammar l)).
  { intros l Hl c. cbn [pre_pat SchemaCompile.compile_pattern]. eapply sim_bind; [apply sim_grammar|]. intros g. apply sim_same; [apply H_con, Hl|]. intros _. rewrite r_table. apply sim_take_start. }
  assert (H_ex : forall h i, PP (SExternal h i)).
  { intros h [i|] c; [apply sim_panic|]. cbn [pre_pat SchemaCompile.compile_pattern]. apply sim_same; [apply sim_path|]. intros f. eapply sim_bind; [apply sim_cmap, sim_get|]. intros s. eapply sim_bind; [apply sim_new_include|]. intros inc.
    unfold pre_schema. cbn [s_top]. destruct (s_top s) as [p|l]; [apply sim_cmap, Hp|]. eapply sim_bind; [apply sim_grammar|]. intros g. apply sim_same; [apply Hi|]. intros _. rewrite r_table. apply sim_same; [apply sim_undefined|].
    intros [n|]; [apply sim_err; reflexivity | apply sim_take_start]. }
  assert (H_gi : forall h inh ov, (match ov with Some l => Forall VV l | None => True end) -> GG (GInclude h inh ov)).
  { intros h inh ov Hov c. cbn [pre_content SchemaCompile.compile_content]. apply sim_same; [apply sim_path|]. intros f. eapply sim_bind; [apply sim_cmap, sim_get|]. intros s. eapply sim_bind; [apply sim_new_include|]. intros inc.
    eapply sim_bind; [apply sim_inherit|]. intros inc'. apply sim_same.
    - destruct ov as [l|]; [|apply sim_ret; reflexivity]. apply sim_iter. eapply Forall_impl; [|exact Hov]. intros i Hv. apply sim_cmap. exact (Hv (XOverrides inc')).
    - intros _. eapply sim_bind; [apply sim_cmap, sim_schema; assumption|]. intros c'. rewrite r_overrides. intros st. destruct c'; try reflexivity. cbn [check_overrides]. destruct (find _ _) as [[n b]|]; reflexivity. }
  assert (H_gv : forall l, Forall GG l -> GG (GDiv l)) by (intros l Hl c; cbn [pre_content SchemaCompile.compile_content]; apply H_con, Hl).
  assert (H_gd : forall n how p, PP p -> GG (GDefine n how p)).
  { intros n how p IH c. cbn [pre_content SchemaCompile.compile_content]. apply sim_same; [exact (IH (XDefine c n)) | intros x; apply sim_define]. }
  assert (H_if : forall n how p, PP p -> VV (IDefine n how p)).
  { intros n how p IH c. cbn [pre_override SchemaCompile.compile_override]. apply sim_same; [exact (IH (XDefine c n)) | intros x; apply sim_define]. }
  assert (H_da : forall n ps ex, (match ex with Some e => PP e | None => True end) -> PP (SData n ps ex)).
  { intros n ps ex IH c. cbn [pre_pat SchemaCompile.compile_pattern]. apply sim_same; [apply sim_type|]. intros d. apply sim_same; [apply sim_lift|]. intros x. apply sim_same; [|intros; apply sim_ret; reflexivity].
    destruct ex as [e|]; [apply sim_same; [apply IH | intros; apply sim_ret; reflexivity] | apply sim_ret; reflexivity]. }
  assert (H_va : forall n v, PP (SValue n v)).
  { intros n v c. cbn [pre_pat SchemaCompile.compile_pattern]. apply sim_same; [destruct n; cbn [option_map]; [apply sim_type | apply sim_ret; reflexivity]|]. intros d. apply sim_same; [apply sim_lift | intros; apply sim_ret; reflexivity]. }
  assert (H_id : forall i, PP (SIdent i)) by (intros i c; cbn [pre_pat SchemaCompile.compile_pattern]; apply sim_same; [apply sim_acquire | intros; apply sim_ret; reflexivity]).
  assert (H_pa : forall i, PP (SParent i)) by (intros i c; cbn [pre_pat SchemaCompile.compile_pattern]; apply sim_same; [apply sim_parent | intros; apply sim_ret; reflexivity]).
  assert (H_el : forall nc q, PP q -> PP (SElement nc q)).
  { intros nc q IH c. cbn [pre_pat SchemaCompile.compile_pattern]. apply sim_same; [apply sim_nc|]. intros n. eapply sim_bind; [apply sim_element|]. intros c'. apply sim_same; [apply IH | intros; apply sim_ret; reflexivity]. }
  assert (H_at : forall nc q, PP q -> PP (SAttribute nc q)).
  { intros nc q IH c. cbn [pre_pat SchemaCompile.compile_pattern]. apply sim_same; [apply sim_nc|]. intros n. apply sim_same; [exact (IH (XAttribute c)) | intros; apply sim_ret; reflexivity]. }
  split; [|split]; [apply (spat_ind' PP GG VV) | apply (gcontent_ind' PP GG VV) | apply (icontent_ind' PP GG VV)]; auto.
  all: try (intros; intros c; cbn [pre_pat pre_content pre_override SchemaCompile.compile_pattern SchemaCompile.compile_content SchemaCompile.compile_override]; first [apply sim_ret; reflexivity | apply sim_panic]; fail).
  all: try (intros q IH c; cbn [pre_pat SchemaCompile.compile_pattern]; first [apply IH | apply sim_same; [apply IH | intros; apply sim_ret; reflexivity]]; fail).
  all: intros a b Ha Hb c; cbn [pre_pat SchemaCompile.compile_pattern]; apply H_two; assumption.
Qed.
Lemma ren_contents l c : sim id (compile_contents O C fs' rp' ri' (rc c) (map pre_content l)) (compile_contents O C fs rp ri c l).
Proof. unfold compile_contents. apply sim_iter. apply Forall_forall. intros g _. exact (proj1 (proj2 ren_same) g c). Qed.
End Rec.
Lemma ren_nested d : (forall p c, sim id (fst (nested O C fs' d) (rc c) (pre_pat p)) (fst (nested O C fs d) c p)) /\ (forall l c, sim id (snd (nested O C fs' d) (rc c) (map pre_content l)) (snd (nested O C fs d) c l)).
Proof.
  induction d as [|d [H1 H2]]; [split; intros; intros st; reflexivity|]. cbn [nested]. destruct (nested O C fs' d) as [rp' ri'], (nested O C fs d) as [rp ri]. cbn [fst snd] in *. split.
  - intros p c. exact (proj1 (ren_same rp' rp ri' ri H1 H2) p c).
  - intros l c. exact (ren_contents rp' rp ri' ri H1 H2 l c).
Qed.
Lemma p_refs cs d : forall p seen e, check_refs cs d seen p = Ok (inr e) -> pre_error e = e.
Proof.
  induction d as [|d IHd].
  all: assert (A : forall X l, Forall (fun p => forall seen e, check_refs cs X seen p = Ok (inr e) -> pre_error e = e) l -> forall seen e, check_all (check_refs cs X) seen l = Ok (inr e) -> pre_error e = e)
    by (intros X l H; induction H as [|x l Hx Hl IH]; intros seen e; [discriminate|]; cbn [check_all]; destruct (check_refs cs X seen x) as [[s|e0]|p|] eqn:E; cbn; try discriminate; [apply IH | intros [= <-]; exact (Hx seen e0 E)]).
  all: intros p; induction p using mpat_ind'; intros seen e; rewrite (check_eq cs); try discriminate; auto.
  all: try (apply A; assumption).
  all: try (apply IHp).
  all: try (destruct ex; [match goal with H : _ |- _ => apply H; reflexivity end | discriminate]).
  all: match goal with |- context [in_dec Nat.eq_dec ?r ?s] => destruct (in_dec Nat.eq_dec r s); [discriminate|] end.
  all: match goal with |- context [nth ?r ?l ?d] => destruct (nth r l d) as [n0 [rule|]] end; try discriminate; try (intros [= <-]; reflexivity); apply IHd.
Qed.
Theorem pre_compiled d name : compile_grammar O C fs' d name = match compile_grammar O C fs d name with Ok (inr e) => Ok (inr (pre_error e)) | r => r end.
Proof.
  unfold compile_grammar. destruct (ren_nested d) as (H1 & H2). destruct (nested O C fs' d) as [rp' ri'], (nested O C fs d) as [rp ri]. cbn [fst snd] in *.
  match goal with |- ?m' empty_cst = match ?m empty_cst with _ => _ end => assert (E : sim id m' m); [|rewrite (E empty_cst); destruct (m empty_cst) as [[[? ?]|?]|?|]; reflexivity] end.
  eapply sim_bind; [apply sim_get|]. intros s. eapply sim_bind; [apply sim_root|]. intros c. eapply sim_bind.
  - apply sim_schema; [intros p c0; exact (proj1 (ren_same rp' rp ri' ri H1 H2) p c0) | intros l c0; exact (ren_contents rp' rp ri' ri H1 H2 l c0)].
  - intros c'. rewrite r_table. apply sim_same; [apply sim_undefined|]. intros [n|]; [apply sim_err; reflexivity|]. apply sim_same; [intros st; reflexivity|]. intros [r|]; [|apply sim_err; reflexivity].
    intros st. destruct (nth r (cells st) ([], None)) as [n [rule|]]; [|reflexivity].
    destruct (check_refs _ _ _ _) as [[x|e]|p|] eqn:E; cbn; try reflexivity. rewrite (p_refs _ _ _ _ _ E). reflexivity.
Qed.
End Compile.
End Rename.

(** the parts of the result of compiling *)
Lemma retagged pn dn : (forall a b, pn a = pn b -> a = b) -> (forall a b, dn a = dn b -> a = b) -> pn (lit "xml") = lit "xml" -> dn (lit "xsd") = lit "xsd" -> forall O C fs d name,
  (forall r, compile_grammar O C fs d name = fok r -> compile_grammar O C (pre_files pn dn fs) d name = fok r) /\
  (forall e, compile_grammar O C fs d name = ferr e -> compile_grammar O C (pre_files pn dn fs) d name = ferr (pre_error pn dn e)) /\
  (forall p, compile_grammar O C fs d name = Panic p -> compile_grammar O C (pre_files pn dn fs) d name = Panic p) /\
  (compile_grammar O C fs d name = OutOfFuel -> compile_grammar O C (pre_files pn dn fs) d name = OutOfFuel).
Proof.
  intros H1 H2 H3 H4 O C fs d name. rewrite (pre_compiled pn dn H1 H2 H3 H4 O C fs d name).
  split; [|split; [|split]]; [intros r -> | intros e -> | intros p -> | intros ->]; reflexivity.
Qed.
Lemma retagged_back pn dn : (forall a b, pn a = pn b -> a = b) -> (forall a b, dn a = dn b -> a = b) -> pn (lit "xml") = lit "xml" -> dn (lit "xsd") = lit "xsd" -> forall O C fs d name r,
  compile_grammar O C (pre_files pn dn fs) d name = fok r -> compile_grammar O C fs d name = fok r.
Proof.
  intros H1 H2 H3 H4 O C fs d name r. rewrite (pre_compiled pn dn H1 H2 H3 H4 O C fs d name). destruct (compile_grammar O C fs d name) as [[x|e]|p|]; intros E; try discriminate E. exact E.
Qed.
(** one prefix for another: the two exchanged *)
Definition swapped (a b n : str) : str := if str_eqb n a then b else if str_eqb n b then a else n.
Lemma swapped_inj a b x y : swapped a b x = swapped a b y -> x = y.
Proof.
  unfold swapped. destruct (str_eqb x a) eqn:E1, (str_eqb y a) eqn:E2, (str_eqb x b) eqn:E3, (str_eqb y b) eqn:E4;
    repeat match goal with H : str_eqb _ _ = true |- _ => apply str_eqb_eq in H | H : str_eqb _ _ = false |- _ => apply str_eqb_neq in H end; intros; congruence.
Qed.
Lemma swapped_other a b n : n <> a -> n <> b -> swapped a b n = n.
Proof. intros H1 H2. unfold swapped. apply str_eqb_neq in H1, H2. rewrite H1, H2. reflexivity. Qed.
Lemma exchanged p q p' q' : ~ In (lit "xml") [p; q] -> ~ In (lit "xsd") [p'; q'] -> forall O C fs d name r,
  compile_grammar O C fs d name = fok r <-> compile_grammar O C (pre_files (swapped p q) (swapped p' q') fs) d name = fok r.
Proof.
  intros H1 H2 O C fs d name r.
  assert (E1 : swapped p q (lit "xml") = lit "xml") by (apply swapped_other; intros K; apply H1; rewrite K; cbn; tauto).
  assert (E2 : swapped p' q' (lit "xsd") = lit "xsd") by (apply swapped_other; intros K; apply H2; rewrite K; cbn; tauto).
  split; [apply retagged | apply retagged_back]; auto; intros a b; apply swapped_inj.
Qed.
