(** * SchemaRename: the names of definitions do not matter (C92). *)
From Coq Require Import String.
From Verif Require Import Base Datatype Facets Store Lang Compile Syntax SchemaCompile SourceCompile.
Local Open Scope cm_scope.

Section Rename.
(** ** Specification: the files with the names of definitions changed *)
Variable ren : str -> str.
Fixpoint ren_pat (p : spat) {struct p} : spat :=
  match p with
  | SElement nc q => SElement nc (ren_pat q)
  | SAttribute nc q => SAttribute nc (ren_pat q)
  | SList q => SList (ren_pat q)
  | SMixed q => SMixed (ren_pat q)
  | SIdent i => SIdent (ren i)
  | SParent i => SParent (ren i)
  | SGrammar l => SGrammar (map ren_content l)
  | SGroup q => SGroup (ren_pat q)
  | SListPair a b => SListPair (ren_pat a) (ren_pat b)
  | SInterleavePair a b => SInterleavePair (ren_pat a) (ren_pat b)
  | SChoicePair a b => SChoicePair (ren_pat a) (ren_pat b)
  | SOptional q => SOptional (ren_pat q)
  | SZeroOrMore q => SZeroOrMore (ren_pat q)
  | SOneOrMore q => SOneOrMore (ren_pat q)
  | SData n ps ex => SData n ps (match ex with Some e => Some (ren_pat e) | None => None end)
  | p => p
  end
with ren_content (g : gcontent) {struct g} : gcontent :=
  match g with
  | GDefine n how p => GDefine (ren n) how (ren_pat p)
  | GDiv l => GDiv (map ren_content l)
  | GInclude h inh ov => GInclude h inh (match ov with Some l => Some (map ren_override l) | None => None end)
  | GAnnotation a => GAnnotation a
  end
with ren_override (i : icontent) {struct i} : icontent :=
  match i with
  | IDefine n how p => IDefine (ren n) how (ren_pat p)
  | IDiv l => IDiv (map ren_override l)
  | IAnnotation a => IAnnotation a
  end.
Definition ren_schema (s : schema) : schema := Schema (s_decls s) (match s_top s with TPattern p => TPattern (ren_pat p) | TGrammar l => TGrammar (map ren_content l) end).
Definition ren_files (fs : filesys) : filesys := fun f => match fs f with inl s => inl (ren_schema s) | inr e => inr e end.
(** the errors which name a definition *)
Fixpoint ren_error (e : rerror) : rerror :=
  match e with
  | EInclude e => EInclude (ren_error e)
  | EDuplicateDefinition n => EDuplicateDefinition (ren n)
  | EUndefinedReference n => EUndefinedReference (ren n)
  | ERecursiveReference n => ERecursiveReference (ren n)
  | EOverrideMissingFromInclude n => EOverrideMissingFromInclude (ren n)
  | e => e
  end.
(** the result: the same start and the same definitions, under the new names *)
Definition rn {A} (x : str * A) : str * A := (ren (fst x), snd x).
Definition ren_state (st : cst) : cst := Cst (map rn (cells st)) (map (map rn) (tables st)) (map (map rn) (ovrs st)) (loaded st).

(** ** Proof *)
Hypothesis ren_inj : forall a b, ren a = ren b -> a = b.
Hypothesis ren_start : ren (lit "start") = lit "start".
Hypothesis ren_nil : ren [] = [].
Definition to {A B} (h : A -> B) (x : fres rerror (A * cst)) : fres rerror (B * cst) :=
  match x with Ok (inl (a, st)) => Ok (inl (h a, ren_state st)) | Ok (inr e) => Ok (inr (ren_error e)) | Panic p => Panic p | OutOfFuel => OutOfFuel end.
Definition sim {A B} (h : A -> B) (m' : CM B) (m : CM A) : Prop := forall st, m' (ren_state st) = to h (m st).
Lemma sim_bind {A B A2 B2} (h : A -> B) (g : A2 -> B2) m' m (k' : B -> CM B2) (k : A -> CM A2) : sim h m' m -> (forall a, sim g (k' (h a)) (k a)) -> sim g (cbind m' k') (cbind m k).
Proof. intros H K st. unfold cbind. rewrite H. destruct (m st) as [[[a s]|e]|p|]; try reflexivity. apply K. Qed.
Lemma sim_same {A B B2} (g : A -> B2) (m' m : CM B) (k' : B -> CM B2) (k : B -> CM A) : sim id m' m -> (forall a, sim g (k' a) (k a)) -> sim g (cbind m' k') (cbind m k).
Proof. intros H K. eapply sim_bind; [exact H | exact K]. Qed.
Lemma sim_ret {A B} (h : A -> B) a b : b = h a -> sim h (cret b) (cret a). Proof. intros -> st. reflexivity. Qed.
Lemma sim_err {A B} (h : A -> B) e e' : e' = ren_error e -> sim h (cerr e') (cerr e). Proof. intros -> st. reflexivity. Qed.
Lemma sim_panic {A B} (h : A -> B) p : sim h (cpanic p) (cpanic p). Proof. intros st. reflexivity. Qed.
Lemma sim_cmap {A B} (h : A -> B) m' m : sim h m' m -> sim h (cmap_err EInclude m') (cmap_err EInclude m).
Proof. intros H st. unfold cmap_err. rewrite H. destruct (m st) as [[[a s]|e]|p|]; reflexivity. Qed.
(** an answer which does not depend on the state or on names *)
Definition quiet {A} (m : CM A) : Prop := forall st, match m st with Ok (inl (_, s)) => s = st | Ok (inr e) => ren_error e = e | _ => True end /\ forall st', m st' = match m st with Ok (inl (a, _)) => Ok (inl (a, st')) | r => r end.
Lemma sim_quiet {A} (m : CM A) : quiet m -> sim id m m.
Proof. intros H st. destruct (H st) as [K1 K2]. rewrite (K2 (ren_state st)). destruct (m st) as [[[a s]|e]|p|]; cbn; [subst; reflexivity | rewrite K1; reflexivity | reflexivity | reflexivity]. Qed.
Lemma q_ret {A} (a : A) : quiet (cret a). Proof. intros st. split; reflexivity. Qed.
Lemma q_err {A} e : ren_error e = e -> quiet (A := A) (cerr e). Proof. intros H st. split; [exact H | reflexivity]. Qed.
Lemma q_panic {A} p : quiet (A := A) (cpanic p). Proof. intros st. split; [exact I | reflexivity]. Qed.
Lemma q_bind {A B} (m : CM A) (k : A -> CM B) : quiet m -> (forall a, quiet (k a)) -> quiet (cbind m k).
Proof.
  intros H K st. unfold cbind. destruct (H st) as [H1 H2]. split.
  - destruct (m st) as [[[a s]|e]|p|]; cbn; try exact I; [subst; apply K | exact H1].
  - intros st'. rewrite (H2 st'). destruct (m st) as [[[a s]|e]|p|]; cbn; try reflexivity. subst s. apply K.
Qed.

(** *** tables *)
Lemma eqb_ren a b : str_eqb (ren a) (ren b) = str_eqb a b.
Proof. destruct (str_eqb a b) eqn:E; [apply str_eqb_eq in E; subst; apply str_eqb_refl|]. apply str_eqb_neq. intros K. apply str_eqb_neq in E. apply E, ren_inj, K. Qed.
Lemma assoc_ren {A} k (l : list (str * A)) : assoc (ren k) (map rn l) = assoc k l.
Proof. induction l as [|[k' v] l IH]; [reflexivity|]. cbn. rewrite eqb_ren, IH. reflexivity. Qed.
Lemma upd_map {A B} (f : A -> B) n x l : upd n (f x) (map f l) = map f (upd n x l).
Proof. revert n. induction l as [|y l IH]; intros [|n]; cbn; try reflexivity. rewrite IH. reflexivity. Qed.
Lemma nth_tbl {A} n (l : list (list (str * A))) : nth n (map (map rn) l) [] = map rn (nth n l []).
Proof. exact (map_nth (map rn) l [] n). Qed.
Lemma nth_cell n l : nth n (map rn l) ([], None) = rn (nth n l ([], @None drule)).
Proof. assert (E : rn ([], @None drule) = ([], None)) by (unfold rn; cbn; rewrite ren_nil; reflexivity). rewrite <- E at 1. apply map_nth. Qed.
Lemma set_ren k (v : bool) l : set_assoc (ren k) v (map rn l) = map rn (set_assoc k v l).
Proof. unfold set_assoc. rewrite !map_map. apply map_ext. intros [k' w]. unfold rn. cbn. rewrite eqb_ren. destruct (str_eqb k' k); reflexivity. Qed.
Lemma merge_ren n a b : merge (ren n) a b = match merge n a b with Ok (inr e) => Ok (inr (ren_error e)) | r => r end.
Proof.
  destruct a as [a|]; [|reflexivity]. cbn [merge]. destruct a as [[[|]|] pa|[|] pa], b as [[[|]|] pb|[|] pb]; cbn [merge1]; try reflexivity.
  all: try (destruct pa; reflexivity). all: try (destruct pb; reflexivity).
Qed.
(** *** contexts *)
Fixpoint rc (c : ctx) : ctx :=
  match c with
  | XRoot f t ns d => XRoot f t ns d
  | XInclude p f o ns d => XInclude (rc p) f o ns d
  | XOverrides p => XOverrides (rc p)
  | XGrammar p t => XGrammar (rc p) t
  | XDefine p i => XDefine (rc p) (ren i)
  | XElement p => XElement (rc p)
  | XAttribute p => XAttribute (rc p)
  end.
Lemma r_check c f : check_include (rc c) f = check_include c f.
Proof. induction c; cbn; try assumption; try reflexivity. rewrite IHc. reflexivity. Qed.
Lemma q_check c f : quiet (check_include c f).
Proof. induction c; cbn; try assumption; try apply q_ret. destruct (path_eqb f file); [apply q_err; reflexivity | assumption]. Qed.
Lemma r_att c : parent_attribute (rc c) = parent_attribute c. Proof. induction c; cbn; auto. Qed.
Lemma r_ns c p : namespace_uri (rc c) p = namespace_uri c p. Proof. induction c; cbn; auto. Qed.
Lemma r_default c : default_namespace_uri (rc c) = default_namespace_uri c. Proof. induction c; cbn; auto. Qed.
Lemma r_dt c p : datatype_uri (rc c) p = datatype_uri c p. Proof. induction c; cbn; auto. rewrite IHc. reflexivity. Qed.
Lemma r_file c : file_of (rc c) = file_of c.
Proof.
  revert c. fix IH 1. intros [f t ns d|p f o ns d|p|p t|p i|p|p]; cbn [rc file_of]; try reflexivity; try apply IH.
  destruct p as [f t ns d|q f o ns d|q|q t|q i|q|q]; cbn [rc]; try reflexivity. apply IH.
Qed.
Lemma r_table c : table_of (rc c) = table_of c. Proof. destruct c; reflexivity. Qed.
Lemma r_include c : is_include (rc c) = is_include c. Proof. destruct c; reflexivity. Qed.
Lemma sim_define_in t i r : sim id (define_in t (ren i) r) (define_in t i r).
Proof.
  intros st. unfold define_in. cbn [ren_state tables cells ovrs loaded]. rewrite nth_tbl, assoc_ren. destruct (assoc i (nth t (tables st) [])) as [k|].
  - change (ren i, @None drule) with (rn (i, @None drule)). rewrite (map_nth rn). cbn [rn snd]. rewrite merge_ren. destruct (merge i (snd (nth k (cells st) (i, None))) r) as [[r'|e]|p|]; try reflexivity.
    cbn. unfold ren_state. cbn. change (ren i, Some r') with (rn (i, Some r')). rewrite upd_map. reflexivity.
  - cbn. unfold ren_state. cbn. rewrite map_length, map_app, <- upd_map, map_app. reflexivity.
Qed.
Lemma sim_acquire_in t i : sim id (acquire_in t (ren i)) (acquire_in t i).
Proof.
  intros st. unfold acquire_in. cbn [ren_state tables cells ovrs loaded]. rewrite nth_tbl, assoc_ren. destruct (assoc i (nth t (tables st) [])) as [k|]; [reflexivity|].
  cbn. unfold ren_state. cbn. rewrite map_length, map_app, <- upd_map, map_app. reflexivity.
Qed.
Lemma sim_get_ovr o i : sim id (get_ovr o (ren i)) (get_ovr o i).
Proof. intros st. unfold get_ovr. cbn. rewrite nth_tbl, assoc_ren. reflexivity. Qed.
Lemma sim_mark o i : sim id (mark_ovr o (ren i)) (mark_ovr o i).
Proof. intros st. unfold mark_ovr. cbn. unfold ren_state. cbn. rewrite nth_tbl, set_ren, upd_map. reflexivity. Qed.
Lemma sim_insert o i : sim id (insert_ovr o (ren i)) (insert_ovr o i).
Proof. intros st. unfold insert_ovr. cbn. unfold ren_state. cbn. rewrite nth_tbl. rewrite <- upd_map, map_app. reflexivity. Qed.
Lemma sim_define : forall c i r, sim id (define (rc c) (ren i) r) (define c i r).
Proof.
  fix IH 1. intros [f t ns d|p f o ns d|p|p t|p j|p|p] i r; cbn [rc define]; try apply sim_panic; try apply sim_define_in.
  - apply sim_same; [apply sim_get_ovr|]. intros [b|]; [apply sim_mark | apply IH].
  - destruct p as [f t ns d|q f o ns d|q|q t|q j|q|q]; cbn [rc]; try apply sim_panic.
    apply sim_same; [apply sim_get_ovr|]. intros [b|]; [apply sim_panic|]. apply sim_same; [apply sim_insert | intros _; apply IH].
Qed.
Lemma sim_impl c i : sim id (acquire_ref_impl (rc c) (ren i)) (acquire_ref_impl c i).
Proof. induction c; cbn; auto using sim_acquire_in. Qed.
Lemma sim_rec c i : sim id (check_ref_recursion (rc c) (ren i)) (check_ref_recursion c i).
Proof. induction c; cbn; try (apply sim_ret; reflexivity); auto. rewrite eqb_ren. destruct (str_eqb id i); [apply sim_err; reflexivity | apply sim_ret; reflexivity]. Qed.
Lemma sim_acquire c i : sim id (acquire_ref (rc c) (ren i)) (acquire_ref c i).
Proof. unfold acquire_ref. apply sim_same; [apply sim_rec | intros _; apply sim_impl]. Qed.
Lemma sim_parent c i : sim id (acquire_parent_ref (rc c) (ren i)) (acquire_parent_ref c i).
Proof. induction c; cbn; auto using sim_acquire. apply sim_err. reflexivity. Qed.
Lemma sim_path c h : sim id (path_from (rc c) h) (path_from c h).
Proof. unfold path_from. rewrite r_file. destruct (file_of c) as [f|]; [destruct (resolve f (lit_value h)); [apply sim_ret; reflexivity | apply sim_panic] | apply sim_panic]. Qed.
Lemma sim_undefined t : sim (option_map ren) (undefined_in t) (undefined_in t).
Proof.
  intros st. unfold undefined_in. cbn [ren_state tables cells]. rewrite nth_tbl. cbn. do 3 f_equal. induction (nth t (tables st) []) as [|[n r] l IH]; [reflexivity|]. cbn. rewrite nth_cell. cbn.
  destruct (snd (nth r (cells st) ([], None))); [exact IH | reflexivity].
Qed.
Lemma sim_get_ref t i : sim id (get_ref_in t (ren i)) (get_ref_in t i).
Proof. intros st. unfold get_ref_in. cbn. rewrite nth_tbl, assoc_ren. reflexivity. Qed.
Lemma sim_take r : sim id (take_cell r) (take_cell r).
Proof.
  intros st. unfold take_cell. cbn [ren_state cells]. rewrite nth_cell. destruct (nth r (cells st) ([], None)) as [n d]. cbn. unfold ren_state. cbn. change (ren n, @None drule) with (rn (n, @None drule)). rewrite upd_map. reflexivity.
Qed.
Lemma sim_take_start t : sim id (take_start t) (take_start t).
Proof.
  unfold take_start. apply sim_same; [rewrite <- ren_start at 1; apply sim_get_ref|]. intros [r|]; [|apply sim_err; reflexivity]. apply sim_same; [apply sim_take|]. intros [d|]; [apply sim_ret; reflexivity | apply sim_err; reflexivity].
Qed.
Lemma sim_grammar c : sim rc (new_grammar (rc c)) (new_grammar c).
Proof. intros st. unfold new_grammar, new_table, cbind, cret. cbn. unfold ren_state. cbn. rewrite map_length, map_app. reflexivity. Qed.
Lemma sim_element c : sim rc (new_element (rc c)) (new_element c).
Proof. unfold new_element. rewrite r_att. destruct (parent_attribute c); [apply sim_err; reflexivity | apply sim_ret; reflexivity]. Qed.
Lemma sim_new_ovr : sim id new_ovr new_ovr.
Proof. intros st. unfold new_ovr. cbn. unfold ren_state. cbn. rewrite map_length, map_app. reflexivity. Qed.
Lemma sim_new_include c f : sim rc (new_include (rc c) f) (new_include c f).
Proof. unfold new_include. rewrite r_check. apply sim_same; [apply sim_quiet, q_check|]. intros _. apply sim_same; [apply sim_new_ovr|]. intros o. apply sim_ret. reflexivity. Qed.
Lemma sim_root f : sim rc (new_root f) (new_root f).
Proof. intros st. unfold new_root, new_table, cbind, cret. cbn. unfold ren_state. cbn. rewrite map_length, map_app. reflexivity. Qed.
Lemma sim_overrides c : sim id (check_overrides (rc c)) (check_overrides c).
Proof.
  destruct c; try apply sim_panic. cbn [rc check_overrides]. intros st. cbn [ren_state ovrs]. rewrite nth_tbl.
  assert (E : forall l, find (fun '(_, b) => negb b) (map (@rn bool) l) = option_map rn (find (fun '(_, b) => negb b) l)) by (induction l as [|[n b] l IH]; [reflexivity|]; cbn; destruct b; [exact IH | reflexivity]).
  rewrite E. destruct (find _ (nth ov (ovrs st) [])) as [[n b]|]; reflexivity.
Qed.
Lemma sim_declare_ns c p u : sim rc (declare_namespace (rc c) p u) (declare_namespace c p u).
Proof. destruct c; cbn [rc declare_namespace]; try apply sim_panic; apply sim_ret; destruct (assoc p ns); reflexivity. Qed.
Lemma sim_declare_dt c p u : sim rc (declare_datatype (rc c) p u) (declare_datatype c p u).
Proof. destruct c; cbn [rc declare_datatype]; try apply sim_panic; destruct (assoc p dts); first [apply sim_err; reflexivity | apply sim_ret; reflexivity]. Qed.
Lemma sim_decls ds : forall c, sim rc (compile_declarations (rc c) ds) (compile_declarations c ds).
Proof.
  induction ds as [|d ds IH]; intros c; [apply sim_ret; reflexivity|]. cbn [compile_declarations]. eapply sim_bind; [|exact IH].
  destruct d as [p [|u]|[p|] [|u]|p u]; cbn [compile_declaration]; try apply sim_panic; auto using sim_declare_ns, sim_declare_dt. apply sim_ret. reflexivity.
Qed.
Lemma sim_inherit c inc i : sim rc (inherit_prefix (rc c) (rc inc) i) (inherit_prefix c inc i).
Proof. destruct i as [i|]; cbn [inherit_prefix]; [|apply sim_ret; reflexivity]. rewrite r_ns. destruct (namespace_uri c (ik_string i)); [apply sim_declare_ns | apply sim_err; reflexivity]. Qed.
Lemma sim_ns c p : sim id (namespace_uri_for_prefix (rc c) p) (namespace_uri_for_prefix c p).
Proof. unfold namespace_uri_for_prefix. rewrite r_ns. destruct (namespace_uri c p); [apply sim_ret; reflexivity | apply sim_err; reflexivity]. Qed.
Lemma sim_nc c el n : sim id (compile_nameclass (rc c) el n) (compile_nameclass c el n).
Proof.
  induction n as [n|n ex IH|ex IH|a IHa b IHb|a IH] using snc_ind'; cbn [compile_nameclass].
  - destruct n; [rewrite r_default; apply sim_ret; reflexivity | apply sim_same; [apply sim_ns | intros; apply sim_ret; reflexivity] | apply sim_ret; reflexivity].
  - apply sim_same; [destruct ex as [e|]; [apply sim_same; [exact IH | intros; apply sim_ret; reflexivity] | apply sim_ret; reflexivity]|]. intros e. apply sim_same; [|intros; apply sim_ret; reflexivity]. destruct n; [apply sim_ns | apply sim_ret; reflexivity].
  - apply sim_same; [destruct ex as [e|]; [apply sim_same; [exact IH | intros; apply sim_ret; reflexivity] | apply sim_ret; reflexivity]|]. intros; apply sim_ret; reflexivity.
  - apply sim_same; [exact IHa|]. intros x. apply sim_same; [exact IHb | intros; apply sim_ret; reflexivity].
  - exact IH.
Qed.
Lemma sim_type c n : sim id (compile_dtname (rc c) n) (compile_dtname c n).
Proof. destruct n; cbn [compile_dtname]; try (apply sim_ret; reflexivity). apply sim_same; [|intros; apply sim_ret; reflexivity]. unfold try_datatype_uri. rewrite r_dt. destruct (datatype_uri c prefix); [apply sim_ret; reflexivity | apply sim_err; reflexivity]. Qed.
Lemma sim_lift {A} (x : fres dt_error A) : sim id (lift_dt x) (lift_dt x).
Proof. intros st. unfold lift_dt. destruct x as [[a|e]|p|]; reflexivity. Qed.

(** *** patterns, contents, files *)
Section Compile.
Variable O : oracles.
Variable C : coracles.
Variable fs : filesys.
Notation fs' := (ren_files fs).
Lemma sim_get f : sim ren_schema (get_schema fs' f) (get_schema fs f).
Proof. intros st. unfold get_schema, ren_files. destruct (fs f) as [s|e]; reflexivity. Qed.
Lemma sim_iter {X} (t : X -> X) (f' f : X -> CM unit) l : Forall (fun x => sim id (f' (t x)) (f x)) l -> sim id (citer f' (map t l)) (citer f l).
Proof. induction 1 as [|x l Hx _ IH]; [apply sim_ret; reflexivity|]. cbn [map citer]. apply sim_same; [exact Hx | intros _; exact IH]. Qed.
Section Rec.
Variables (rp' rp : ctx -> spat -> CM mpat) (ri' ri : ctx -> list gcontent -> CM unit).
Hypothesis Hp : forall p c, sim id (rp' (rc c) (ren_pat p)) (rp c p).
Hypothesis Hi : forall l c, sim id (ri' (rc c) (map ren_content l)) (ri c l).
Notation P' := (compile_pattern O C fs' rp' ri').
Notation P := (compile_pattern O C fs rp ri).
Notation G' := (compile_content O C fs' rp' ri').
Notation G := (compile_content O C fs rp ri).
Notation V' := (compile_override O C fs' rp' ri').
Notation V := (compile_override O C fs rp ri).
Lemma sim_schema (cp' cp : ctx -> spat -> CM mpat) (ci' ci : ctx -> list gcontent -> CM unit) c s :
  (forall p c, sim id (cp' (rc c) (ren_pat p)) (cp c p)) -> (forall l c, sim id (ci' (rc c) (map ren_content l)) (ci c l)) ->
  sim rc (compile_schema_with cp' ci' (rc c) (ren_schema s)) (compile_schema_with cp ci c s).
Proof.
  intros H1 H2. unfold compile_schema_with, ren_schema. cbn [s_decls s_top]. eapply sim_bind; [apply sim_decls|]. intros c'. destruct (s_top s) as [p|l].
  - rewrite r_include. destruct (is_include c').
    + destruct p; try (apply sim_err; reflexivity). cbn [ren_pat]. apply sim_same; [apply H2 | intros; apply sim_ret; reflexivity].
    + apply sim_same; [apply H1|]. intros r. apply sim_same; [|intros; apply sim_ret; reflexivity]. rewrite <- ren_start at 1. apply sim_define.
  - apply sim_same; [apply H2 | intros; apply sim_ret; reflexivity].
Qed.
Lemma ren_same : (forall p c, sim id (P' (rc c) (ren_pat p)) (P c p)) /\ (forall g c, sim id (G' (rc c) (ren_content g)) (G c g)) /\ (forall i c, sim id (V' (rc c) (ren_override i)) (V c i)).
Proof.
  set (PP := fun p => forall c, sim id (P' (rc c) (ren_pat p)) (P c p)). set (GG := fun g => forall c, sim id (G' (rc c) (ren_content g)) (G c g)). set (VV := fun i => forall c, sim id (V' (rc c) (ren_override i)) (V c i)).
  assert (H_two : forall (F : mpat -> mpat -> mpat) a b c, PP a -> PP b -> sim id (do x <- P' (rc c) (ren_pat a); do y <- P' (rc c) (ren_pat b); cret (F x y)) (do x <- P c a; do y <- P c b; cret (F x y))).
  { intros F a b c Ha Hb. apply sim_same; [apply Ha|]. intros x. apply sim_same; [apply Hb | intros; apply sim_ret; reflexivity]. }
  assert (H_con : forall l, Forall GG l -> forall c, sim id (citer (G' (rc c)) (map ren_content l)) (citer (G c) l)).
  { intros l H c. apply sim_iter. eapply Forall_impl; [|exact H]. intros g Hg. apply Hg. }
  assert (H_gr : forall l, Forall GG l -> PP (SGrammar l)).
  { intros l Hl c. cbn [ren_pat SchemaCompile.compile_pattern]. eapply sim_bind; [apply sim_grammar|]. intros g. apply sim_same; [apply H_con, Hl|]. intros _. rewrite r_table. apply sim_take_start. }
  assert (H_ex : forall h i, PP (SExternal h i)).
  { intros h [i|] c; [apply sim_panic|]. cbn [ren_pat SchemaCompile.compile_pattern]. apply sim_same; [apply sim_path|]. intros f. eapply sim_bind; [apply sim_cmap, sim_get|]. intros s. eapply sim_bind; [apply sim_new_include|]. intros inc.
    unfold ren_schema. cbn [s_top]. destruct (s_top s) as [p|l]; [apply sim_cmap, Hp|]. eapply sim_bind; [apply sim_grammar|]. intros g. apply sim_same; [apply Hi|]. intros _. rewrite r_table. eapply sim_bind; [apply sim_undefined|].
    intros [n|]; [apply sim_err; reflexivity | apply sim_take_start]. }
  assert (H_gi : forall h inh ov, (match ov with Some l => Forall VV l | None => True end) -> GG (GInclude h inh ov)).
  { intros h inh ov Hov c. cbn [ren_content SchemaCompile.compile_content]. apply sim_same; [apply sim_path|]. intros f. eapply sim_bind; [apply sim_cmap, sim_get|]. intros s. eapply sim_bind; [apply sim_new_include|]. intros inc.
    eapply sim_bind; [apply sim_inherit|]. intros inc'. apply sim_same.
    - destruct ov as [l|]; [|apply sim_ret; reflexivity]. apply sim_iter. eapply Forall_impl; [|exact Hov]. intros i Hv. apply sim_cmap. exact (Hv (XOverrides inc')).
    - intros _. eapply sim_bind; [apply sim_cmap, sim_schema; assumption | apply sim_overrides]. }
  assert (H_gv : forall l, Forall GG l -> GG (GDiv l)) by (intros l Hl c; cbn [ren_content SchemaCompile.compile_content]; apply H_con, Hl).
  assert (H_gd : forall n how p, PP p -> GG (GDefine n how p)).
  { intros n how p IH c. cbn [ren_content SchemaCompile.compile_content]. apply sim_same; [exact (IH (XDefine c n)) | intros x; apply sim_define]. }
  assert (H_if : forall n how p, PP p -> VV (IDefine n how p)).
  { intros n how p IH c. cbn [ren_override SchemaCompile.compile_override]. apply sim_same; [exact (IH (XDefine c n)) | intros x; apply sim_define]. }
  assert (H_da : forall n ps ex, (match ex with Some e => PP e | None => True end) -> PP (SData n ps ex)).
  { intros n ps ex IH c. cbn [ren_pat SchemaCompile.compile_pattern]. apply sim_same; [apply sim_type|]. intros d. apply sim_same; [apply sim_lift|]. intros x. apply sim_same; [|intros; apply sim_ret; reflexivity].
    destruct ex as [e|]; [apply sim_same; [apply IH | intros; apply sim_ret; reflexivity] | apply sim_ret; reflexivity]. }
  assert (H_va : forall n v, PP (SValue n v)).
  { intros n v c. cbn [ren_pat SchemaCompile.compile_pattern]. apply sim_same; [apply sim_type|]. intros d. apply sim_same; [apply sim_lift | intros; apply sim_ret; reflexivity]. }
  assert (H_id : forall i, PP (SIdent i)) by (intros i c; cbn [ren_pat SchemaCompile.compile_pattern]; apply sim_same; [apply sim_acquire | intros; apply sim_ret; reflexivity]).
  assert (H_pa : forall i, PP (SParent i)) by (intros i c; cbn [ren_pat SchemaCompile.compile_pattern]; apply sim_same; [apply sim_parent | intros; apply sim_ret; reflexivity]).
  assert (H_el : forall nc q, PP q -> PP (SElement nc q)).
  { intros nc q IH c. cbn [ren_pat SchemaCompile.compile_pattern]. apply sim_same; [apply sim_nc|]. intros n. eapply sim_bind; [apply sim_element|]. intros c'. apply sim_same; [apply IH | intros; apply sim_ret; reflexivity]. }
  assert (H_at : forall nc q, PP q -> PP (SAttribute nc q)).
  { intros nc q IH c. cbn [ren_pat SchemaCompile.compile_pattern]. apply sim_same; [apply sim_nc|]. intros n. apply sim_same; [exact (IH (XAttribute c)) | intros; apply sim_ret; reflexivity]. }
  split; [|split]; [apply (spat_ind' PP GG VV) | apply (gcontent_ind' PP GG VV) | apply (icontent_ind' PP GG VV)]; auto.
  all: try (intros; intros c; cbn [ren_pat ren_content ren_override SchemaCompile.compile_pattern SchemaCompile.compile_content SchemaCompile.compile_override]; first [apply sim_ret; reflexivity | apply sim_panic]; fail).
  all: try (intros q IH c; cbn [ren_pat SchemaCompile.compile_pattern]; first [apply IH | apply sim_same; [apply IH | intros; apply sim_ret; reflexivity]]; fail).
  all: intros a b Ha Hb c; cbn [ren_pat SchemaCompile.compile_pattern]; apply H_two; assumption.
Qed.
Lemma ren_contents l c : sim id (compile_contents O C fs' rp' ri' (rc c) (map ren_content l)) (compile_contents O C fs rp ri c l).
Proof. unfold compile_contents. apply sim_iter. apply Forall_forall. intros g _. exact (proj1 (proj2 ren_same) g c). Qed.
End Rec.
Lemma ren_nested d : (forall p c, sim id (fst (nested O C fs' d) (rc c) (ren_pat p)) (fst (nested O C fs d) c p)) /\ (forall l c, sim id (snd (nested O C fs' d) (rc c) (map ren_content l)) (snd (nested O C fs d) c l)).
Proof.
  induction d as [|d [H1 H2]]; [split; intros; intros st; reflexivity|]. cbn [nested]. destruct (nested O C fs' d) as [rp' ri'], (nested O C fs d) as [rp ri]. cbn [fst snd] in *. split.
  - intros p c. exact (proj1 (ren_same rp' rp ri' ri H1 H2) p c).
  - intros l c. exact (ren_contents rp' rp ri' ri H1 H2 l c).
Qed.
Definition re {A} (x : fres rerror A) : fres rerror A := match x with Ok (inr e) => Ok (inr (ren_error e)) | r => r end.
Lemma check_ren cs d : forall p seen, check_refs (map rn cs) d seen p = re (check_refs cs d seen p).
Proof.
  induction d as [|d IHd].
  all: assert (A : forall X l, Forall (fun p => forall seen, check_refs (map rn cs) X seen p = re (check_refs cs X seen p)) l -> forall seen, check_all (check_refs (map rn cs) X) seen l = re (check_all (check_refs cs X) seen l))
    by (intros X l H; induction H as [|x l Hx Hl IH]; intros seen; [reflexivity|]; cbn [check_all]; rewrite Hx; destruct (check_refs cs X seen x) as [[s|e]|p|]; cbn; try reflexivity; apply IH).
  all: intros p; induction p using mpat_ind'; intros seen; rewrite (check_eq (map rn cs)), (check_eq cs); try reflexivity; auto.
  all: try (destruct ex as [e|]; [auto | reflexivity]).
  all: match goal with |- context [in_dec Nat.eq_dec ?r ?s] => destruct (in_dec Nat.eq_dec r s); [reflexivity|] end; rewrite nth_cell.
  all: match goal with |- context [nth ?r ?l ?d] => destruct (nth r l d) as [n0 [rule|]] end; cbn [rn fst snd]; try reflexivity; apply IHd.
Qed.
Theorem ren_compiled d name : compile_grammar O C fs' d name = match compile_grammar O C fs d name with
  | Ok (inl (r, st)) => Ok (inl (r, ren_state st)) | Ok (inr e) => Ok (inr (ren_error e)) | Panic p => Panic p | OutOfFuel => OutOfFuel end.
Proof.
  unfold compile_grammar. destruct (ren_nested d) as (H1 & H2). destruct (nested O C fs' d) as [rp' ri'], (nested O C fs d) as [rp ri]. cbn [fst snd] in *.
  match goal with |- ?m' empty_cst = match ?m empty_cst with _ => _ end => assert (E : sim id m' m); [|apply (E empty_cst)] end.
  eapply sim_bind; [apply sim_get|]. intros s. eapply sim_bind; [apply sim_root|]. intros c. eapply sim_bind.
  - apply sim_schema; [intros p c0; exact (proj1 (ren_same rp' rp ri' ri H1 H2) p c0) | intros l c0; exact (ren_contents rp' rp ri' ri H1 H2 l c0)].
  - intros c'. rewrite r_table. eapply sim_bind; [apply sim_undefined|]. intros [n|]; [apply sim_err; reflexivity|]. apply sim_same; [rewrite <- ren_start at 1; apply sim_get_ref|]. intros [r|]; [|apply sim_err; reflexivity].
    intros st. cbn [ren_state cells]. rewrite nth_cell, map_length. destruct (nth r (cells st) ([], None)) as [n [rule|]]; [|reflexivity]. cbn [rn fst snd]. rewrite check_ren.
    destruct (check_refs _ _ _ _) as [[x|e]|p|]; reflexivity.
Qed.
End Compile.
End Rename.

(** the parts of the result of compiling *)
Lemma renamed ren : (forall a b, ren a = ren b -> a = b) -> ren (lit "start") = lit "start" -> ren [] = [] -> forall O C fs d name,
  (forall r st, compile_grammar O C fs d name = fok (r, st) -> exists st', compile_grammar O C (ren_files ren fs) d name = fok (r, st') /\ map snd (cells st') = map snd (cells st) /\ loaded st' = loaded st) /\
  (forall e, compile_grammar O C fs d name = ferr e -> compile_grammar O C (ren_files ren fs) d name = ferr (ren_error ren e)) /\
  (forall p, compile_grammar O C fs d name = Panic p -> compile_grammar O C (ren_files ren fs) d name = Panic p) /\
  (compile_grammar O C fs d name = OutOfFuel -> compile_grammar O C (ren_files ren fs) d name = OutOfFuel).
Proof.
  intros H1 H2 H3 O C fs d name. rewrite (ren_compiled ren H1 H2 H3 O C fs d name). split; [|split; [|split]].
  - intros r st ->. eexists. split; [reflexivity|]. split; [|reflexivity]. cbn. rewrite map_map. reflexivity.
  - intros e ->. reflexivity.
  - intros p ->. reflexivity.
  - intros ->. reflexivity.
Qed.
(** the validator is built from the same *)
Lemma renamed_defs ren : (forall a b, ren a = ren b -> a = b) -> ren (lit "start") = lit "start" -> ren [] = [] -> forall O C fs d name r st r' st',
  compile_grammar O C fs d name = fok (r, st) -> compile_grammar O C (ren_files ren fs) d name = fok (r', st') -> r' = r /\ cell_defs st' = cell_defs st.
Proof.
  intros H1 H2 H3 O C fs d name r st r' st' K K'. destruct (renamed ren H1 H2 H3 O C fs d name) as (A & _). destruct (A r st K) as (st1 & E & Ec & _). rewrite K' in E. injection E as -> ->. split; [reflexivity|].
  assert (D : forall s, cell_defs s = map (fun c => match c with Some r => rule_pattern r | None => MNotAllowed end) (map snd (cells s))) by (intros s; unfold cell_defs; rewrite map_map; reflexivity).
  rewrite !D, Ec. reflexivity.
Qed.
(** back: what the renamed files compile to, the files compile to *)
Lemma renamed_back ren : (forall a b, ren a = ren b -> a = b) -> ren (lit "start") = lit "start" -> ren [] = [] -> forall O C fs d name r st',
  compile_grammar O C (ren_files ren fs) d name = fok (r, st') -> exists st, compile_grammar O C fs d name = fok (r, st).
Proof.
  intros H1 H2 H3 O C fs d name r st'. rewrite (ren_compiled ren H1 H2 H3 O C fs d name). destruct (compile_grammar O C fs d name) as [[[r0 st]|e]|p|]; intros E; try discriminate E. injection E as <- _. exists st. reflexivity.
Qed.
(** x before every name but start *)
Definition with_x (n : str) : str := match n with [] => [] | _ => if str_eqb n (lit "start") then n else lit "x" ++ n end.
Lemma with_x_inj a b : with_x a = with_x b -> a = b.
Proof.
  unfold with_x. destruct a as [|a1 a], b as [|b1 b]; try reflexivity.
  - destruct (str_eqb (b1 :: b) (lit "start")); discriminate.
  - destruct (str_eqb (a1 :: a) (lit "start")); discriminate.
  - destruct (str_eqb (a1 :: a) (lit "start")) eqn:E, (str_eqb (b1 :: b) (lit "start")) eqn:E'; try (apply str_eqb_eq in E; rewrite E); try (apply str_eqb_eq in E'; rewrite E'); intros H; try reflexivity; try discriminate H.
    injection H as -> ->. reflexivity.
Qed.
