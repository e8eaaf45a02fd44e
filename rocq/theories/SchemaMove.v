(** * SchemaMove: a schema moved to another directory (C94). *)
From Coq Require Import String.
From Verif Require Import Base Datatype Facets Store Lang Compile Syntax SchemaCompile SourceCompile.
Local Open Scope cm_scope.

(** ** Specification: every href of a pattern, of an item of a grammar, of an item of an override block *)
Section Hrefs.
Variable Q : str -> Prop.
Fixpoint hrefs_pat (p : spat) {struct p} : Prop :=
  match p with
  | SElement _ q | SAttribute _ q | SList q | SMixed q | SGroup q | SOptional q | SZeroOrMore q | SOneOrMore q => hrefs_pat q
  | SListPair a b | SInterleavePair a b | SChoicePair a b => hrefs_pat a /\ hrefs_pat b
  | SExternal h _ => Q (lit_value h)
  | SGrammar l => fold_right (fun g H => hrefs_content g /\ H) True l
  | SData _ _ (Some e) => hrefs_pat e
  | _ => True
  end
with hrefs_content (g : gcontent) {struct g} : Prop :=
  match g with
  | GDefine _ _ p => hrefs_pat p
  | GDiv l => fold_right (fun g H => hrefs_content g /\ H) True l
  | GInclude h _ ov => Q (lit_value h) /\ (match ov with Some l => fold_right (fun i H => hrefs_override i /\ H) True l | None => True end)
  | GAnnotation _ => True
  end
with hrefs_override (i : icontent) {struct i} : Prop :=
  match i with
  | IDefine _ _ p => hrefs_pat p
  | IDiv l => fold_right (fun i H => hrefs_override i /\ H) True l
  | IAnnotation _ => True
  end.
Definition hrefs_schema (s : schema) : Prop :=
  match s_top s with TPattern p => hrefs_pat p | TGrammar l => fold_right (fun g H => hrefs_content g /\ H) True l end.
End Hrefs.
Definition relative (h : str) : Prop := match h with c :: _ => c <> 47%N | [] => True end.
(** the path [l] in the directory [pre] *)
Definition inside (abs : bool) (pre : list str) (l : list str) : path := Path abs (pre ++ l).

(** ** Proof *)
Section Move.
Variable mv : path -> path.
Fixpoint moved_error (e : rerror) : rerror :=
  match e with
  | EInclude e => EInclude (moved_error e)
  | ERecursiveInclude f => ERecursiveInclude (mv f)
  | e => e
  end.
Definition setl (l : list path) (st : cst) : cst := Cst (cells st) (tables st) (ovrs st) l.
Definition moved_state (st : cst) : cst := setl (map mv (loaded st)) st.
Variable near : path -> Prop.
Hypothesis mv_inj : forall f g, near f -> near g -> mv f = mv g -> f = g.
Variable okh : str -> Prop.
Variables (fs fs' : filesys).
Hypothesis H_fs : forall f, near f -> fs' (mv f) = fs f.
Hypothesis H_ok : forall f s, near f -> fs f = inl s -> hrefs_schema okh s.
Definition good (f : path) : Prop := near f /\ exists s, fs f = inl s.
Hypothesis H_res : forall f h, good f -> okh h ->
  match resolve f h with Some g => near g /\ resolve (mv f) h = Some (mv g) | None => resolve (mv f) h = None end.

Definition sim {A B} (h : A -> B) (G : A -> Prop) (m' : CM B) (m : CM A) : Prop := forall st, Forall near (loaded st) ->
  match m st with
  | Ok (inl (a, st1)) => m' (moved_state st) = Ok (inl (h a, moved_state st1)) /\ Forall near (loaded st1) /\ G a
  | Ok (inr e) => m' (moved_state st) = Ok (inr (moved_error e))
  | Panic p => m' (moved_state st) = Panic p
  | OutOfFuel => m' (moved_state st) = OutOfFuel
  end.
Definition any {A} (_ : A) : Prop := True.
Lemma sim_bind {A B A2 B2} (h : A -> B) G (g : A2 -> B2) G2 m' m (k' : B -> CM B2) (k : A -> CM A2) :
  sim h G m' m -> (forall a, G a -> sim g G2 (k' (h a)) (k a)) -> sim g G2 (cbind m' k') (cbind m k).
Proof.
  intros H K st L. specialize (H st L). unfold cbind, fbind. destruct (m st) as [[[a s]|e]|p|]; [|rewrite H; reflexivity..].
  destruct H as (-> & L1 & Ga). exact (K a Ga s L1).
Qed.
Lemma sim_same {A B B2} (g : A -> B2) G2 (m' m : CM B) (k' : B -> CM B2) (k : B -> CM A) : sim id any m' m -> (forall a, sim g G2 (k' a) (k a)) -> sim g G2 (cbind m' k') (cbind m k).
Proof. intros H K. eapply sim_bind; [exact H | intros a _; exact (K a)]. Qed.
Lemma sim_ret {A B} (h : A -> B) (G : A -> Prop) a b : b = h a -> G a -> sim h G (cret b) (cret a). Proof. intros -> Ga st L. cbn. auto. Qed.
Lemma sim_id {A} (a : A) : sim id any (cret a) (cret a). Proof. apply sim_ret; [reflexivity | exact I]. Qed.
Lemma sim_err {A B} (h : A -> B) G e e' : e' = moved_error e -> sim h G (cerr e') (cerr e). Proof. intros -> st L. reflexivity. Qed.
Lemma sim_panic {A B} (h : A -> B) G p : sim h G (cpanic p) (cpanic p). Proof. intros st L. reflexivity. Qed.
Lemma sim_cmap {A B} (h : A -> B) G m' m : sim h G m' m -> sim h G (cmap_err EInclude m') (cmap_err EInclude m).
Proof. intros H st L. specialize (H st L). unfold cmap_err. destruct (m st) as [[[a s]|e]|p|]; cbn; [destruct H as (-> & H); split; [reflexivity | exact H] | rewrite H; reflexivity..]. Qed.
Lemma sim_iter {X} (f' f : X -> CM unit) l : Forall (fun x => sim id any (f' x) (f x)) l -> sim id any (citer f' l) (citer f l).
Proof. induction 1 as [|x l Hx _ IH]; [apply sim_id|]. cbn [citer]. apply sim_same; [exact Hx | intros _; exact IH]. Qed.
(** what neither loads a file nor names one *)
Definition plainly {A} (m : CM A) : Prop := forall st, match m st with
  | Ok (inl (a, st1)) => loaded st1 = loaded st /\ forall l, m (setl l st) = Ok (inl (a, setl l st1))
  | Ok (inr e) => moved_error e = e /\ forall l, m (setl l st) = Ok (inr e)
  | Panic p => forall l, m (setl l st) = Panic p
  | OutOfFuel => forall l, m (setl l st) = OutOfFuel
  end.
Lemma sim_plainly {A} (m : CM A) : plainly m -> sim id any m m.
Proof.
  intros H st L. specialize (H st). unfold moved_state. destruct (m st) as [[[a s]|e]|p|]; try (apply H).
  - destruct H as [E H]. rewrite (H _), E. split; [reflexivity | split; [exact L | exact I]].
  - destruct H as [E H]. rewrite (H _), E. reflexivity.
Qed.
Lemma p_ret {A} (a : A) : plainly (cret a). Proof. intros st. cbn. auto. Qed.
Lemma p_panic {A} p : plainly (A := A) (cpanic p). Proof. intros st l. reflexivity. Qed.
Lemma p_err {A} e : moved_error e = e -> plainly (A := A) (cerr e). Proof. intros H st. cbn. auto. Qed.
Lemma p_bind {A B} (m : CM A) (k : A -> CM B) : plainly m -> (forall a, plainly (k a)) -> plainly (cbind m k).
Proof.
  intros H K st. specialize (H st). unfold cbind, fbind, rbind. destruct (m st) as [[[a s]|e]|p|].
  - destruct H as [E H]. cbv beta iota. specialize (K a s). destruct (k a s) as [[[b s2]|e2]|p2|].
    + destruct K as [E2 K]. split; [congruence | intros l; rewrite H; apply K].
    + destruct K as [E2 K]. split; [exact E2 | intros l; rewrite H; apply K].
    + intros l. rewrite H. apply K.
    + intros l. rewrite H. apply K.
  - destruct H as [E H]. split; [exact E | intros l; rewrite H; reflexivity].
  - intros l. rewrite H. reflexivity.
  - intros l. rewrite H. reflexivity.
Qed.

(** *** contexts *)
Fixpoint rc (c : ctx) : ctx :=
  match c with
  | XRoot f t ns d => XRoot (mv f) t ns d
  | XInclude p f o ns d => XInclude (rc p) (mv f) o ns d
  | XOverrides p => XOverrides (rc p)
  | XGrammar p t => XGrammar (rc p) t
  | XDefine p i => XDefine (rc p) i
  | XElement p => XElement (rc p)
  | XAttribute p => XAttribute (rc p)
  end.
Fixpoint cg (c : ctx) : Prop :=
  match c with
  | XRoot f _ _ _ => good f
  | XInclude p f _ _ _ => cg p /\ good f
  | XOverrides p | XGrammar p _ | XDefine p _ | XElement p | XAttribute p => cg p
  end.
Lemma sim_check c f : cg c -> good f -> sim id any (check_include (rc c) (mv f)) (check_include c f).
Proof.
  intros Hc [Hf _]. induction c; cbn [cg rc check_include] in *; try (apply IHc; assumption); try apply sim_id.
  destruct Hc as [Hc [Hn _]]. unfold path_eqb. destruct (path_eq_dec f file) as [->|N].
  - destruct (path_eq_dec (mv file) (mv file)); [apply sim_err; reflexivity | congruence].
  - destruct (path_eq_dec (mv f) (mv file)) as [E|]; [destruct N; apply mv_inj; assumption | apply IHc, Hc].
Qed.
Lemma r_att c : parent_attribute (rc c) = parent_attribute c. Proof. induction c; cbn; auto. Qed.
Lemma r_ns c p : namespace_uri (rc c) p = namespace_uri c p. Proof. induction c; cbn; auto. Qed.
Lemma r_default c : default_namespace_uri (rc c) = default_namespace_uri c. Proof. induction c; cbn; auto. Qed.
Lemma r_dt c p : datatype_uri (rc c) p = datatype_uri c p. Proof. induction c; cbn [rc datatype_uri]; auto. rewrite IHc. reflexivity. Qed.
Lemma r_file c : file_of (rc c) = option_map mv (file_of c).
Proof.
  revert c. fix IH 1. intros [f t ns d|p f o ns d|p|p t|p i|p|p]; cbn [rc file_of]; try reflexivity; try apply IH.
  destruct p as [f t ns d|q f o ns d|q|q t|q i|q|q]; cbn [rc]; try reflexivity. apply IH.
Qed.
Lemma cg_file c f : cg c -> file_of c = Some f -> good f.
Proof.
  revert c. fix IH 1. intros c. destruct c as [g t ns d|p g o ns d|p|p t|p i|p|p]; cbn [cg file_of].
  - intros H E. injection E as E. rewrite <- E. exact H.
  - intros [_ H] E. injection E as E. rewrite <- E. exact H.
  - destruct p as [g t ns d|q g o ns d|q|q t|q i|q|q]; try discriminate. cbn [cg]. intros [H _]. exact (IH q H).
  - exact (IH p).
  - exact (IH p).
  - exact (IH p).
  - exact (IH p).
Qed.
Lemma r_table c : table_of (rc c) = table_of c. Proof. destruct c; reflexivity. Qed.
Lemma r_include c : is_include (rc c) = is_include c. Proof. destruct c; reflexivity. Qed.
Lemma r_overrides c : check_overrides (rc c) = check_overrides c. Proof. destruct c; reflexivity. Qed.
Lemma p_overrides c : plainly (check_overrides c).
Proof. destruct c; try apply p_panic. intros st. cbn. destruct (find _ _) as [[n b]|]; cbn; auto. Qed.
Lemma r_define : forall c i r st, define (rc c) i r st = define c i r st.
Proof.
  fix IH 1. intros [f t ns d|p f o ns d|p|p t|p j|p|p] i r st; cbn [rc define]; try reflexivity.
  - unfold cbind. destruct (get_ovr o i st) as [[[[b|] s]|e]|q|]; try reflexivity. apply IH.
  - destruct p as [f t ns d|q f o ns d|q|q t|q j|q|q]; cbn [rc]; try reflexivity.
    unfold cbind. destruct (get_ovr o i st) as [[[[b|] s]|e]|x|]; try reflexivity. cbn. apply IH.
Qed.
Lemma p_merge n a b e : merge n a b = Ok (inr e) -> moved_error e = e.
Proof.
  destruct a as [a|]; [|discriminate]. cbn [merge]. destruct a as [[[|]|] pa|[|] pa], b as [[[|]|] pb|[|] pb]; cbn [merge1]; try (intros [= <-]; reflexivity).
  all: try (destruct pa; discriminate). all: try (destruct pb; discriminate).
Qed.
Lemma p_define_in t i r : plainly (define_in t i r).
Proof.
  intros st. unfold define_in. cbn [tables cells ovrs loaded setl]. destruct (assoc i (nth t (tables st) [])) as [n|]; [|split; [reflexivity | intros l; reflexivity]].
  destruct (merge i (snd (nth n (cells st) (i, None))) r) as [[x|e]|p|] eqn:E; cbn; try (split; [reflexivity | intros l; reflexivity]); try (intros l; reflexivity).
  split; [exact (p_merge _ _ _ _ E) | intros l; reflexivity].
Qed.
Lemma p_here {A} (m : CM A) (F : cst -> A) (U : cst -> cst) : (forall st, m st = fok (F st, U st)) -> (forall st, loaded (U st) = loaded st) -> (forall st l, F (setl l st) = F st) -> (forall st l, U (setl l st) = setl l (U st)) -> plainly m.
Proof. intros H1 H2 H3 H4 st. rewrite H1. cbn. split; [apply H2 | intros l; rewrite H1, H3, H4; reflexivity]. Qed.
Lemma p_get_ovr o i : plainly (get_ovr o i). Proof. eapply p_here; [intros; reflexivity | intros st; cbn; reflexivity..]. Qed.
Lemma p_mark_ovr o i : plainly (mark_ovr o i). Proof. intros st. cbn. split; reflexivity. Qed.
Lemma p_insert_ovr o i : plainly (insert_ovr o i). Proof. intros st. cbn. split; reflexivity. Qed.
Lemma p_define : forall c i r, plainly (define c i r).
Proof.
  fix IH 1. intros [f t ns d|p f o ns d|p|p t|p j|p|p] i r; cbn [define]; try apply p_panic; try apply p_define_in.
  - apply p_bind; [apply p_get_ovr|]. intros [b|]; [apply p_mark_ovr | apply IH].
  - destruct p as [f t ns d|q f o ns d|q|q t|q j|q|q]; try apply p_panic.
    apply p_bind; [apply p_get_ovr|]. intros [b|]; [apply p_panic|]. apply p_bind; [apply p_insert_ovr | intros _; apply IH].
Qed.
Lemma sim_define c i r : sim id any (define (rc c) i r) (define c i r).
Proof. intros st. rewrite r_define. apply (sim_plainly _ (p_define c i r)). Qed.
Lemma r_impl c i : acquire_ref_impl (rc c) i = acquire_ref_impl c i. Proof. induction c; cbn; auto. Qed.
Lemma r_rec c i : check_ref_recursion (rc c) i = check_ref_recursion c i. Proof. induction c; cbn; auto. Qed.
Lemma r_acquire c i : acquire_ref (rc c) i = acquire_ref c i. Proof. unfold acquire_ref. rewrite r_impl, r_rec. reflexivity. Qed.
Lemma r_parent c i : acquire_parent_ref (rc c) i = acquire_parent_ref c i. Proof. induction c; cbn; auto using r_acquire. Qed.
Lemma p_acquire_in t i : plainly (acquire_in t i).
Proof. intros st. unfold acquire_in. cbn [tables cells ovrs loaded setl]. destruct (assoc i (nth t (tables st) [])); split; reflexivity. Qed.
Lemma p_impl c i : plainly (acquire_ref_impl c i). Proof. induction c; cbn; auto using p_acquire_in. Qed.
Lemma p_rec c i : plainly (check_ref_recursion c i).
Proof. induction c; cbn; try apply p_ret; auto. destruct (str_eqb id i); [apply p_err; reflexivity | apply p_ret]. Qed.
Lemma p_acquire c i : plainly (acquire_ref c i). Proof. apply p_bind; [apply p_rec | intros _; apply p_impl]. Qed.
Lemma p_parent c i : plainly (acquire_parent_ref c i). Proof. induction c; cbn; auto using p_acquire. apply p_err. reflexivity. Qed.
Lemma sim_acquire c i : sim id any (acquire_ref (rc c) i) (acquire_ref c i). Proof. rewrite r_acquire. apply sim_plainly, p_acquire. Qed.
Lemma sim_parent c i : sim id any (acquire_parent_ref (rc c) i) (acquire_parent_ref c i). Proof. rewrite r_parent. apply sim_plainly, p_parent. Qed.
Lemma sim_path c h : cg c -> okh (lit_value h) -> sim mv near (path_from (rc c) h) (path_from c h).
Proof.
  intros Hc Hh. unfold path_from. rewrite r_file. destruct (file_of c) as [f|] eqn:E; [|apply sim_panic]. cbn [option_map].
  pose proof (H_res f (lit_value h) (cg_file c f Hc E) Hh) as R. destruct (resolve f (lit_value h)) as [g|]; [|rewrite R; apply sim_panic].
  destruct R as [N ->]. apply sim_ret; [reflexivity | exact N].
Qed.
Lemma in_moved f l : near f -> Forall near l -> In (mv f) (map mv l) <-> In f l.
Proof.
  intros Hf Hl. split; [|apply in_map]. intros H. apply in_map_iff in H. destruct H as (g & E & Hg). rewrite Forall_forall in Hl.
  rewrite (mv_inj f g); auto.
Qed.
(** a file that is read is one, and its hrefs are in scope *)
Lemma sim_get f : near f -> sim id (fun s => good f /\ hrefs_schema okh s) (get_schema fs' (mv f)) (get_schema fs f).
Proof.
  intros Hf st L. unfold get_schema. rewrite (H_fs f Hf). destruct (fs f) as [s|e] eqn:E; [|reflexivity]. cbn [fok]. cbn [loaded cells tables ovrs moved_state setl].
  assert (K : (if in_dec path_eq_dec (mv f) (map mv (loaded st)) then map mv (loaded st) else map mv (loaded st) ++ [mv f]) = map mv (if in_dec path_eq_dec f (loaded st) then loaded st else loaded st ++ [f])).
  { destruct (in_dec path_eq_dec f (loaded st)) as [H|H], (in_dec path_eq_dec (mv f) (map mv (loaded st))) as [H'|H']; try reflexivity.
    - destruct H'. apply (in_moved f _ Hf L). exact H.
    - destruct H. apply (in_moved f _ Hf L). exact H'.
    - rewrite map_app. reflexivity. }
  rewrite K. split; [reflexivity|]. split; [|split; [split; [exact Hf | eauto] | exact (H_ok f s Hf E)]].
  destruct (in_dec path_eq_dec f (loaded st)); [exact L | apply Forall_app; auto].
Qed.
Lemma p_undefined t : plainly (undefined_in t). Proof. intros st. cbn. split; reflexivity. Qed.
Lemma p_get_ref t i : plainly (get_ref_in t i). Proof. intros st. cbn. split; reflexivity. Qed.
Lemma p_take_cell r : plainly (take_cell r). Proof. intros st. unfold take_cell. cbn [cells setl]. destruct (nth r (cells st) ([], None)). split; reflexivity. Qed.
Lemma sim_take_start t : sim id any (take_start t) (take_start t).
Proof.
  apply sim_plainly. unfold take_start. apply p_bind; [apply p_get_ref|]. intros [r|]; [|apply p_err; reflexivity]. apply p_bind; [apply p_take_cell|].
  intros [d|]; [apply p_ret | apply p_err; reflexivity].
Qed.
Lemma p_table : plainly new_table. Proof. intros st. cbn. split; reflexivity. Qed.
Lemma p_ovr : plainly new_ovr. Proof. intros st. cbn. split; reflexivity. Qed.
Lemma sim_grammar c : cg c -> sim rc cg (new_grammar (rc c)) (new_grammar c).
Proof. intros H. unfold new_grammar. apply sim_same; [apply sim_plainly, p_table | intros t; apply sim_ret; [reflexivity | exact H]]. Qed.
Lemma sim_element c : cg c -> sim rc cg (new_element (rc c)) (new_element c).
Proof. intros H. unfold new_element. rewrite r_att. destruct (parent_attribute c); [apply sim_err; reflexivity | apply sim_ret; [reflexivity | exact H]]. Qed.
Lemma sim_new_include c f : cg c -> good f -> sim rc cg (new_include (rc c) (mv f)) (new_include c f).
Proof.
  intros H Hf. unfold new_include. apply sim_same; [apply sim_check; assumption|]. intros _. apply sim_same; [apply sim_plainly, p_ovr|]. intros o. apply sim_ret; [reflexivity | split; assumption].
Qed.
Lemma sim_root f : good f -> sim rc cg (new_root (mv f)) (new_root f).
Proof. intros H. unfold new_root. apply sim_same; [apply sim_plainly, p_table|]. intros t. apply sim_ret; [reflexivity | exact H]. Qed.
Lemma sim_declare_ns c p u : cg c -> sim rc cg (declare_namespace (rc c) p u) (declare_namespace c p u).
Proof. intros H. destruct c; cbn [rc declare_namespace]; try apply sim_panic; apply sim_ret; destruct (assoc p ns); (reflexivity || exact H). Qed.
Lemma sim_declare_dt c p u : cg c -> sim rc cg (declare_datatype (rc c) p u) (declare_datatype c p u).
Proof. intros H. destruct c; cbn [rc declare_datatype]; try apply sim_panic; (destruct (assoc p dts); [apply sim_err; reflexivity|]; apply sim_ret; [reflexivity | exact H]). Qed.
Lemma sim_decls ds : forall c, cg c -> sim rc cg (compile_declarations (rc c) ds) (compile_declarations c ds).
Proof.
  induction ds as [|d ds IH]; intros c H; [apply sim_ret; [reflexivity | exact H]|]. cbn [compile_declarations]. eapply sim_bind; [|exact IH].
  destruct d as [p [|u]|[p|] [|u]|p u]; cbn [compile_declaration]; try apply sim_panic; auto using sim_declare_ns, sim_declare_dt. apply sim_ret; [reflexivity | exact H].
Qed.
Lemma sim_inherit c inc i : cg inc -> sim rc cg (inherit_prefix (rc c) (rc inc) i) (inherit_prefix c inc i).
Proof. intros H. destruct i as [i|]; cbn [inherit_prefix]; [|apply sim_ret; [reflexivity | exact H]]. rewrite r_ns. destruct (namespace_uri c (ik_string i)); [apply sim_declare_ns, H | apply sim_err; reflexivity]. Qed.
Lemma sim_ns c p : sim id any (namespace_uri_for_prefix (rc c) p) (namespace_uri_for_prefix c p).
Proof. unfold namespace_uri_for_prefix. rewrite r_ns. destruct (namespace_uri c p); [apply sim_id | apply sim_err; reflexivity]. Qed.
Lemma sim_nc c el n : sim id any (compile_nameclass (rc c) el n) (compile_nameclass c el n).
Proof.
  induction n as [n|n ex IH|ex IH|a IHa b IHb|a IH] using snc_ind'; cbn [compile_nameclass].
  - destruct n; [rewrite r_default; apply sim_id | apply sim_same; [apply sim_ns | intros; apply sim_id] | apply sim_id].
  - apply sim_same; [destruct ex as [e|]; [apply sim_same; [exact IH | intros; apply sim_id] | apply sim_id]|]. intros e. apply sim_same; [|intros; apply sim_id]. destruct n; [apply sim_ns | apply sim_id].
  - apply sim_same; [destruct ex as [e|]; [apply sim_same; [exact IH | intros; apply sim_id] | apply sim_id]|]. intros; apply sim_id.
  - apply sim_same; [exact IHa|]. intros x. apply sim_same; [exact IHb | intros; apply sim_id].
  - exact IH.
Qed.
Lemma sim_type c n : sim id any (compile_dtname (rc c) n) (compile_dtname c n).
Proof. destruct n; cbn [compile_dtname]; try apply sim_id. apply sim_same; [|intros; apply sim_id]. unfold try_datatype_uri. rewrite r_dt. destruct (datatype_uri c prefix); [apply sim_id | apply sim_err; reflexivity]. Qed.
Lemma sim_lift {A} (x : fres dt_error A) : sim id any (lift_dt x) (lift_dt x).
Proof. apply sim_plainly. intros st. unfold lift_dt. destruct x as [[a|e]|p|]; cbn; try (split; reflexivity); reflexivity. Qed.
(** *** patterns, contents, files *)
Section Compile.
Variable O : oracles.
Variable C : coracles.
Section Rec.
Variables (rp' rp : ctx -> spat -> CM mpat) (ri' ri : ctx -> list gcontent -> CM unit).
Definition hrefs_list (l : list gcontent) : Prop := fold_right (fun g H => hrefs_content okh g /\ H) True l.
Hypothesis Hp : forall p c, hrefs_pat okh p -> cg c -> sim id any (rp' (rc c) p) (rp c p).
Hypothesis Hi : forall l c, hrefs_list l -> cg c -> sim id any (ri' (rc c) l) (ri c l).
Notation P' := (compile_pattern O C fs' rp' ri').
Notation P := (compile_pattern O C fs rp ri).
Notation G' := (compile_content O C fs' rp' ri').
Notation G := (compile_content O C fs rp ri).
Notation V' := (compile_override O C fs' rp' ri').
Notation V := (compile_override O C fs rp ri).
Lemma sim_schema (cp' cp : ctx -> spat -> CM mpat) (ci' ci : ctx -> list gcontent -> CM unit) c s :
  (forall p c, hrefs_pat okh p -> cg c -> sim id any (cp' (rc c) p) (cp c p)) -> (forall l c, hrefs_list l -> cg c -> sim id any (ci' (rc c) l) (ci c l)) ->
  hrefs_schema okh s -> cg c -> sim rc cg (compile_schema_with cp' ci' (rc c) s) (compile_schema_with cp ci c s).
Proof.
  intros H1 H2 Hs Hc. unfold compile_schema_with. unfold hrefs_schema in Hs. eapply sim_bind; [apply sim_decls, Hc|]. intros c' Hc'. destruct (s_top s) as [p|l].
  - rewrite r_include. destruct (is_include c').
    + destruct p; try (apply sim_err; reflexivity). apply sim_same; [apply H2; [exact Hs | exact Hc'] | intros; apply sim_ret; [reflexivity | exact Hc']].
    + apply sim_same; [apply H1; assumption|]. intros r. apply sim_same; [|intros; apply sim_ret; [reflexivity | exact Hc']]. apply sim_define.
  - apply sim_same; [apply H2; assumption | intros; apply sim_ret; [reflexivity | exact Hc']].
Qed.
Lemma sim_all : (forall p, hrefs_pat okh p -> forall c, cg c -> sim id any (P' (rc c) p) (P c p)) /\ (forall g, hrefs_content okh g -> forall c, cg c -> sim id any (G' (rc c) g) (G c g)) /\ (forall i, hrefs_override okh i -> forall c, cg c -> sim id any (V' (rc c) i) (V c i)).
Proof.
  set (PP := fun p => hrefs_pat okh p -> forall c, cg c -> sim id any (P' (rc c) p) (P c p)). set (GG := fun g => hrefs_content okh g -> forall c, cg c -> sim id any (G' (rc c) g) (G c g)). set (VV := fun i => hrefs_override okh i -> forall c, cg c -> sim id any (V' (rc c) i) (V c i)).
  assert (H_two : forall (F : mpat -> mpat -> mpat) a b, PP a -> PP b -> hrefs_pat okh a /\ hrefs_pat okh b -> forall c, cg c -> sim id any (do x <- P' (rc c) a; do y <- P' (rc c) b; cret (F x y)) (do x <- P c a; do y <- P c b; cret (F x y))).
  { intros F a b Ha Hb [Ka Kb] c Hc. apply sim_same; [apply Ha; assumption|]. intros x. apply sim_same; [apply Hb; assumption | intros; apply sim_id]. }
  assert (H_con : forall l, Forall GG l -> hrefs_list l -> forall c, cg c -> sim id any (citer (G' (rc c)) l) (citer (G c) l)).
  { intros l H K c Hc. apply sim_iter. induction H as [|g l Hg Hl IH]; [constructor|]. destruct K as [K1 K2]. constructor; [apply Hg; assumption | apply IH, K2]. }
  assert (H_gr : forall l, Forall GG l -> PP (SGrammar l)).
  { intros l Hl K c Hc. cbn [SchemaCompile.compile_pattern]. eapply sim_bind; [apply sim_grammar, Hc|]. intros g Hg. apply sim_same; [apply H_con; assumption|]. intros _. rewrite r_table. apply sim_take_start. }
  assert (H_ex : forall h i, PP (SExternal h i)).
  { intros h [i|] K c Hc; [apply sim_panic|]. cbn [SchemaCompile.compile_pattern]. eapply sim_bind; [apply sim_path; assumption|]. intros f Hf. eapply sim_bind; [apply sim_cmap, sim_get, Hf|]. intros s [Gf Hs]. eapply sim_bind; [apply sim_new_include; assumption|]. intros inc Hinc.
    unfold hrefs_schema in Hs. cbv beta iota delta [id]. destruct (s_top s) as [p|l]; [apply sim_cmap, Hp; assumption|]. eapply sim_bind; [apply sim_grammar, Hc|]. intros g Hg. apply sim_same; [apply Hi; assumption|]. intros _. rewrite r_table. apply sim_same; [apply sim_plainly, p_undefined|].
    intros [n|]; [apply sim_err; reflexivity | apply sim_take_start]. }
  assert (H_gi : forall h inh ov, (match ov with Some l => Forall VV l | None => True end) -> GG (GInclude h inh ov)).
  { intros h inh ov Hov [K Ko] c Hc. cbn [SchemaCompile.compile_content]. eapply sim_bind; [apply sim_path; assumption|]. intros f Hf. eapply sim_bind; [apply sim_cmap, sim_get, Hf|]. intros s [Gf Hs]. cbv beta iota delta [id]. eapply sim_bind; [apply sim_new_include; assumption|]. intros inc Hinc.
    eapply sim_bind; [apply sim_inherit, Hinc|]. intros inc' Hinc'. apply sim_same.
    - destruct ov as [l|]; [|apply sim_id]. apply sim_iter. induction Hov as [|i l Hv Hl IH]; [constructor|]. destruct Ko as [K1 K2]. constructor; [apply sim_cmap; exact (Hv K1 (XOverrides inc') Hinc') | apply IH, K2].
    - intros _. eapply sim_bind; [apply sim_cmap, sim_schema; assumption|]. intros c' _. rewrite r_overrides. apply sim_plainly, p_overrides. }
  assert (H_gv : forall l, Forall GG l -> GG (GDiv l)) by (intros l Hl K c Hc; cbn [SchemaCompile.compile_content]; apply H_con; assumption).
  assert (H_gd : forall n how p, PP p -> GG (GDefine n how p)).
  { intros n how p IH K c Hc. cbn [SchemaCompile.compile_content]. apply sim_same; [exact (IH K (XDefine c n) Hc) | intros x; apply sim_define]. }
  assert (H_if : forall n how p, PP p -> VV (IDefine n how p)).
  { intros n how p IH K c Hc. cbn [SchemaCompile.compile_override]. apply sim_same; [exact (IH K (XDefine c n) Hc) | intros x; apply sim_define]. }
  assert (H_da : forall n ps ex, (match ex with Some e => PP e | None => True end) -> PP (SData n ps ex)).
  { intros n ps ex IH K c Hc. cbn [SchemaCompile.compile_pattern]. apply sim_same; [apply sim_type|]. intros d. apply sim_same; [apply sim_lift|]. intros x. apply sim_same; [|intros; apply sim_id].
    destruct ex as [e|]; [apply sim_same; [apply IH; assumption | intros; apply sim_id] | apply sim_id]. }
  assert (H_va : forall n v, PP (SValue n v)).
  { intros n v K c Hc. cbn [SchemaCompile.compile_pattern]. apply sim_same; [apply sim_type|]. intros d. apply sim_same; [apply sim_lift | intros; apply sim_id]. }
  assert (H_id : forall i, PP (SIdent i)) by (intros i K c Hc; cbn [SchemaCompile.compile_pattern]; apply sim_same; [apply sim_acquire | intros; apply sim_id]).
  assert (H_pa : forall i, PP (SParent i)) by (intros i K c Hc; cbn [SchemaCompile.compile_pattern]; apply sim_same; [apply sim_parent | intros; apply sim_id]).
  assert (H_el : forall nc q, PP q -> PP (SElement nc q)).
  { intros nc q IH K c Hc. cbn [SchemaCompile.compile_pattern]. apply sim_same; [apply sim_nc|]. intros n. eapply sim_bind; [apply sim_element, Hc|]. intros c' Hc'. apply sim_same; [apply IH; assumption | intros; apply sim_id]. }
  assert (H_at : forall nc q, PP q -> PP (SAttribute nc q)).
  { intros nc q IH K c Hc. cbn [SchemaCompile.compile_pattern]. apply sim_same; [apply sim_nc|]. intros n. apply sim_same; [exact (IH K (XAttribute c) Hc) | intros; apply sim_id]. }
  split; [|split]; [apply (spat_ind' PP GG VV) | apply (gcontent_ind' PP GG VV) | apply (icontent_ind' PP GG VV)]; auto.
  all: try (intros; intros K c Hc; cbn [SchemaCompile.compile_pattern SchemaCompile.compile_content SchemaCompile.compile_override]; first [apply sim_id | apply sim_panic]; fail).
  all: try (intros q IH K c Hc; cbn [SchemaCompile.compile_pattern]; first [apply IH; assumption | apply sim_same; [apply IH; assumption | intros; apply sim_id]]; fail).
  all: intros a b Ha Hb K c Hc; cbn [SchemaCompile.compile_pattern]; apply H_two; assumption.
Qed.
Lemma sim_contents l c : hrefs_list l -> cg c -> sim id any (compile_contents O C fs' rp' ri' (rc c) l) (compile_contents O C fs rp ri c l).
Proof. intros K Hc. unfold compile_contents. apply sim_iter. induction l as [|g l IH]; [constructor|]. destruct K as [K1 K2]. constructor; [exact (proj1 (proj2 sim_all) g K1 c Hc) | apply IH, K2]. Qed.
End Rec.
Lemma sim_nested d : (forall p c, hrefs_pat okh p -> cg c -> sim id any (fst (nested O C fs' d) (rc c) p) (fst (nested O C fs d) c p)) /\ (forall l c, hrefs_list l -> cg c -> sim id any (snd (nested O C fs' d) (rc c) l) (snd (nested O C fs d) c l)).
Proof.
  induction d as [|d [H1 H2]]; [split; intros; intros st L; reflexivity|]. cbn [nested]. destruct (nested O C fs' d) as [rp' ri'], (nested O C fs d) as [rp ri]. cbn [fst snd] in *. split.
  - intros p c K Hc. exact (proj1 (sim_all rp' rp ri' ri H1 H2) p K c Hc).
  - intros l c K Hc. exact (sim_contents rp' rp ri' ri H1 H2 l c K Hc).
Qed.
Lemma p_refs cs d : forall p seen e, check_refs cs d seen p = Ok (inr e) -> moved_error e = e.
Proof.
  induction d as [|d IHd].
  all: assert (A : forall X l, Forall (fun p => forall seen e, check_refs cs X seen p = Ok (inr e) -> moved_error e = e) l -> forall seen e, check_all (check_refs cs X) seen l = Ok (inr e) -> moved_error e = e)
    by (intros X l H; induction H as [|x l Hx Hl IH]; intros seen e; [discriminate|]; cbn [check_all]; destruct (check_refs cs X seen x) as [[s|e0]|p|] eqn:E; cbn; try discriminate; [apply IH | intros [= <-]; exact (Hx seen e0 E)]).
  all: intros p; induction p using mpat_ind'; intros seen e; rewrite (check_eq cs); try discriminate; auto.
  all: try (apply A; assumption).
  all: try (apply IHp).
  all: try (destruct ex; [match goal with H : _ |- _ => apply H; reflexivity end | discriminate]).
  all: match goal with |- context [in_dec Nat.eq_dec ?r ?s] => destruct (in_dec Nat.eq_dec r s); [discriminate|] end.
  all: match goal with |- context [nth ?r ?l ?d] => destruct (nth r l d) as [n0 [rule|]] end; try discriminate; try (intros [= <-]; reflexivity); apply IHd.
Qed.
Theorem moved_compiled d name : near name -> match compile_grammar O C fs d name with
  | Ok (inl (r, st)) => compile_grammar O C fs' d (mv name) = Ok (inl (r, moved_state st)) /\ Forall near (loaded st)
  | Ok (inr e) => compile_grammar O C fs' d (mv name) = Ok (inr (moved_error e))
  | Panic p => compile_grammar O C fs' d (mv name) = Panic p
  | OutOfFuel => compile_grammar O C fs' d (mv name) = OutOfFuel
  end.
Proof.
  intros Hn. unfold compile_grammar. destruct (sim_nested d) as (H1 & H2). destruct (nested O C fs' d) as [rp' ri'], (nested O C fs d) as [rp ri]. cbn [fst snd] in *.
  match goal with |- context [?m' empty_cst = OutOfFuel] => match goal with |- match ?m empty_cst with _ => _ end => assert (E : sim id any m' m); [|assert (E0 : moved_state empty_cst = empty_cst) by reflexivity; specialize (E empty_cst (Forall_nil _)); rewrite E0 in E; destruct (m empty_cst) as [[[? ?]|?]|?|]; try exact E; split; apply E] end end.
  eapply sim_bind; [apply sim_get, Hn|]. intros s [Gn Hs]. cbv beta iota delta [id]. eapply sim_bind; [apply sim_root, Gn|]. intros c Hc. eapply sim_bind.
  - apply sim_schema; [intros p c0 K0 Hc0; exact (proj1 (sim_all rp' rp ri' ri H1 H2) p K0 c0 Hc0) | intros l c0 K0 Hc0; exact (sim_contents rp' rp ri' ri H1 H2 l c0 K0 Hc0) | exact Hs | exact Hc].
  - intros c' _. rewrite r_table. apply sim_same; [apply sim_plainly, p_undefined|]. intros [n|]; [apply sim_err; reflexivity|]. apply sim_same; [apply sim_plainly, p_get_ref|]. intros [r|]; [|apply sim_err; reflexivity].
    apply sim_plainly. intros st. cbn [cells setl]. destruct (nth r (cells st) ([], None)) as [n [rule|]]; [|intros l; reflexivity].
    destruct (check_refs _ _ _ _) as [[x|e]|p|] eqn:E; cbn; try (intros l; reflexivity); (split; [|intros l; reflexivity]); [reflexivity | exact (p_refs _ _ _ _ _ E)].
Qed.
End Compile.
End Move.

(** ** Directories *)
Lemma norm_inside a pre l : pre <> [] -> norm a pre = pre -> norm a (pre ++ l) = pre ++ filter (fun c => negb (str_eqb c dot)) l.
Proof.
  destruct pre as [|x pre]; [congruence|]. intros _. cbn [norm app]. rewrite filter_app. intros E. rewrite app_assoc. rewrite E. reflexivity.
Qed.
Definition dotdot : str := [46; 46]%N.
Fixpoint strip (pre l : list str) : option (list str) :=
  match pre, l with
  | [], l => Some l
  | x :: pre, y :: l => if str_eqb x y then strip pre l else None
  | _ :: _, [] => None
  end.
Lemma strip_app pre l : strip pre (pre ++ l) = Some l.
Proof. induction pre as [|x pre IH]; [reflexivity|]. cbn. rewrite str_eqb_refl. exact IH. Qed.
Section Dirs.
Variables (a a' : bool) (pre pre' : list str).
Variable W : Prop.
(** the file of the new directory for a file of the old one; a file elsewhere is left alone *)
Definition to_dir (f : path) : path :=
  if Bool.eqb (p_abs f) a then match strip pre (p_comps f) with Some l => inside a' pre' l | None => f end else f.
Lemma to_inside l : to_dir (inside a pre l) = inside a' pre' l.
Proof. unfold to_dir, inside. cbn. rewrite Bool.eqb_reflx, strip_app. reflexivity. Qed.
Hypothesis H_pre : pre <> [].
Hypothesis H_pre' : pre' <> [].
Hypothesis H_norm : norm a pre = pre.
Hypothesis H_norm' : norm a' pre' = pre'.
Definition within (f : path) : Prop := exists l, f = inside a pre l /\ ~ In dotdot l.
Definition elsewhere (f : path) : Prop := p_abs f = true /\ a = false /\ a' = false /\ W.
Definition stays (h : str) : Prop := (relative h -> ~ In dotdot (split_path h)) /\ (relative h \/ a = false /\ a' = false /\ W).
Lemma to_elsewhere f : elsewhere f -> to_dir f = f.
Proof. intros (H1 & H2 & _). unfold to_dir. rewrite H1, H2. reflexivity. Qed.
Lemma to_inj f g : within f \/ elsewhere f -> within g \/ elsewhere g -> to_dir f = to_dir g -> f = g.
Proof.
  intros [(l & -> & _)|E] [(k & -> & _)|E']; rewrite ?to_inside; intros H.
  - unfold inside in *. injection H as H. apply app_inv_head in H. congruence.
  - rewrite (to_elsewhere _ E') in H. destruct E' as (E1 & _ & E2 & _). rewrite <- H in E1. cbn in E1. congruence.
  - rewrite (to_elsewhere _ E) in H. destruct E as (E1 & _ & E2 & _). rewrite H in E1. cbn in E1. congruence.
  - rewrite (to_elsewhere _ E), (to_elsewhere _ E') in H. exact H.
Qed.
Lemma in_dots l : ~ In dotdot l -> ~ In dotdot (filter (fun c => negb (str_eqb c dot)) l).
Proof. intros H K. apply filter_In in K. apply H, K. Qed.
Lemma removelast_in {A} (x : A) l : In x (removelast l) -> In x l.
Proof. induction l as [|y l IH]; [auto|]. cbn. destruct l as [|z l]; [intros []|]. intros [H|H]; auto. Qed.
Lemma resolve_inside b d l h : d <> [] -> norm b d = d -> l <> [] -> relative h ->
  resolve (inside b d l) h = Some (inside b d (filter (fun c => negb (str_eqb c dot)) (removelast l ++ split_path h)))
  \/ h = [] /\ resolve (inside b d l) h = Some (inside b d (removelast l)).
Proof.
  intros Hd Hn Hl Hr. unfold resolve, inside. cbn [p_comps p_abs]. rewrite (removelast_app d Hl). destruct (d ++ l) as [|x r] eqn:E; [destruct d; [congruence | discriminate E]|].
  destruct h as [|c h]; [right; auto|]. left. cbn in Hr. destruct (N.eqb_spec c 47) as [->|_]; [congruence|].
  rewrite <- app_assoc, (norm_inside b d _ Hd Hn). reflexivity.
Qed.
Lemma to_resolve f h l : f = inside a pre l -> ~ In dotdot l -> l <> [] -> stays h ->
  match resolve f h with Some g => (within g \/ elsewhere g) /\ resolve (to_dir f) h = Some (to_dir g) | None => resolve (to_dir f) h = None end.
Proof.
  intros -> Hl Hn [Hd Hr]. rewrite to_inside.
  assert (D : relative h \/ (exists h', h = 47%N :: h')) by (destruct h as [|c h]; [left; exact I|]; destruct (N.eq_dec c 47) as [->|N]; [right; eauto | left; exact N]).
  destruct D as [R|[h' ->]].
  - specialize (Hd R). assert (K : ~ In dotdot (removelast l)) by (intros K; apply removelast_in in K; auto).
    destruct (resolve_inside a pre l h H_pre H_norm Hn R) as [E|[-> E]]; rewrite E.
    + split; [left; eexists; split; [reflexivity|]; apply in_dots; rewrite in_app_iff; tauto|]. rewrite to_inside.
      destruct (resolve_inside a' pre' l h H_pre' H_norm' Hn R) as [E'|[-> E']]; rewrite E'; [reflexivity|].
      unfold resolve, inside in E. cbn [p_comps p_abs] in E. rewrite (removelast_app pre Hn) in E. destruct (pre ++ l) eqn:E2; [discriminate E|]. injection E as E. apply app_inv_head in E. rewrite <- E. reflexivity.
    + split; [left; eexists; split; [reflexivity | exact K]|]. rewrite to_inside. unfold resolve, inside. cbn [p_comps p_abs]. rewrite (removelast_app pre' Hn).
      destruct (pre' ++ l) eqn:E2; [destruct pre'; [congruence | discriminate E2] | reflexivity].
  - destruct Hr as [Hr|(Ea & Ea' & HW)]; [cbn in Hr; congruence|]. unfold resolve, inside. cbn [p_comps p_abs].
    destruct (pre ++ l) eqn:E1; [destruct pre; [congruence | discriminate E1]|]. destruct (pre' ++ l) eqn:E2; [destruct pre'; [congruence | discriminate E2]|]. rewrite N.eqb_refl.
    assert (K : elsewhere (Path true (norm true (split_path (47%N :: h'))))) by (repeat split; assumption).
    split; [right; exact K | rewrite (to_elsewhere _ K); reflexivity].
Qed.
Lemma to_resolve_else f h : elsewhere f -> stays h ->
  match resolve f h with Some g => (within g \/ elsewhere g) /\ resolve (to_dir f) h = Some (to_dir g) | None => resolve (to_dir f) h = None end.
Proof.
  intros K _. rewrite (to_elsewhere f K). destruct (resolve f h) as [g|] eqn:E; [|reflexivity].
  assert (K' : elsewhere g). { destruct K as (K1 & K2). split; [|exact K2]. unfold resolve in E. destruct (p_comps f); [discriminate E|]. destruct h as [|c h]; [|destruct (N.eqb c 47)]; injection E as <-; cbn; auto. }
  split; [right; exact K' | rewrite (to_elsewhere g K'); reflexivity].
Qed.
Variables fs fs' : filesys.
Hypothesis H_in : forall l, ~ In dotdot l -> fs' (inside a' pre' l) = fs (inside a pre l).
Hypothesis H_else : forall f, elsewhere f -> fs' f = fs f.
Hypothesis H_dir : exists e, fs (inside a pre []) = inr e.
Hypothesis H_hrefs : forall f s, fs f = inl s -> within f \/ elsewhere f -> hrefs_schema stays s.
Lemma dir_compiled O C d l : ~ In dotdot l -> match compile_grammar O C fs d (inside a pre l) with
  | Ok (inl (r, st)) => compile_grammar O C fs' d (inside a' pre' l) = fok (r, moved_state to_dir st) /\ Forall (fun f => within f \/ elsewhere f) (loaded st)
  | Ok (inr e) => compile_grammar O C fs' d (inside a' pre' l) = ferr (moved_error to_dir e)
  | Panic p => compile_grammar O C fs' d (inside a' pre' l) = Panic p
  | OutOfFuel => compile_grammar O C fs' d (inside a' pre' l) = OutOfFuel
  end.
Proof.
  intros Hl. rewrite <- to_inside. apply (moved_compiled to_dir (fun f => within f \/ elsewhere f) to_inj stays fs fs').
  - intros f [(k & -> & Hk)|K]; [rewrite to_inside; apply H_in, Hk | rewrite (to_elsewhere f K); apply H_else, K].
  - intros f s Hf E. exact (H_hrefs f s E Hf).
  - intros f h [[(k & Ek & Hk)|K] [s Hs]] Hh; [|apply to_resolve_else; assumption].
    apply (to_resolve f h k Ek Hk); [|exact Hh]. intros ->. destruct H_dir as [e He]. congruence.
  - left. exists l. auto.
Qed.
End Dirs.

Section Mono.
Variables Q R : str -> Prop.
Hypothesis H : forall h, Q h -> R h.
Lemma hrefs_all_mono : (forall p, hrefs_pat Q p -> hrefs_pat R p) /\ (forall g, hrefs_content Q g -> hrefs_content R g) /\ (forall i, hrefs_override Q i -> hrefs_override R i).
Proof.
  set (PP := fun p => hrefs_pat Q p -> hrefs_pat R p). set (GG := fun g => hrefs_content Q g -> hrefs_content R g). set (VV := fun i => hrefs_override Q i -> hrefs_override R i).
  assert (L : forall l, Forall GG l -> fold_right (fun g X => hrefs_content Q g /\ X) True l -> fold_right (fun g X => hrefs_content R g /\ X) True l) by (induction 1 as [|g l Hg _ IH]; cbn; [auto | intros [K1 K2]; split; auto]).
  assert (L' : forall l, Forall VV l -> fold_right (fun g X => hrefs_override Q g /\ X) True l -> fold_right (fun g X => hrefs_override R g /\ X) True l) by (induction 1 as [|g l Hg _ IH]; cbn; [auto | intros [K1 K2]; split; auto]).
  split; [|split]; [apply (spat_ind' PP GG VV) | apply (gcontent_ind' PP GG VV) | apply (icontent_ind' PP GG VV)].
  all: unfold PP, GG, VV; cbn [hrefs_pat hrefs_content hrefs_override]; intros; repeat match goal with H0 : _ /\ _ |- _ => destruct H0 end; repeat split; auto.
  all: try (apply L; assumption). all: try (apply L'; assumption).
  all: try (destruct ex; auto). all: try (destruct ov; auto).
  all: try (match goal with K : _ -> hrefs_pat R ?p |- _ => apply K; assumption end).
Qed.
Lemma hrefs_mono s : hrefs_schema Q s -> hrefs_schema R s.
Proof.
  unfold hrefs_schema. destruct (s_top s) as [p|l]; [apply hrefs_all_mono|]. induction l as [|g l IH]; cbn; [auto|]. intros [K1 K2]. split; [apply hrefs_all_mono, K1 | auto].
Qed.
End Mono.

(** hrefs which are relative and do not leave the directory; hrefs which do not, or are absolute *)
Definition local (h : str) : Prop := relative h /\ ~ In dotdot (split_path h).
Definition local_or_absolute (h : str) : Prop := relative h -> ~ In dotdot (split_path h).
(** what the two runs of the compiler have in common *)
Definition same_elsewhere (mv : path -> path) (x x' : fres rerror (nat * cst)) : Prop :=
  (forall r st, x = fok (r, st) -> exists st', x' = fok (r, st') /\ cells st' = cells st /\ loaded st' = map mv (loaded st)) /\
  (forall r st', x' = fok (r, st') -> exists st, x = fok (r, st)) /\
  (forall e, x = ferr e -> x' = ferr (moved_error mv e)) /\
  (forall p, x = Panic p -> x' = Panic p) /\
  (x = OutOfFuel -> x' = OutOfFuel).
Lemma same_of mv (near : path -> Prop) x x' : match x with
  | Ok (inl (r, st)) => x' = fok (r, moved_state mv st) /\ Forall near (loaded st)
  | Ok (inr e) => x' = ferr (moved_error mv e)
  | Panic p => x' = Panic p
  | OutOfFuel => x' = OutOfFuel
  end -> same_elsewhere mv x x'.
Proof.
  intros H. unfold same_elsewhere. destruct x as [[[r st]|e]|p|].
  - destruct H as [-> _]. split; [intros r0 st0 [= <- <-]; eexists; split; [reflexivity | split; reflexivity]|]. split; [intros r0 st0 [= <- _]; eexists; reflexivity|]. split; [|split]; discriminate.
  - rewrite H. split; [discriminate|]. split; [discriminate|]. split; [intros e0 [= <-]; reflexivity|]. split; discriminate.
  - rewrite H. split; [discriminate|]. split; [discriminate|]. split; [discriminate|]. split; [intros e0 [= <-]; reflexivity | discriminate].
  - rewrite H. split; [discriminate|]. split; [discriminate|]. split; [discriminate|]. split; [discriminate | reflexivity].
Qed.
Section Moved.
Variables (a a' : bool) (pre pre' : list str).
Hypothesis H_pre : pre <> [] /\ norm a pre = pre.
Hypothesis H_pre' : pre' <> [] /\ norm a' pre' = pre'.
Variables fs fs' : filesys.
Hypothesis H_in : forall l, ~ In dotdot l -> fs' (inside a' pre' l) = fs (inside a pre l).
Hypothesis H_dir : exists e, fs (inside a pre []) = inr e.
Lemma moved_dir O C : (forall l s, ~ In dotdot l -> fs (inside a pre l) = inl s -> hrefs_schema local s) ->
  forall d l, ~ In dotdot l -> same_elsewhere (to_dir a a' pre pre') (compile_grammar O C fs d (inside a pre l)) (compile_grammar O C fs' d (inside a' pre' l)).
Proof.
  intros K d l Hl. destruct H_pre as [P1 P2], H_pre' as [P3 P4]. eapply same_of.
  apply (dir_compiled a a' pre pre' False P1 P3 P2 P4 fs fs' H_in).
  - intros f (_ & _ & _ & []).
  - exact H_dir.
  - intros f s E [(k & -> & Hk)|(_ & _ & _ & [])]. apply (hrefs_mono local); [|exact (K k s Hk E)]. intros h [R D]. split; [intros _; exact D | left; exact R].
  - exact Hl.
Qed.
(** the files read: those of the old directory, under the new one *)
Lemma moved_loaded O C : (forall l s, ~ In dotdot l -> fs (inside a pre l) = inl s -> hrefs_schema local s) ->
  forall d l r st, ~ In dotdot l -> compile_grammar O C fs d (inside a pre l) = fok (r, st) ->
  exists st' ls, compile_grammar O C fs' d (inside a' pre' l) = fok (r, st') /\ cells st' = cells st /\ loaded st = map (inside a pre) ls /\ loaded st' = map (inside a' pre') ls.
Proof.
  intros K d l r st Hl E. destruct H_pre as [P1 P2], H_pre' as [P3 P4].
  assert (A : match compile_grammar O C fs d (inside a pre l) with Ok (inl (r, st)) => compile_grammar O C fs' d (inside a' pre' l) = fok (r, moved_state (to_dir a a' pre pre') st) /\ Forall (fun f => within a pre f \/ elsewhere a a' False f) (loaded st) | _ => True end).
  { pose proof (dir_compiled a a' pre pre' False P1 P3 P2 P4 fs fs' H_in) as X. specialize (X (fun f H => match proj2 (proj2 (proj2 H)) with end) H_dir).
    assert (Y : forall f s, fs f = inl s -> within a pre f \/ elsewhere a a' False f -> hrefs_schema (stays a a' False) s).
    { intros f s Ef [(k & -> & Hk)|(_ & _ & _ & [])]. apply (hrefs_mono local); [|exact (K k s Hk Ef)]. intros h [R D]. split; [intros _; exact D | left; exact R]. }
    specialize (X Y O C d l Hl). destruct (compile_grammar O C fs d (inside a pre l)) as [[[? ?]|?]|?|]; auto. }
  rewrite E in A. cbn in A. destruct A as [A L].
  assert (M : exists ls, loaded st = map (inside a pre) ls).
  { clear -L. induction L as [|f fl [(k & -> & _)|(_ & _ & _ & [])] _ [ls ->]]; [exists []; reflexivity | exists (k :: ls); reflexivity]. }
  destruct M as [ls M]. exists (moved_state (to_dir a a' pre pre') st), ls. split; [exact A|]. split; [reflexivity|]. split; [exact M|].
  cbn. rewrite M, map_map. apply map_ext. intros k. apply to_inside.
Qed.
End Moved.
(** directories named from the working directory: absolute hrefs lead to the same files *)
Lemma moved_here pre pre' fs fs' : pre <> [] /\ norm false pre = pre -> pre' <> [] /\ norm false pre' = pre' ->
  (forall l, ~ In dotdot l -> fs' (inside false pre' l) = fs (inside false pre l)) -> (forall f, p_abs f = true -> fs' f = fs f) -> (exists e, fs (inside false pre []) = inr e) ->
  (forall f s, fs f = inl s -> hrefs_schema local_or_absolute s) ->
  forall O C d l, ~ In dotdot l -> same_elsewhere (to_dir false false pre pre') (compile_grammar O C fs d (inside false pre l)) (compile_grammar O C fs' d (inside false pre' l)).
Proof.
  intros [P1 P2] [P3 P4] H1 H2 H3 H4 O C d l Hl. eapply same_of. apply (dir_compiled false false pre pre' True P1 P3 P2 P4 fs fs' H1); [|exact H3| |exact Hl].
  - intros f [K _]. apply H2, K.
  - intros f s E _. apply (hrefs_mono local_or_absolute); [|exact (H4 f s E)]. intros h D. split; [exact D|].
    destruct h as [|c h]; [left; exact I|]. destruct (N.eq_dec c 47) as [->|N]; [right; auto | left; exact N].
Qed.

(** ** Example: old/main.rnc includes sub/lib.rnc, which includes end.rnc *)
Definition directory (a : bool) (pre : list str) (t : list str -> schema + nat) : filesys :=
  fun f => if Bool.eqb (p_abs f) a then match strip pre (p_comps f) with Some l => t l | None => inr 0 end else inr 0.
Lemma directory_inside a pre t l : directory a pre t (inside a pre l) = t l.
Proof. unfold directory, inside. cbn. rewrite Bool.eqb_reflx, strip_app. reflexivity. Qed.
Definition tree (l : list str) : schema + nat :=
  if list_eq_dec str_eq_dec l [lit "main.rnc"] then inl (Schema [] (TGrammar [GInclude [lit "sub/"; lit "./lib.rnc"] None None]))
  else if list_eq_dec str_eq_dec l [lit "sub"; lit "lib.rnc"] then inl (Schema [] (TGrammar [GInclude [lit "end.rnc"] None None]))
  else if list_eq_dec str_eq_dec l [lit "sub"; lit "end.rnc"] then inl (Schema [] (TGrammar [GDefine (lit "start") MAssign (SElement (CName (NmId (IKId (lit "a")))) SEmpty)]))
  else if list_eq_dec str_eq_dec l [lit "loop.rnc"] then inl (Schema [] (TGrammar [GInclude [lit "round.rnc"] None None]))
  else if list_eq_dec str_eq_dec l [lit "round.rnc"] then inl (Schema [] (TGrammar [GInclude [lit "loop.rnc"] None None]))
  else inr 0.
Lemma tree_local l s : tree l = inl s -> hrefs_schema local s.
Proof.
  unfold tree. repeat (match goal with |- context [list_eq_dec ?a ?b ?c] => destruct (list_eq_dec a b c) end); try discriminate; intros [= <-]; cbn; repeat split; try discriminate.
  all: vm_compute; intros K; repeat (destruct K as [K|K]; [discriminate K|]); exact K.
Qed.
