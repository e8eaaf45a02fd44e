(** * SchemaPlain: parentheses, the grouping of operators of one kind, div, annotations, and the way names and strings are written change nothing (C91). *)
From Coq Require Import String.
From Verif Require Import Base Datatype Facets Store Lang Compile Syntax SchemaCompile SourceCompile ConvertCompile.
Local Open Scope cm_scope.

(** ** Specification: a schema in plain form *)
(** [seq x y]: the pattern [x, y], with the operands of [x] written without parentheses: [(a, b), c] is [a, (b, c)] *)
Fixpoint seq (x y : spat) : spat := match x with SListPair u v => SListPair u (seq v y) | _ => SListPair x y end.
Fixpoint inter (x y : spat) : spat := match x with SInterleavePair u v => SInterleavePair u (inter v y) | _ => SInterleavePair x y end.
Fixpoint alt (x y : spat) : spat := match x with SChoicePair u v => SChoicePair u (alt v y) | _ => SChoicePair x y end.
(** a string in one piece; a name, whether it is a keyword or not *)
Definition one (l : literal) : literal := [lit_value l].
Definition bare (i : id_or_kw) : id_or_kw := IKId (ik_string i).
Definition plain_name (n : sname) : sname := match n with NmId i => NmId (bare i) | NmC p l => NmC p l | NmNs u l => NmNs (one u) l end.
Fixpoint plain_nc (n : snc) : snc :=
  match n with
  | CName n => CName (plain_name n)
  | CNs nm ex => CNs (match nm with NsUri u => NsUri (one u) | NsPrefix p => NsPrefix p end) (match ex with Some e => Some (plain_nc e) | None => None end)
  | CAny ex => CAny (match ex with Some e => Some (plain_nc e) | None => None end)
  | CAlt a b => CAlt (plain_nc a) (plain_nc b)
  | CParen a => plain_nc a
  end.
Definition plain_type (n : sdtname) : sdtname := match n with SdNs u l => SdNs (one u) l | n => n end.
(** parameters without annotations; [{ }] if there are none *)
Definition plain_params (ps : option (list sparam)) : list sparam := match ps with Some l => map (fun '(_, k, v) => (None, bare k, one v)) l | None => [] end.
Definition plain_uri (u : uri_lit) : uri_lit := match u with UUri l => UUri (one l) | UInherit => UInherit end.
Definition plain_decl (d : decl) : decl := match d with DNamespace p u => DNamespace p (plain_uri u) | DDefault p u => DDefault p (plain_uri u) | DDatatypes p u => DDatatypes p (one u) end.
(** no parentheses, [,] [&] and [|] grouped to the right, a literal without type written as token, no div but in the braces of an include, no annotations *)
Fixpoint plain (p : spat) {struct p} : spat :=
  match p with
  | SElement nc q => SElement (plain_nc nc) (plain q)
  | SAttribute nc q => SAttribute (plain_nc nc) (plain q)
  | SList q => SList (plain q)
  | SMixed q => SMixed (plain q)
  | SGrammar l => SGrammar (flat_map plain_content l)
  | SGroup q => plain q
  | SListPair a b => seq (plain a) (plain b)
  | SInterleavePair a b => inter (plain a) (plain b)
  | SChoicePair a b => alt (plain a) (plain b)
  | SOptional q => SOptional (plain q)
  | SZeroOrMore q => SZeroOrMore (plain q)
  | SOneOrMore q => SOneOrMore (plain q)
  | SExternal h inh => SExternal (one h) (option_map bare inh)
  | SValue n v => SValue (Some (match n with Some n => plain_type n | None => SdToken end)) (one v)
  | SData n ps ex => SData (plain_type n) (Some (plain_params ps)) (match ex with Some e => Some (plain e) | None => None end)
  | _ => p
  end
with plain_content (g : gcontent) {struct g} : list gcontent :=
  match g with
  | GDefine n how p => [GDefine n how (plain p)]
  | GDiv l => flat_map plain_content l
  | GInclude h inh ov => [GInclude (one h) (option_map bare inh) (match ov with Some l => Some (flat_map plain_override l) | None => None end)]
  | GAnnotation _ => []
  end
with plain_override (i : icontent) {struct i} : list icontent :=
  match i with
  | IDefine n how p => [IDefine n how (plain p)]
  | IDiv l => [IDiv l]
  | IAnnotation _ => []
  end.
(** parentheses around the whole of a file stay *)
Definition plain_top (t : top) : top :=
  match t with
  | TPattern (SGroup q) => TPattern (SGroup (plain q))
  | TPattern p => TPattern (plain p)
  | TGrammar l => TGrammar (flat_map plain_content l)
  end.
Definition plain_files (fs : filesys) : filesys := fun f => match fs f with inl s => inl (Schema (map plain_decl (s_decls s)) (plain_top (s_top s))) | inr e => inr e end.

(** ** Proof *)
Section Compile.
Variable O : oracles.
Variable C : coracles.
Variable fs fs' : filesys.
Hypothesis HF : forall f, fs' f = plain_files fs f.
Lemma p_get {A} g f (k' k : schema -> CM A) : (forall s, eqm (k' (Schema (map plain_decl (s_decls s)) (plain_top (s_top s)))) (k s)) -> eqm (cbind (cmap_err g (get_schema fs' f)) k') (cbind (cmap_err g (get_schema fs f)) k).
Proof. intros H st. unfold cbind, cmap_err, get_schema. rewrite HF. unfold plain_files. destruct (fs f) as [s|x]; [|reflexivity]. cbn. apply H. Qed.
Lemma p_get0 {A} f (k' k : schema -> CM A) : (forall s, eqm (k' (Schema (map plain_decl (s_decls s)) (plain_top (s_top s)))) (k s)) -> eqm (cbind (get_schema fs' f) k') (cbind (get_schema fs f) k).
Proof. intros H st. unfold cbind, get_schema. rewrite HF. unfold plain_files. destruct (fs f) as [s|x]; [|reflexivity]. cbn. apply H. Qed.
Lemma eqm_sym {A} (a b : CM A) : eqm a b -> eqm b a. Proof. intros H st. symmetry. apply H. Qed.
Section Rec.
Variables (rp' rp : ctx -> spat -> CM mpat) (ri' ri : ctx -> list gcontent -> CM unit).
Hypothesis Hp : forall p c, eqm (rp' c (plain p)) (rp c p).
Hypothesis Hi : forall l c, eqm (ri' c (flat_map plain_content l)) (ri c l).
Notation P' := (compile_pattern O C fs' rp' ri').
Notation P := (compile_pattern O C fs rp ri).
Notation G' := (compile_content O C fs' rp' ri').
Notation G := (compile_content O C fs rp ri).
Notation V' := (compile_override O C fs' rp' ri').
Notation V := (compile_override O C fs rp ri).
Ltac split_run := match goal with |- context [compile_pattern ?a1 ?a2 ?a3 ?a4 ?a5 ?c ?u ?s] => destruct (compile_pattern a1 a2 a3 a4 a5 c u s) as [[[? ?]|?]|?|] end; cbv beta iota; try reflexivity.
Ltac regroup IH := let st := fresh in intros st; cbn [SchemaCompile.compile_pattern]; unfold cbind, fbind, rbind, cret, fok; split_run; rewrite IH; cbn [SchemaCompile.compile_pattern]; unfold cbind, fbind, rbind, cret, fok; split_run; split_run; cbn [seq_members inter_members choice_members]; rewrite <- app_assoc; reflexivity.
Lemma c_seq c y x : eqm (P' c (seq x y)) (P' c (SListPair x y)).
Proof. induction x; try apply eqm_refl. cbn [seq]. regroup IHx2. Qed.
Lemma c_inter c y x : eqm (P' c (inter x y)) (P' c (SInterleavePair x y)).
Proof. induction x; try apply eqm_refl. cbn [inter]. regroup IHx2. Qed.
Lemma c_alt c y x : eqm (P' c (alt x y)) (P' c (SChoicePair x y)).
Proof. induction x; try apply eqm_refl. cbn [alt]. regroup IHx2. Qed.
Lemma one_value l : lit_value (one l) = lit_value l.
Proof. apply app_nil_r. Qed.
Lemma c_nc c el n : eqm (compile_nameclass c el (plain_nc n)) (compile_nameclass c el n).
Proof.
  induction n as [n|n ex IH|ex IH|a IHa b IHb|a IH] using snc_ind'; cbn [plain_nc compile_nameclass].
  - destruct n; cbn [plain_name]; [apply eqm_refl | apply eqm_refl | rewrite one_value; apply eqm_refl].
  - apply eqm_bind; [destruct ex as [e|]; [|apply eqm_refl]; apply eqm_bind; [apply IH | intros; apply eqm_refl]|]. intros e. apply eqm_bind; [|intros; apply eqm_refl]. destruct n; [apply eqm_refl | rewrite one_value; apply eqm_refl].
  - apply eqm_bind; [destruct ex as [e|]; [|apply eqm_refl]; apply eqm_bind; [apply IH | intros; apply eqm_refl]|]. intros e. apply eqm_refl.
  - apply eqm_bind; [exact IHa|]. intros x. apply eqm_bind; [exact IHb | intros; apply eqm_refl].
  - exact IH.
Qed.
Lemma c_type c n : compile_dtname c (plain_type n) = compile_dtname c n.
Proof. destruct n; cbn [plain_type compile_dtname]; rewrite ?one_value; reflexivity. Qed.
Lemma c_params ps : param_values (Some (plain_params ps)) = param_values ps.
Proof. destruct ps as [l|]; [|reflexivity]. cbn. rewrite map_map. apply map_ext. intros [[a k] v]. rewrite one_value. reflexivity. Qed.
Lemma c_path c h : path_from c (one h) = path_from c h.
Proof. unfold path_from. rewrite one_value. reflexivity. Qed.
Lemma c_decls ds : forall c, eqm (compile_declarations c (map plain_decl ds)) (compile_declarations c ds).
Proof.
  assert (E : forall c d, compile_declaration c (plain_decl d) = compile_declaration c d).
  { intros c [p [|u]|p [|u]|p u]; cbn [plain_decl plain_uri compile_declaration]; rewrite ?one_value; reflexivity. }
  induction ds as [|d ds IH]; intros c; [apply eqm_refl|]. cbn [map compile_declarations]. rewrite E. apply eqm_bind; [apply eqm_refl | exact IH].
Qed.
Lemma p_schema (cp' cp : ctx -> spat -> CM mpat) (ci' ci : ctx -> list gcontent -> CM unit) c s :
  (forall p c, eqm (cp' c (plain p)) (cp c p)) -> (forall p c, eqm (cp' c (SGroup (plain p))) (cp c (SGroup p))) -> (forall l c, eqm (ci' c (flat_map plain_content l)) (ci c l)) ->
  eqm (compile_schema_with cp' ci' c (Schema (map plain_decl (s_decls s)) (plain_top (s_top s)))) (compile_schema_with cp ci c s).
Proof.
  intros H1 H2 H3. unfold compile_schema_with. cbn [s_decls s_top]. apply eqm_bind; [apply c_decls|]. intros c'. destruct (s_top s) as [p|l]; cbn [plain_top]; [|apply eqm_bind; [apply H3 | intros; apply eqm_refl]].
  destruct (is_include c') eqn:E.
  - destruct p; try apply eqm_refl; cbn [plain].
    + apply eqm_bind; [apply H3 | intros; apply eqm_refl].
    + destruct (plain p1); apply eqm_refl.
    + destruct (plain p1); apply eqm_refl.
    + destruct (plain p1); apply eqm_refl.
  - destruct p; try (apply eqm_bind; [apply H1 | intros; apply eqm_refl]). apply eqm_bind; [apply H2 | intros; apply eqm_refl].
Qed.
Hypothesis Hg : forall p c, eqm (rp' c (SGroup (plain p))) (rp c (SGroup p)).
(** what the pattern of a file is to an external reference *)
Lemma top_same p c : eqm (rp' c (match p with SGroup q => SGroup (plain q) | _ => plain p end)) (rp c p).
Proof. destruct p; try apply Hp. apply Hg. Qed.
Lemma plain_same : (forall p c, eqm (P' c (plain p)) (P c p)) /\ (forall g c, eqm (citer (G' c) (plain_content g)) (G c g)) /\
  (forall i g c, eqm (citer (fun i => cmap_err g (V' c i)) (plain_override i)) (cmap_err g (V c i))).
Proof.
  set (PP := fun p => forall c, eqm (P' c (plain p)) (P c p)). set (GG := fun g => forall c, eqm (citer (G' c) (plain_content g)) (G c g)).
  set (VV := fun i => forall g c, eqm (citer (fun i => cmap_err g (V' c i)) (plain_override i)) (cmap_err g (V c i))).
  assert (H_two : forall (F : mpat -> mpat -> mpat) a b c, eqm (P' c (plain a)) (P c a) -> eqm (P' c (plain b)) (P c b) ->
     eqm (do x <- P' c (plain a); do y <- P' c (plain b); cret (F x y)) (do x <- P c a; do y <- P c b; cret (F x y))).
  { intros F a b c Ha Hb. apply eqm_bind; [exact Ha|]. intros x. apply eqm_bind; [exact Hb | intros; apply eqm_refl]. }
  assert (H_con : forall l, Forall GG l -> forall c, eqm (citer (G' c) (flat_map plain_content l)) (citer (G c) l)).
  { intros l H c. apply citer_flat. eapply Forall_impl; [|exact H]. intros g Hgg. apply Hgg. }
  assert (H_ovr : forall l, Forall VV l -> forall g c, eqm (citer (fun i => cmap_err g (V' c i)) (flat_map plain_override l)) (citer (fun i => cmap_err g (V c i)) l)).
  { intros l H g c. apply citer_flat. eapply Forall_impl; [|exact H]. intros i Hii. apply Hii. }
  assert (H_gr : forall l, Forall GG l -> PP (SGrammar l)).
  { intros l Hl c. cbn [plain SchemaCompile.compile_pattern]. apply eqm_bind; [apply eqm_refl|]. intros g. apply eqm_bind; [apply H_con, Hl | intros; apply eqm_refl]. }
  assert (H_ex : forall h i, PP (SExternal h i)).
  { intros h [i|] c; [apply eqm_refl|]. cbn [plain option_map SchemaCompile.compile_pattern]. rewrite c_path. apply eqm_bind; [apply eqm_refl|]. intros f. apply p_get. intros s. apply eqm_bind; [apply eqm_refl|]. intros inc. cbn [s_top].
    destruct (s_top s) as [p|l]; cbn [plain_top].
    - assert (E : match p with SGroup q => TPattern (SGroup (plain q)) | _ => TPattern (plain p) end = TPattern (match p with SGroup q => SGroup (plain q) | _ => plain p end)) by (destruct p; reflexivity).
      rewrite E. apply eqm_cmap, top_same.
    - apply eqm_bind; [apply eqm_refl|]. intros g. apply eqm_bind; [apply Hi | intros; apply eqm_refl]. }
  assert (H_gi : forall h inh ov, (match ov with Some l => Forall VV l | None => True end) -> GG (GInclude h inh ov)).
  { intros h inh ov Hov c. cbn [plain_content]. eapply eqm_trans; [apply citer_one|]. cbn [SchemaCompile.compile_content]. rewrite c_path. apply eqm_bind; [apply eqm_refl|]. intros f. apply p_get. intros s.
    apply eqm_bind; [apply eqm_refl|]. intros inc. apply eqm_bind; [destruct inh; apply eqm_refl|]. intros inc'. apply eqm_bind; [destruct ov as [l|]; [apply H_ovr, Hov | apply eqm_refl]|]. intros _.
    apply eqm_bind; [|intros; apply eqm_refl]. apply eqm_cmap, p_schema; assumption. }
  assert (H_gv : forall l, Forall GG l -> GG (GDiv l)) by (intros l Hl c; cbn [plain_content SchemaCompile.compile_content]; apply H_con, Hl).
  assert (H_gd : forall n how p, PP p -> GG (GDefine n how p)).
  { intros n how p IH c. cbn [plain_content]. eapply eqm_trans; [apply citer_one|]. cbn [SchemaCompile.compile_content]. apply eqm_bind; [apply IH | intros; apply eqm_refl]. }
  assert (H_ga : forall a, GG (GAnnotation a)) by (intros a c; apply eqm_refl).
  assert (H_if : forall n how p, PP p -> VV (IDefine n how p)).
  { intros n how p IH g c. cbn [plain_override]. eapply eqm_trans; [apply (citer_one (fun i => cmap_err g (V' c i)))|]. apply eqm_cmap. cbn [SchemaCompile.compile_override]. apply eqm_bind; [apply IH | intros; apply eqm_refl]. }
  assert (H_iv : forall l, Forall VV l -> VV (IDiv l)) by (intros l _ g c; cbn [plain_override]; eapply eqm_trans; [apply (citer_one (fun i => cmap_err g (V' c i)))|]; apply eqm_refl).
  assert (H_ia : forall a, VV (IAnnotation a)) by (intros a g c st; reflexivity).
  assert (H_va : forall n v, PP (SValue n v)).
  { intros n v c. cbn [plain SchemaCompile.compile_pattern]. rewrite one_value. destruct n as [n|]; [rewrite c_type|]; apply eqm_refl. }
  assert (H_da : forall n ps ex, (match ex with Some e => PP e | None => True end) -> PP (SData n ps ex)).
  { intros n ps ex IH c. cbn [plain SchemaCompile.compile_pattern]. rewrite c_type, c_params. do 2 (apply eqm_bind; [apply eqm_refl | intros ?]). apply eqm_bind; [|intros; apply eqm_refl].
    destruct ex as [e|]; [|apply eqm_refl]. apply eqm_bind; [apply IH | intros; apply eqm_refl]. }
  assert (H_l : forall a b, PP a -> PP b -> PP (SListPair a b)) by (intros a b Ha Hb c; cbn [plain]; eapply eqm_trans; [apply c_seq|]; cbn [SchemaCompile.compile_pattern]; apply H_two; auto).
  assert (H_i : forall a b, PP a -> PP b -> PP (SInterleavePair a b)) by (intros a b Ha Hb c; cbn [plain]; eapply eqm_trans; [apply c_inter|]; cbn [SchemaCompile.compile_pattern]; apply H_two; auto).
  assert (H_c : forall a b, PP a -> PP b -> PP (SChoicePair a b)) by (intros a b Ha Hb c; cbn [plain]; eapply eqm_trans; [apply c_alt|]; cbn [SchemaCompile.compile_pattern]; apply H_two; auto).
  split; [|split]; [apply (spat_ind' PP GG VV) | apply (gcontent_ind' PP GG VV) | apply (icontent_ind' PP GG VV)]; auto.
  all: try (intros; intros c; apply eqm_refl).
  all: try (intros q IH c; cbn [plain SchemaCompile.compile_pattern]; first [apply IH | apply eqm_bind; [apply IH | intros; apply eqm_refl]]; fail).
  all: intros nc q IH c; cbn [plain SchemaCompile.compile_pattern]; apply eqm_bind; [apply c_nc|]; intros ?; first [apply eqm_bind; [apply IH | intros; apply eqm_refl] | apply eqm_bind; [apply eqm_refl | intros ?; apply eqm_bind; [apply IH | intros; apply eqm_refl]]].
Qed.
Lemma plain_contents l c : eqm (compile_contents O C fs' rp' ri' c (flat_map plain_content l)) (compile_contents O C fs rp ri c l).
Proof. unfold compile_contents. apply citer_flat. apply Forall_forall. intros g _. exact (proj1 (proj2 plain_same) g c). Qed.
Lemma plain_group p c : eqm (P' c (SGroup (plain p))) (P c (SGroup p)).
Proof. exact (proj1 plain_same p c). Qed.
End Rec.
Lemma plain_nested d : (forall p c, eqm (fst (nested O C fs' d) c (plain p)) (fst (nested O C fs d) c p)) /\ (forall p c, eqm (fst (nested O C fs' d) c (SGroup (plain p))) (fst (nested O C fs d) c (SGroup p))) /\
  (forall l c, eqm (snd (nested O C fs' d) c (flat_map plain_content l)) (snd (nested O C fs d) c l)).
Proof.
  induction d as [|d (H1 & H2 & H3)]; [repeat split; intros; apply eqm_refl|]. cbn [nested]. destruct (nested O C fs' d) as [rp' ri'], (nested O C fs d) as [rp ri]. cbn [fst snd] in *. split; [|split].
  - intros p c. exact (proj1 (plain_same rp' rp ri' ri H1 H3 H2) p c).
  - intros p c. exact (plain_group rp' rp ri' ri H1 H3 H2 p c).
  - intros l c. exact (plain_contents rp' rp ri' ri H1 H3 H2 l c).
Qed.
Theorem plain_compiled d name : compile_grammar O C fs' d name = compile_grammar O C fs d name.
Proof.
  unfold compile_grammar. destruct (plain_nested d) as (H1 & H2 & H3). destruct (nested O C fs' d) as [rp' ri'], (nested O C fs d) as [rp ri]. cbn [fst snd] in *.
  match goal with |- ?m' empty_cst = ?m empty_cst => assert (E : eqm m' m); [|apply E] end.
  apply p_get0. intros s. apply eqm_bind; [apply eqm_refl|]. intros c. apply eqm_bind; [|intros; apply eqm_refl]. apply p_schema.
  - intros p c0. exact (proj1 (plain_same rp' rp ri' ri H1 H3 H2) p c0).
  - intros p c0. exact (plain_group rp' rp ri' ri H1 H3 H2 p c0).
  - intros l c0. exact (plain_contents rp' rp ri' ri H1 H3 H2 l c0).
Qed.
End Compile.
Lemma plain_compiles O C fs d name : compile_grammar O C (plain_files fs) d name = compile_grammar O C fs d name.
Proof. apply plain_compiled. reflexivity. Qed.
Lemma alike_compile O C fs fs' d name : (forall f, plain_files fs f = plain_files fs' f) -> compile_grammar O C fs d name = compile_grammar O C fs' d name.
Proof. intros H. rewrite <- (plain_compiles O C fs'). apply eq_sym, plain_compiled. intros f. symmetry. apply H. Qed.

(** ** What has the same plain form *)
Lemma seq_assoc x y z : seq (seq x y) z = seq x (seq y z).
Proof. induction x; try reflexivity. cbn. rewrite IHx2. reflexivity. Qed.
Lemma inter_assoc x y z : inter (inter x y) z = inter x (inter y z).
Proof. induction x; try reflexivity. cbn. rewrite IHx2. reflexivity. Qed.
Lemma alt_assoc x y z : alt (alt x y) z = alt x (alt y z).
Proof. induction x; try reflexivity. cbn. rewrite IHx2. reflexivity. Qed.
Lemma plain_regroup a b c : plain (SListPair (SGroup (SListPair a b)) c) = plain (SListPair a (SListPair b c)) /\
  plain (SInterleavePair (SGroup (SInterleavePair a b)) c) = plain (SInterleavePair a (SInterleavePair b c)) /\
  plain (SChoicePair (SGroup (SChoicePair a b)) c) = plain (SChoicePair a (SChoicePair b c)).
Proof. cbn [plain]. rewrite seq_assoc, inter_assoc, alt_assoc. auto. Qed.
Lemma plain_div l1 l2 l3 a : flat_map plain_content (l1 ++ GDiv l2 :: GAnnotation a :: l3) = flat_map plain_content (l1 ++ l2 ++ l3).
Proof. rewrite !flat_map_app. reflexivity. Qed.
