(** * ConvertRead: what the parser of the XML syntax reads from a converted schema. *)
From Coq Require Import String.
From Verif Require Import Base Datatype Facets DatatypeSpec Syntax XmlSyntax RngXml XmlScope XmlBase Convert.
From Verif Require SourceCompile.

(** the schema read back *)
Definition t_name (e : env) (el : bool) (n : sname) : sname :=
  match n with
  | NmId i => NmNs [if el then e_default e else []] (ik_string i)
  | NmC p l => NmNs [ns_of e p] l
  | NmNs u l => NmNs [lit_value u] l
  end.
Fixpoint t_nc (e : env) (el : bool) (n : snc) : snc :=
  match n with
  | CName n => CName (t_name e el n)
  | CNs n ex => CNs (NsUri [x_space e n]) (match ex with Some x => Some (t_nc e el x) | None => None end)
  | CAny ex => CAny (match ex with Some x => Some (t_nc e el x) | None => None end)
  | CAlt a b => CAlt (t_nc e el a) (t_nc e el b)
  | CParen a => t_nc e el a
  end.
Definition t_type (e : env) (n : sdtname) : sdtname := let '(u, l) := type_of e n in SdNs [u] l.
Definition t_data (e : env) (n : sdtname) : sdtname := let '(u, l) := type_of e n in if str_eqb l (lit "token") then SdToken else SdNs [u] l.
Definition t_param (p : sparam) : sparam := let '(_, k, v) := p in (None, IKId (ik_string k), [lit_value v]).
Fixpoint t_pat (e : env) (p : spat) : spat :=
  match p with
  | SElement nc q => SElement (t_nc e true nc) (t_pat e q)
  | SAttribute nc q => SAttribute (t_nc e false nc) (t_pat e q)
  | SList q => SList (t_pat e q)
  | SMixed q => SMixed (t_pat e q)
  | SIdent i => SIdent i
  | SParent i => SParent i
  | SEmpty => SEmpty
  | SText => SText
  | SNotAllowed => SNotAllowed
  | SExternal h _ => SExternal [lit_value h] None
  | SGrammar l => SGrammar (flat_map (t_con e) l)
  | SGroup q => SGroup (t_pat e q)
  | SListPair a b => SGroup (SListPair (t_pat e a) (t_pat e b))
  | SInterleavePair a b => SInterleavePair (t_pat e a) (t_pat e b)
  | SChoicePair a b => SChoicePair (t_pat e a) (t_pat e b)
  | SOptional q => SOptional (t_pat e q)
  | SZeroOrMore q => SZeroOrMore (t_pat e q)
  | SOneOrMore q => SOneOrMore (t_pat e q)
  | SValue n v => SValue (match n with Some n => Some (t_type e n) | None => None end) [lit_value v]
  | SData n ps ex => SData (t_data e n) (Some (map t_param (params_of ps))) (match ex with Some x => Some (t_pat e x) | None => None end)
  end
with t_con (e : env) (g : gcontent) : list gcontent :=
  match g with
  | GDefine n h p => [GDefine n h (t_pat e p)]
  | GDiv l => [GDiv (flat_map (t_con e) l)]
  | GInclude h _ ov => [GInclude [lit_value h] None (Some (match ov with Some l => flat_map (t_inc e) l | None => [] end))]
  | GAnnotation _ => []
  end
with t_inc (e : env) (i : icontent) : list icontent :=
  match i with
  | IDefine n h p => [IDefine n h (t_pat e p)]
  | IDiv l => [IDiv (flat_map (t_inc e) l)]
  | IAnnotation _ => []
  end.
Definition t_schema (s : schema) : schema :=
  let e := env_of (s_decls s) in
  Schema [] (match s_top s with TPattern p => TPattern (t_pat e p) | TGrammar l => TGrammar (flat_map (t_con e) l) end).

Lemma name_char_uni c : NameChar c -> c <> 5760%N -> is_uni_ws c = false.
Proof.
  intros H Hn. destruct (is_uni_ws c) eqn:E; [exfalso | reflexivity]. unfold is_uni_ws in E. unfold NameChar, NameStart in H.
  rewrite ?orb_true_iff, ?andb_true_iff, ?N.leb_le, ?N.eqb_eq in E. lia.
Qed.
Lemma trim_name v : xml_name v -> trim v = v.
Proof.
  intros [H Hu]. rewrite <- (app_nil_r v) at 1. apply (trim_split [] v []); [constructor | constructor | apply NCName_nonempty; exact H|].
  apply NCName_chars in H. rewrite Forall_forall in H. split; intros c r ->; apply name_char_uni; try (apply H; rewrite ?in_app_iff; cbn; tauto);
    intros ->; apply Hu; rewrite ?in_app_iff; cbn; tauto.
Qed.
Lemma ncname_name v : xml_name v -> ncname v = Some v.
Proof. intros H. apply ncname_trim. split; [apply trim_name; exact H | apply H]. Qed.
Lemma attr_name v : xml_name v -> attr_ncname v = Some v.
Proof.
  intros H. unfold attr_ncname. rewrite ncname_of_trim, (ncname_name v H). destruct (has_colon v) eqn:E; [|reflexivity].
  apply has_colon_In in E. destruct (NCName_colon v (proj1 H) E).
Qed.
Lemma colon_name v : xml_name v -> find_colon v = None.
Proof. intros H. apply find_colon_none, NCName_colon, H. Qed.

Lemma rebase_plain up h : bases up = [] -> rebase_path up h = h.
Proof. unfold rebase_path. intros ->. destruct h as [|c h]; [reflexivity|]. cbn. destruct (c =? 47)%N; reflexivity. Qed.
Definition atts_of (l : list (string * str)) : list xatt := map (fun '(k, v) => XAtt None (lit k) v) l.
Lemma base_none l : xml_base (atts_of l) = None.
Proof. induction l as [|[k v] l IH]; [reflexivity | exact IH]. Qed.
Lemma bases_cons l up : bases up = [] -> bases (atts_of l :: up) = [].
Proof. intros H. unfold bases in *. cbn [flat_map]. rewrite base_none. exact H. Qed.
Lemma el_rng n a k : is_rng_el (elt n a k) = true. Proof. reflexivity. Qed.
Lemma each_one {A} (f : xnod -> option A) n a k : each f [elt n a k] = match f (elt n a k) with Some x => Some [x] | None => None end.
Proof. cbn [each]. rewrite el_rng. reflexivity. Qed.
Lemma each_cons {A} (f : xnod -> option A) n a k l : each f (elt n a k :: l) = match f (elt n a k), each f l with Some x, Some r => Some (x :: r) | _, _ => None end.
Proof. cbn [each]. rewrite el_rng. reflexivity. Qed.

(** ** names *)
Lemma x_nc_elt e el n : exists nm a k, x_nc e el n = elt nm a k.
Proof.
  induction n as [n| | | |a IH]; cbn [x_nc]; try (eexists _, _, _; reflexivity); [|exact IH].
  destruct n; eexists _, _, _; reflexivity.
Qed.
Lemma except_one {A} (f : list xatt -> xnod -> option A) op n a k : except_child f op (an_except (Some (elt n a k))) = match f [] (elt n a k) with Some x => Some (Some x) | None => None end.
Proof. unfold an_except. cbn. destruct (f [] _); reflexivity. Qed.
Lemma nc_any up exc kids : name_class up exc (elt "anyName" [] kids) =
  if exc then None else match except_child (fun a => name_class (a :: [] :: up) true) CAlt kids with Some e => Some (CAny e) | None => None end.
Proof. reflexivity. Qed.
Lemma nc_ns up exc u kids : name_class up exc (elt "nsName" [("ns"%string, u)] kids) =
  match except_child (fun a => name_class (a :: atts_of [("ns"%string, u)] :: up) true) CAlt kids with Some e => Some (CNs (NsUri [u]) e) | None => None end.
Proof. reflexivity. Qed.
Lemma nc_choice up exc kids : name_class up exc (elt "choice" [] kids) = joined CAlt (each (name_class ([] :: up) exc) kids).
Proof. reflexivity. Qed.
Lemma read_nc np e el n : forall up exc, fit_nc np exc n -> name_class up exc (x_nc e el n) = Some (t_nc e el n).
Proof.
  induction n as [n|n ex IH|ex IH|a IHa b IHb|a IH] using SourceCompile.snc_ind'; intros up exc H; cbn [x_nc t_nc fit_nc] in *.
  - assert (K : forall u l, xml_name l -> name_class up exc (elt "name" [("ns"%string, u)] [XTxt l]) = Some (CName (NmNs [u] l))).
    { intros u l Hl. cbn. rewrite (colon_name l Hl), (ncname_name l Hl). reflexivity. }
    destruct n as [i|p l|u l]; cbn in H; apply K; tauto.
  - rewrite nc_ns. destruct H as [H1 H2]. destruct ex as [x|]; [|reflexivity]. destruct (x_nc_elt e el x) as (nm & a & k & E).
    specialize (fun up => IH up true H2). rewrite E in *. rewrite except_one, IH. reflexivity.
  - rewrite nc_any. destruct H as [-> H2]. destruct ex as [x|]; [|reflexivity]. destruct (x_nc_elt e el x) as (nm & a & k & E).
    specialize (fun up => IH up true H2). rewrite E in *. rewrite except_one, IH. reflexivity.
  - rewrite nc_choice. destruct H as [H1 H2]. destruct (x_nc_elt e el a) as (n1 & a1 & k1 & E1), (x_nc_elt e el b) as (n2 & a2 & k2 & E2).
    specialize (fun up => IHa up exc H1). specialize (fun up => IHb up exc H2). rewrite E1 in *. rewrite E2 in *. rewrite each_cons, each_one, IHa, IHb. reflexivity.
  - apply IH, H.
Qed.

(** ** patterns *)
Section Pat.
Variable U : str -> bool.
Variable Ext : str -> Prop.
Notation pattern := (pattern U).
Notation grammar_content := (grammar_content U).
Notation include_content := (include_content U).
Lemma x_pat_elt e p : exists nm a k, x_pat e p = elt nm a k.
Proof. destruct p; eexists _, _, _; reflexivity. Qed.
Lemma x_define_elt n h k : exists nm a ks, x_define n h k = elt nm a ks.
Proof. unfold x_define. destruct (str_eqb n (lit "start")); eexists _, _, _; reflexivity. Qed.
Lemma p_element up a b : pattern up (elt "element" [] [a; b]) =
  match first_rest (name_class ([] :: up) false) (pattern ([] :: up)) [a; b] with
  | Some (c, l) => match joined SListPair (Some l) with Some p => Some (SElement c p) | None => None end
  | None => None end.
Proof. reflexivity. Qed.
Lemma p_attribute up a b : pattern up (elt "attribute" [] [a; b]) =
  match first_rest (name_class ([] :: up) false) (pattern ([] :: up)) [a; b] with
  | Some (c, []) => Some (SAttribute c SText) | Some (c, [p]) => Some (SAttribute c p) | _ => None end.
Proof. reflexivity. Qed.
Lemma p_one up (n : string) f : In (n, f) [("list", SList); ("mixed", SMixed); ("group", SGroup); ("optional", SOptional); ("zeroOrMore", SZeroOrMore); ("oneOrMore", SOneOrMore)]%string ->
  forall kids, pattern up (elt n [] kids) = opt1 f (joined SListPair (each (pattern ([] :: up)) kids)).
Proof. cbn. intros H kids. repeat (destruct H as [[= <- <-]|H]; [reflexivity|]). destruct H. Qed.
Lemma p_inter up kids : pattern up (elt "interleave" [] kids) = joined SInterleavePair (each (pattern ([] :: up)) kids).
Proof. reflexivity. Qed.
Lemma p_choice up kids : pattern up (elt "choice" [] kids) = joined SChoicePair (each (pattern ([] :: up)) kids).
Proof. reflexivity. Qed.
Lemma p_ref up n : pattern up (elt "ref" [("name"%string, n)] []) = opt1 SIdent (attr_ncname n).
Proof. reflexivity. Qed.
Lemma p_parent up n : pattern up (elt "parentRef" [("name"%string, n)] []) = opt1 SParent (attr_ncname n).
Proof. reflexivity. Qed.
Lemma p_external up h : pattern up (elt "externalRef" [("href"%string, h)] []) = Some (SExternal [rebase_path (atts_of [("href"%string, h)] :: up) h] None).
Proof. reflexivity. Qed.
Lemma p_grammar up kids : pattern up (elt "grammar" [] kids) = opt1 SGrammar (each (grammar_content ([] :: up)) kids).
Proof. reflexivity. Qed.
Lemma p_value0 up kids : pattern up (elt "value" [] kids) = value_el ([] :: up) [] kids.
Proof. reflexivity. Qed.
Definition lib_ok (u : str) : bool := match u with [] => true | _ => U u end.
Lemma p_value up l u kids : pattern up (elt "value" [("type"%string, l); ("datatypeLibrary"%string, u)] kids) =
  if lib_ok u then value_el (atts_of [("type"%string, l); ("datatypeLibrary"%string, u)] :: up) (atts_of [("type"%string, l); ("datatypeLibrary"%string, u)]) kids else None.
Proof. destruct u; reflexivity. Qed.
Lemma p_data up l u kids : pattern up (elt "data" [("type"%string, l); ("datatypeLibrary"%string, u)] kids) =
  if lib_ok u then match data_type (atts_of [("type"%string, l); ("datatypeLibrary"%string, u)] :: up) l, data_children (fun a => pattern (a :: atts_of [("type"%string, l); ("datatypeLibrary"%string, u)] :: up)) kids with
  | Some t, Some (ps, e) => Some (SData t (Some ps) e) | _, _ => None end else None.
Proof. destruct u; reflexivity. Qed.
Lemma c_define up n h k : xml_name n -> (exists nm a ks, k = elt nm a ks) -> forall p, (forall up', bases up' = [] -> pattern up' k = Some p) -> bases up = [] ->
  grammar_content up (x_define n h k) = Some (GDefine n h p) /\ include_content up (x_define n h k) = Some (IDefine n h p).
Proof.
  intros Hn (nm & a & ks & ->) p Hp Hb. unfold x_define. destruct (str_eqb n (lit "start")) eqn:E.
  - apply str_eqb_eq in E. subst n. 
    assert (K : start_of_el (atts_of (how_atts h)) (each (pattern (atts_of (how_atts h) :: up)) [elt nm a ks]) = Some (lit "start", h, p)).
    { rewrite each_one, Hp by (apply bases_cons; exact Hb). destruct h; reflexivity. }
    split; [change (grammar_content up (elt "start" (how_atts h) [elt nm a ks])) with (opt1 (fun '(n, h, p) => GDefine n h p) (start_of_el (atts_of (how_atts h)) (each (pattern (atts_of (how_atts h) :: up)) [elt nm a ks])))
           |change (include_content up (elt "start" (how_atts h) [elt nm a ks])) with (opt1 (fun '(n, h, p) => IDefine n h p) (start_of_el (atts_of (how_atts h)) (each (pattern (atts_of (how_atts h) :: up)) [elt nm a ks])))];
      rewrite K; reflexivity.
  - set (at' := ("name"%string, n) :: how_atts h).
    assert (K : define_of_el (atts_of at') (each (pattern (atts_of at' :: up)) [elt nm a ks]) = Some (n, h, p)).
    { rewrite each_one, Hp by (apply bases_cons; exact Hb). unfold define_of_el, the_name. subst at'.
      replace (att "name" (atts_of (("name"%string, n) :: how_atts h))) with (Some n) by reflexivity. rewrite (attr_name n Hn). destruct h; reflexivity. }
    split; [change (grammar_content up (elt "define" at' [elt nm a ks])) with (opt1 (fun '(n, h, p) => GDefine n h p) (define_of_el (atts_of at') (each (pattern (atts_of at' :: up)) [elt nm a ks])))
           |change (include_content up (elt "define" at' [elt nm a ks])) with (opt1 (fun '(n, h, p) => IDefine n h p) (define_of_el (atts_of at') (each (pattern (atts_of at' :: up)) [elt nm a ks])))];
      rewrite K; reflexivity.
Qed.
Lemma c_div up kids : grammar_content up (elt "div" [] kids) = opt1 GDiv (each (grammar_content ([] :: up)) kids) /\ include_content up (elt "div" [] kids) = opt1 IDiv (each (include_content ([] :: up)) kids).
Proof. split; reflexivity. Qed.
Lemma c_include up h kids : grammar_content up (elt "include" [("href"%string, h)] kids) =
  match each (include_content (atts_of [("href"%string, h)] :: up)) kids with Some l => Some (GInclude [rebase_path (atts_of [("href"%string, h)] :: up) h] None (Some l)) | None => None end.
Proof. reflexivity. Qed.
Lemma each_flat {X A} (f : xnod -> option A) (x : X -> list xnod) (t : X -> list A) l : Forall (fun g => each f (x g) = Some (t g)) l -> each f (flat_map x l) = Some (flat_map t l).
Proof.
  induction 1 as [|g l Hg _ IH]; [reflexivity|]. cbn [flat_map]. revert IH Hg. generalize (flat_map x l) (flat_map t l) (x g) (t g). intros a b ks. induction ks as [|k ks IHk]; intros r Ha Hr.
  - injection Hr as <-. exact Ha.
  - cbn [each app] in *. destruct (is_rng_el k); [|apply IHk; assumption]. destruct (f k) as [y|]; [|discriminate Hr].
    destruct (each f ks) as [z|] eqn:E; [|change ((match None with Some l0 => Some (y :: l0) | None => None end) = Some r) in Hr; discriminate Hr].
    change (Some (y :: z) = Some r) in Hr. injection Hr as <-. change (match each f (ks ++ a) with Some l0 => Some (y :: l0) | None => None end = Some ((y :: z) ++ b)). rewrite (IHk z Ha eq_refl). reflexivity.
Qed.
Lemma all_Forall {A} (f : A -> Prop) l : all f l -> Forall f l.
Proof. induction l as [|x l IH]; cbn; [constructor|]. intros [H1 H2]. constructor; auto. Qed.
Lemma all_lift {A} (f g : A -> Prop) l : Forall (fun x => f x -> g x) l -> all f l -> Forall g l.
Proof. induction 1 as [|x l Hx _ IH]; cbn; [constructor|]. intros [H1 H2]. constructor; auto. Qed.
Lemma lib_fit u : (u = [] \/ U u = true) -> lib_ok u = true.
Proof. intros [->|H]; [reflexivity|]. destruct u; [reflexivity | exact H]. Qed.
Lemma chars_kids s : existsb is_elt (characters s) = false /\ (match characters s with [] => Some [] | k :: _ => node_text k end) = Some s.
Proof. destruct s; split; reflexivity. Qed.
Lemma read_param p : fit_param p -> param_el (x_param p) = Some (t_param p) /\ named (x_param p) "param" = true /\ is_rng_el (x_param p) = true.
Proof.
  destruct p as [[i k] v]. cbn [fit_param x_param t_param]. intros [H1 H2]. destruct (lit_value v) as [|c s] eqn:E; [congruence|]. split; [|split; reflexivity].
  unfold param_el, elt. replace (att "name" _) with (Some (ik_string k)) by reflexivity. cbn [characters]. rewrite (attr_name _ H1). reflexivity.
Qed.
Lemma read_data_children f ps o x : Forall fit_param ps -> (match o with Some (n, a, k) => f [] (elt n a k) = x /\ x <> None | None => x = None end) ->
  data_children f (map x_param ps ++ an_except (match o with Some (n, a, k) => Some (elt n a k) | None => None end)) = Some (map t_param ps, x).
Proof.
  intros Hp Hx. induction Hp as [|p ps Hp _ IH].
  - cbn [map app]. destruct o as [[[n a] k]|]; [|subst x; reflexivity].
    change (data_children f (an_except (Some (elt n a k)))) with (match except_child f SChoicePair (an_except (Some (elt n a k))) with Some e => Some ([] : list sparam, e) | None => None end).
    rewrite except_one. destruct Hx as [-> Hx]. destruct x; [reflexivity | congruence].
  - destruct (read_param p Hp) as (H1 & H2 & H3). cbn [map app]. revert IH.
    generalize (map x_param ps ++ an_except (match o with Some (n, a, k) => Some (elt n a k) | None => None end)). intros ks IH.
    cbn [data_children]. rewrite H3, H2, H1. change (match data_children f ks with Some (ps0, e) => Some (t_param p :: ps0, e) | None => None end = Some (t_param p :: map t_param ps, x)).
    rewrite IH. reflexivity.
Qed.
Definition Rp e np dp (p : spat) : Prop := fit_pat U Ext e np dp p -> forall up, bases up = [] -> pattern up (x_pat e p) = Some (t_pat e p).
Definition Rg e np dp (g : gcontent) : Prop := fit_con U Ext e np dp g -> forall up, bases up = [] -> each (grammar_content up) (x_con e g) = Some (t_con e g).
Definition Ri e dp (i : icontent) : Prop := fit_inc U Ext e dp i -> forall up, bases up = [] -> each (include_content up) (x_inc e i) = Some (t_inc e i).
Lemma read e dp : (forall p np, Rp e np dp p) /\ (forall g np, Rg e np dp g) /\ (forall i, Ri e dp i).
Proof.
  assert (H_one : forall (n : string) f q, In (n, f) [("list", SList); ("mixed", SMixed); ("group", SGroup); ("optional", SOptional); ("zeroOrMore", SZeroOrMore); ("oneOrMore", SOneOrMore)]%string ->
    forall np, Rp e np dp q -> fit_pat U Ext e np dp q -> forall up, bases up = [] -> pattern up (elt n [] [x_pat e q]) = Some (f (t_pat e q))).
  { intros n f q Hn np Hq Hf up Hb. rewrite (p_one up n f Hn). destruct (x_pat_elt e q) as (nm & a & k & E). specialize (Hq Hf ([] :: up) (bases_cons [] up Hb)). rewrite E in *.
    rewrite each_one, Hq. reflexivity. }
  assert (H_two : forall a b np, Rp e np dp a -> Rp e np dp b -> fit_pat U Ext e np dp a -> fit_pat U Ext e np dp b -> forall up, bases up = [] -> each (pattern ([] :: up)) [x_pat e a; x_pat e b] = Some [t_pat e a; t_pat e b]).
  { intros a b np Ha Hb Fa Fb up Hu. specialize (Ha Fa ([] :: up) (bases_cons [] up Hu)). specialize (Hb Fb ([] :: up) (bases_cons [] up Hu)).
    destruct (x_pat_elt e a) as (n1 & a1 & k1 & E1), (x_pat_elt e b) as (n2 & a2 & k2 & E2). rewrite E1, E2 in *. rewrite each_cons, each_one, Ha, Hb. reflexivity. }
  assert (H_fr : forall el nc q np, Rp e np dp q -> fit_nc np false nc -> fit_pat U Ext e np dp q -> forall up, bases up = [] ->
     first_rest (name_class ([] :: up) false) (pattern ([] :: up)) [x_nc e el nc; x_pat e q] = Some (t_nc e el nc, [t_pat e q])).
  { intros el nc q np Hq Fn Fq up Hu. specialize (Hq Fq ([] :: up) (bases_cons [] up Hu)). pose proof (read_nc np e el nc ([] :: up) false Fn) as Hn.
    destruct (x_nc_elt e el nc) as (n1 & a1 & k1 & E1), (x_pat_elt e q) as (n2 & a2 & k2 & E2). rewrite E1, E2 in *. cbn [first_rest]. rewrite el_rng, Hn, each_one, Hq. reflexivity. }
  assert (H_gram : forall l, Forall (fun g => forall np, Rg e np dp g) l -> forall np, all (fit_con U Ext e np dp) l -> forall up, bases up = [] -> each (grammar_content ([] :: up)) (flat_map (x_con e) l) = Some (flat_map (t_con e) l)).
  { intros l Hl np Hf up Hu. apply each_flat. apply (all_lift (fit_con U Ext e np dp)); [|exact Hf]. eapply Forall_impl; [|exact Hl]. cbn beta. intros g Hg Fg. exact (Hg np Fg ([] :: up) (bases_cons [] up Hu)). }
  assert (P1 : forall p np, Rp e np dp p).
  { apply (spat_ind' (fun p => forall np, Rp e np dp p) (fun g => forall np, Rg e np dp g) (fun i => Ri e dp i)); unfold Rp, Rg, Ri.
    - intros nc p IH np [F1 F2] up Hu. cbn [x_pat t_pat]. rewrite p_element, (H_fr true nc p np (IH np) F1 F2 up Hu). reflexivity.
    - intros nc p IH np [F1 F2] up Hu. cbn [x_pat t_pat]. rewrite p_attribute, (H_fr false nc p np (IH np) F1 F2 up Hu). reflexivity.
    - intros p IH np F up Hu. refine (H_one "list"%string SList p _ np (IH np) F up Hu). cbn. tauto.
    - intros p IH np F up Hu. refine (H_one "mixed"%string SMixed p _ np (IH np) F up Hu). cbn. tauto.
    - intros i np F up Hu. cbn [x_pat t_pat]. rewrite p_ref, (attr_name i F). reflexivity.
    - intros i np F up Hu. cbn [x_pat t_pat]. rewrite p_parent, (attr_name i F). reflexivity.
    - reflexivity.
    - reflexivity.
    - reflexivity.
    - intros h i np F up Hu. cbn [x_pat t_pat]. rewrite p_external, rebase_plain by (apply bases_cons; exact Hu). reflexivity.
    - intros l IH np F up Hu. cbn [x_pat t_pat]. rewrite p_grammar, (H_gram l IH np F up Hu). reflexivity.
    - intros p IH np F up Hu. refine (H_one "group"%string SGroup p _ np (IH np) F up Hu). cbn. tauto.
    - intros a b IHa IHb np [F1 F2] up Hu. cbn [x_pat t_pat]. rewrite (p_one up "group" SGroup) by (cbn; tauto). rewrite (H_two a b np (IHa np) (IHb np) F1 F2 up Hu). reflexivity.
    - intros a b IHa IHb np [F1 F2] up Hu. cbn [x_pat t_pat]. rewrite p_inter, (H_two a b np (IHa np) (IHb np) F1 F2 up Hu). reflexivity.
    - intros a b IHa IHb np [F1 F2] up Hu. cbn [x_pat t_pat]. rewrite p_choice, (H_two a b np (IHa np) (IHb np) F1 F2 up Hu). reflexivity.
    - intros p IH np F up Hu. refine (H_one "optional"%string SOptional p _ np (IH np) F up Hu). cbn. tauto.
    - intros p IH np F up Hu. refine (H_one "zeroOrMore"%string SZeroOrMore p _ np (IH np) F up Hu). cbn. tauto.
    - intros p IH np F up Hu. refine (H_one "oneOrMore"%string SOneOrMore p _ np (IH np) F up Hu). cbn. tauto.
    - intros n v np F up Hu. cbn [x_pat t_pat]. destruct (chars_kids (lit_value v)) as [K1 K2]. destruct n as [n|].
      + destruct F as (F1 & F2 & F3). unfold type_atts, t_type. destruct (type_of e n) as [u l]. cbn [fst snd] in *. rewrite p_value, (lib_fit u F3). unfold value_el. rewrite K1, K2.
        replace (att "type" _) with (Some l) by reflexivity. rewrite (ncname_name l F2). reflexivity.
      + rewrite p_value0. unfold value_el. rewrite K1, K2. reflexivity.
    - intros n ps ex IH np F up Hu. destruct F as ((F1 & F2 & F3) & F4 & F5 & F6). cbn [x_pat t_pat]. unfold type_atts, t_data. destruct (type_of e n) as [u l]. cbn [fst snd] in *.
      rewrite p_data, (lib_fit u F3). set (up' := atts_of [("type"%string, l); ("datatypeLibrary"%string, u)] :: up).
      assert (Hu' : bases up' = []) by (apply bases_cons; exact Hu).
      assert (E1 : data_type up' l = Some (if str_eqb l (lit "token") then SdToken else SdNs [u] l)).
      { unfold data_type. rewrite (trim_name l F2), (ncname_name l F2). destruct (str_eqb l (lit "token")); reflexivity. }
      assert (E2 : data_children (fun a => pattern (a :: up')) (map x_param (params_of ps) ++ an_except (match ex with Some x => Some (x_pat e x) | None => None end)) =
        Some (map t_param (params_of ps), match ex with Some x => Some (t_pat e x) | None => None end)).
      { destruct ex as [x|].
        - destruct (x_pat_elt e x) as (n2 & a2 & k2 & E). pose proof (IH np F6 ([] :: up') (bases_cons [] up' Hu')) as Hx. rewrite E in *.
          apply (read_data_children (fun a => pattern (a :: up')) (params_of ps) (Some (n2, a2, k2)) (Some (t_pat e x)) F5). split; [exact Hx | discriminate].
        - apply (read_data_children (fun a => pattern (a :: up')) (params_of ps) None None F5). reflexivity. }
      rewrite E1, E2. reflexivity.
    - intros n h p IH np [F1 F2] up Hu. cbn [x_con t_con]. destruct (c_define up n h (x_pat e p) F1 (x_pat_elt e p) (t_pat e p) (IH np F2) Hu) as [K _].
      destruct (x_define_elt n h (x_pat e p)) as (nm & a & ks & E). rewrite E in *. rewrite each_one, K. reflexivity.
    - intros l IH np F up Hu. cbn [x_con t_con]. rewrite each_one, (proj1 (c_div up _)), (H_gram l IH np F up Hu). reflexivity.
    - intros h i ov IH np [F1 F2] up Hu. cbn [x_con t_con]. rewrite each_one, c_include.
      set (up' := atts_of [("href"%string, lit_value h)] :: up). assert (Hu' : bases up' = []) by (apply bases_cons; exact Hu). rewrite (rebase_plain up' _ Hu').
      destruct ov as [l|]; [|reflexivity]. rewrite (each_flat (include_content up') (x_inc e) (t_inc e) l); [reflexivity|].
      apply (all_lift (fit_inc U Ext e dp)); [|exact F2]. eapply Forall_impl; [|exact IH]. cbn beta. intros g Hg Fg. exact (Hg Fg up' Hu').
    - reflexivity.
    - intros n h p IH [F1 F2] up Hu. cbn [x_inc t_inc]. destruct (c_define up n h (x_pat e p) F1 (x_pat_elt e p) (t_pat e p) (IH _ F2) Hu) as [_ K].
      destruct (x_define_elt n h (x_pat e p)) as (nm & a & ks & E). rewrite E in *. rewrite each_one, K. reflexivity.
    - intros l IH F up Hu. cbn [x_inc t_inc]. rewrite each_one, (proj2 (c_div up _)). rewrite (each_flat (include_content ([] :: up)) (x_inc e) (t_inc e) l); [reflexivity|].
      apply (all_lift (fit_inc U Ext e dp)); [|exact F]. eapply Forall_impl; [|exact IH]. cbn beta. intros g Hg Fg. exact (Hg Fg ([] :: up) (bases_cons [] up Hu)).
    - reflexivity. }
  split; [exact P1|].
  assert (P2 : forall i, Ri e dp i).
  { fix IH 1. intros [n h p|l|a]; unfold Ri.
    - intros [F1 F2] up Hu. cbn [x_inc t_inc]. destruct (c_define up n h (x_pat e p) F1 (x_pat_elt e p) (t_pat e p) (P1 p _ F2) Hu) as [_ K].
      destruct (x_define_elt n h (x_pat e p)) as (nm & a & ks & E). rewrite E in *. rewrite each_one, K. reflexivity.
    - intros F up Hu. cbn [x_inc t_inc]. rewrite each_one, (proj2 (c_div up _)). rewrite (each_flat (include_content ([] :: up)) (x_inc e) (t_inc e) l); [reflexivity|].
      apply (all_lift (fit_inc U Ext e dp)); [|exact F]. clear F. induction l as [|i l IHl]; constructor; [|exact IHl]. intros Fi. exact (IH i Fi ([] :: up) (bases_cons [] up Hu)).
    - reflexivity. }
  split; [|exact P2].
  fix IH 1. intros [n h p|l|h i ov|a] np; unfold Rg.
  - intros [F1 F2] up Hu. cbn [x_con t_con]. destruct (c_define up n h (x_pat e p) F1 (x_pat_elt e p) (t_pat e p) (P1 p np F2) Hu) as [K _].
    destruct (x_define_elt n h (x_pat e p)) as (nm & a & ks & E). rewrite E in *. rewrite each_one, K. reflexivity.
  - intros F up Hu. cbn [x_con t_con]. rewrite each_one, (proj1 (c_div up _)). rewrite (each_flat (grammar_content ([] :: up)) (x_con e) (t_con e) l); [reflexivity|].
    apply (all_lift (fit_con U Ext e np dp)); [|exact F]. clear F. induction l as [|i l IHl]; constructor; [|exact IHl]. intros Fi. exact (IH i np Fi ([] :: up) (bases_cons [] up Hu)).
  - intros [F1 F2] up Hu. cbn [x_con t_con]. rewrite each_one, c_include.
    set (up' := atts_of [("href"%string, lit_value h)] :: up). assert (Hu' : bases up' = []) by (apply bases_cons; exact Hu). rewrite (rebase_plain up' _ Hu').
    destruct ov as [l|]; [|reflexivity]. rewrite (each_flat (include_content up') (x_inc e) (t_inc e) l); [reflexivity|].
    apply (all_lift (fit_inc U Ext e dp)); [|exact F2]. apply Forall_forall. intros g _ Fg. exact (P2 g Fg up' Hu').
  - reflexivity.
Qed.
Lemma read_schema s : fit_schema U Ext s -> parse U (to_xml s) = Some (t_schema s).
Proof.
  intros [_ F]. destruct s as [ds [p|l]]; cbn [s_decls s_top] in *; unfold to_xml, t_schema; cbn [s_decls s_top]; set (e := env_of ds) in *.
  - destruct F as [F Hg]. pose proof (proj1 (read e (in_list (e_lib e))) p (in_list (e_ns e)) F [] eq_refl) as H.
    assert (E : forall nm a k, elt nm a k = x_pat e p -> str_eqb (lit nm) (lit "grammar") = false -> parse U (x_pat e p) = match pattern [] (x_pat e p) with Some p0 => Some (Schema [] (TPattern p0)) | None => None end).
    { intros nm a k <- Hn. unfold parse, elt at 1. rewrite Hn. reflexivity. }
    destruct p; try (rewrite (E _ _ _ eq_refl eq_refl), H; reflexivity). exfalso. exact (Hg l eq_refl).
  - assert (H : each (grammar_content [[]]) (flat_map (x_con e) l) = Some (flat_map (t_con e) l)).
    { apply each_flat. apply (all_lift (fit_con U Ext e (in_list (e_ns e)) (in_list (e_lib e)))); [|exact F]. apply Forall_forall. intros g _ Fg.
      exact (proj1 (proj2 (read e (in_list (e_lib e)))) g _ Fg [[]] eq_refl). }
    change (parse U (elt "grammar" [] (flat_map (x_con e) l))) with (match each (grammar_content [[]]) (flat_map (x_con e) l) with Some l => Some (Schema [] (TGrammar l)) | None => None end).
    rewrite H. reflexivity.
Qed.
End Pat.
