(** * RefutedSchema: schema properties the compiler does not have, with witnesses. *)
From Coq Require Import Permutation String.
From Verif Require Import Base Datatype Facets Store Lang Compile Syntax SchemaCompile Spec SourceSpec SourceScope SchemaOrder SchemaSpec SchemaMain SchemaTerm SchemaExamples.

Definition gram (l : list gcontent) : schema := Schema [] (TGrammar l).
Definition pref (p l : string) : snc := CName (NmC (lit p) (lit l)).
Definition qn (u l : string) : qname := QName (match u with EmptyString => None | _ => Some (lit u) end) (lit l).
Definition empty_el (u l : string) : item := Elm (qn u l) [] [].
Definition all_depths O C fs f (r : fres rerror (nat * cst)) : Prop := forall d, 5 <= d -> compile_grammar O C fs d f = r.
Ltac any_depth := let d := fresh "d" in let H := fresh in intros d H; rewrite (compile_mono _ _ _ 5 d _ H); [vm_compute; reflexivity | vm_compute; discriminate].
Lemma src_empty fs O C e G nc nm : in_snc e true nc nm -> SM fs O C true e G [] [Elm nm [] []] (SElement nc SEmpty).
Proof.
  intros H. apply (SM_element fs O C true e G nc SEmpty nm [] [] [] []); [exact H | split; [intros [] | exact I] | apply SW_1; constructor | left; reflexivity | left; reflexivity].
Qed.
Lemma one_start fs O C g e p m : defs_named (lit "start") g = [SDef (lit "start") MAssign e p] -> SM fs O C true e [g] [] m p -> SN fs O C true [g] [] m (lit "start").
Proof.
  intros E H. eapply SN_choice with (d := SDef (lit "start") MAssign e p).
  - rewrite E. intros d' [<-|[]]. discriminate.
  - rewrite E. left; reflexivity.
  - exact H.
Qed.

(** ** C31: [a = b; b = a] compiles (and validation then panics, [C04_refuted]) *)
Definition loop_defs : list gcontent := [def "start" (tag "r" (ref "a")); def "a" (ref "b"); def "b" (ref "a")].
Theorem C31_refuted : exists fs f a b p q, fs f = inl (gram loop_defs) /\ In (GDefine a MAssign p) loop_defs /\ In (GDefine b MAssign q) loop_defs /\
  bare_ref b p /\ bare_ref a q /\ forall O C, exists r, all_depths O C fs f (fok r).
Proof.
  exists (files [(P "a.rnc", gram loop_defs)]), (P "a.rnc"), (lit "a"), (lit "b"), (ref "b"), (ref "a"). split; [reflexivity|].
  split; [right; left; reflexivity|]. split; [right; right; left; reflexivity|]. split; [constructor|]. split; [constructor|]. intros O C. eexists. any_depth.
Qed.
(** a file that is the pattern [start], which therefore means itself, compiles *)
Theorem C31_pattern_refuted : exists fs f, fs f = inl (Schema [] (TPattern (ref "start"))) /\ forall O C, exists r, all_depths O C fs f (fok r).
Proof. exists (files [(P "a.rnc", Schema [] (TPattern (ref "start")))]), (P "a.rnc"). split; [reflexivity|]. intros O C. eexists. any_depth. Qed.

(** ** C30: a name without definition in an unused definition of a nested grammar is not reported *)
Definition unused_defs : list gcontent := [def "start" (tag "r" (SGrammar [def "start" (tag "a" SEmpty); def "x" (tag "b" (ref "nowhere"))]))].
Theorem C30_unused_refuted : exists fs f, fs f = inl (gram unused_defs) /\ forall O C, exists r, all_depths O C fs f (fok r).
Proof. exists (files [(P "a.rnc", gram unused_defs)]), (P "a.rnc"). split; [reflexivity|]. intros O C. eexists. any_depth. Qed.

(** ** C33: a file that includes itself under a longer name is compiled for ever *)
Definition tower (s : schema) : filesys := fun f => if str_eqb (last (p_comps f) []) (lit "a.rnc") then inl s else inr 0.
Definition climb : schema := gram [GInclude (lt "d/../a.rnc") None None].
Definition climb_comps (n : nat) : list str := flat_map (fun _ => [lit "d"; lit ".."]) (seq 0 n) ++ [lit "a.rnc"].
Lemma climb_step n : resolve (Path false (climb_comps n)) (lit "d/../a.rnc") = Some (Path false (climb_comps (S n))).
Proof.
  assert (Hb : forall m x, removelast (flat_map (fun _ => [lit "d"; lit ".."]) (seq x m) ++ [lit "a.rnc"]) = flat_map (fun _ => [lit "d"; lit ".."]) (seq x m)).
  { intros m x. apply removelast_last. }
  assert (Hf : forall m x l, filter (fun c => negb (str_eqb c dot)) (flat_map (fun _ : nat => [lit "d"; lit ".."]) (seq x m) ++ l) = flat_map (fun _ => [lit "d"; lit ".."]) (seq x m) ++ filter (fun c => negb (str_eqb c dot)) l).
  { induction m as [|m IH]; intros x l; [reflexivity|]. cbn [seq flat_map app filter]. change (str_eqb (lit "d") dot) with false. change (str_eqb (lit "..") dot) with false. cbn [negb]. rewrite IH. reflexivity. }
  unfold climb_comps, resolve. cbn [p_comps p_abs]. destruct (flat_map _ (seq 0 n) ++ [lit "a.rnc"]) as [|x0 l0] eqn:E0; [destruct n; discriminate E0|].
  rewrite <- E0, Hb. change (split_path (lit "d/../a.rnc")) with [lit "d"; lit ".."; lit "a.rnc"].
  cbn [lit]. change (lit "d/../a.rnc") with (100%N :: tl (lit "d/../a.rnc")). cbn [N.eqb Pos.eqb].
  f_equal. f_equal. rewrite seq_S, flat_map_app. rewrite <- app_assoc. cbn [flat_map app]. unfold norm.
  destruct n as [|n]; [reflexivity|]. cbn [seq flat_map app]. rewrite andb_false_r. cbn [app]. f_equal.
  cbn [filter]. change (str_eqb (lit "..") dot) with false. cbn [negb]. f_equal. rewrite Hf. reflexivity.
Qed.
Fixpoint climb_ctx (n : nat) (x : nat) : ctx :=
  match n with 0 => XRoot (Path false (climb_comps 0)) 0 initial_ns initial_dts | S n => XInclude (climb_ctx n x) (Path false (climb_comps (S n))) n initial_ns initial_dts end.
Lemma climb_len n : List.length (climb_comps n) = 2 * n + 1.
Proof.
  unfold climb_comps. rewrite app_length. cbn. assert (H : forall x, List.length (flat_map (fun _ : nat => [lit "d"; lit ".."]) (seq x n)) = 2 * n) by (induction n as [|n IH]; intros x; [reflexivity|]; cbn [seq flat_map app List.length]; rewrite IH; lia).
  rewrite H. lia.
Qed.
Lemma climb_check m : forall n x st, n < m -> check_include (climb_ctx n x) (Path false (climb_comps m)) st = fok (tt, st).
Proof.
  induction n as [|n IH]; intros x st Hn; [reflexivity|]. cbn [climb_ctx check_include]. unfold path_eqb. destruct (path_eq_dec _ _) as [E|_]; [|apply IH; lia].
  apply (f_equal (fun p => List.length (p_comps p))) in E. cbn [p_comps] in E. rewrite !climb_len in E. lia.
Qed.
Lemma climb_file n x : file_of (climb_ctx n x) = Some (Path false (climb_comps n)).
Proof. destruct n; reflexivity. Qed.
Lemma climb_loaded n : tower climb (Path false (climb_comps n)) = inl climb.
Proof. unfold tower, climb_comps. cbn [p_comps]. rewrite last_last. reflexivity. Qed.
Lemma climb_loop O C x : forall d n st, List.length (ovrs st) = n -> snd (nested O C (tower climb) d) (climb_ctx n x) [GInclude (lt "d/../a.rnc") None None] st = OutOfFuel.
Proof.
  induction d as [|d IH]; intros n st Hn; [reflexivity|].
  cbn [nested]. destruct (nested O C (tower climb) d) as [rp ri] eqn:E. cbn [snd] in *.
  unfold compile_contents. cbn [citer compile_content]. unfold cbind at 1 2. unfold path_from. rewrite climb_file. change (lit_value (lt "d/../a.rnc")) with (lit "d/../a.rnc"). rewrite climb_step.
  unfold cret at 1. cbn [fbind rbind fok].
  unfold cbind at 1, cmap_err at 1, get_schema. rewrite climb_loaded. cbn [fmap_err fbind rbind fok].
  unfold cbind at 1, new_include, cbind at 1. rewrite climb_check by lia. cbn [fbind rbind fok].
  unfold cbind at 1, new_ovr. cbn [ovrs fbind rbind fok cret cells tables loaded]. unfold cret at 1. cbn [fbind rbind fok].
  unfold cbind at 1, inherit_prefix, cret at 1. cbn [fbind rbind fok]. unfold cbind at 1. unfold cret at 1. cbn [fbind rbind fok].
  unfold cbind at 1, cmap_err at 1, compile_schema_with, cbind at 1. cbn [compile_declarations s_decls climb gram]. unfold cret at 1. cbn [fbind rbind fok s_top climb gram].
  unfold cbind at 1. change (XInclude (climb_ctx n x) (Path false (climb_comps (S n))) (List.length (ovrs st)) initial_ns initial_dts)
    with (XInclude (climb_ctx n x) (Path false (climb_comps (S n))) (List.length (ovrs st)) initial_ns initial_dts).
  rewrite Hn. change (XInclude (climb_ctx n x) (Path false (climb_comps (S n))) n initial_ns initial_dts) with (climb_ctx (S n) x).
  rewrite IH; [reflexivity|]. cbn [ovrs]. rewrite app_length. cbn. lia.
Qed.
Theorem C33_names_refuted : exists fs f s, fs f = inl s /\ (forall g, fs g = inl s \/ fs g = inr 0) /\ ~ file_external s /\ forall O C d, compile_grammar O C fs d f = OutOfFuel.
Proof.
  exists (tower climb), (P "a.rnc"), climb. split; [reflexivity|]. split; [intros g; unfold tower; destruct (str_eqb _ _); auto|]. split.
  { intros H. inversion H as [ds l g Hin Hg|]; subst. destruct Hin as [<-|[]]. inversion Hg. }
  intros O C d. pose proof (climb_loop O C 0 (S d)) as HL. cbn [nested] in HL. unfold compile_grammar. unfold cbind at 1, get_schema. change (tower climb (P "a.rnc")) with (@inl schema nat climb). cbn iota beta. cbn [fbind rbind fok].
  unfold cbind at 1, new_root, cbind at 1, new_table. cbn [fbind rbind fok tables empty_cst List.length]. unfold cret at 1. cbn [fbind rbind fok].
  destruct (nested O C (tower climb) d) as [rp ri] eqn:E. unfold cbind at 1, compile_schema_with, cbind at 1. cbn [compile_declarations s_decls climb gram]. unfold cret at 1. cbn [fbind rbind fok s_top climb gram].
  unfold cbind at 1. change (P "a.rnc") with (Path false (climb_comps 0)). change (XRoot (Path false (climb_comps 0)) 0 initial_ns initial_dts) with (climb_ctx 0 0).
  cbn [snd] in HL. change (gram [GInclude (lt "d/../a.rnc") None None]) with climb. rewrite HL; reflexivity.
Qed.

(** ** C41: the default namespace of a schema is ignored *)
Definition default_decl : list decl := [DDefault None (UUri (lt "u"))].
Definition default_rnc : schema := Schema default_decl (TPattern (tag "r" SEmpty)).
Theorem C41_default_namespace_refuted : exists fs f root, forall O C, schema_valid fs O C f root /\
  exists r st, all_depths O C fs f (fok (r, st)) /\ ~ rng_valid O (cell_defs st) (start_of r st) root.
Proof.
  exists (files [(P "a.rnc", default_rnc)]), (P "a.rnc"), (empty_el "u" "r"). intros O C. split.
  - eexists. split; [apply Fg_pattern; reflexivity|]. eapply one_start; [reflexivity|]. apply src_empty. split; [|reflexivity]. apply (Dn_declared _ None (lt "u")). left; reflexivity.
  - eexists _, _. split; [any_depth|]. cbn. intros H. inversion H; subst.
    match goal with H : in_class _ ?x, E : _ ++ Elm ?x _ _ :: _ = _ |- _ => rename H into HC, E into EQ end.
    destruct ws1 as [|y ws1]; [|destruct ws1; discriminate EQ]. apply (f_equal (fun l => match l with Elm n _ _ :: _ => uri n | _ => [] end)) in EQ. destruct HC as [HC _]. cbn in EQ, HC. rewrite EQ in HC. discriminate HC.
Qed.
(** ** C41: [namespace p = inherit] panics *)
Theorem C41_inherit_decl_refuted : forall O C, all_depths O C (files [(P "a.rnc", Schema [DNamespace (lit "p") UInherit] (TPattern (tag "r" SEmpty)))]) (P "a.rnc") (Panic PUnreachable).
Proof. intros O C. any_depth. Qed.

(** ** C42: a file named by [external] does not see its own declarations ... *)
Definition ext_files (p : schema) : filesys := files [(P "a.rnc", Schema [] (TPattern (tag "r" (SExternal (lt "b.rnc") None)))); (P "b.rnc", p)].
Theorem C42_external_refuted : forall O C, all_depths O C (ext_files (Schema u_decl (TPattern (SElement (pref "u" "a") SEmpty)))) (P "a.rnc") (ferr (EInclude (EUndefinedNamespacePrefix (lit "u")))).
Proof. intros O C. any_depth. Qed.
(** ... its own relative names, if it is a grammar ... *)
Theorem C42_relative_refuted : exists fs f, (forall O C, all_depths O C fs f (ferr (EInclude (EFile 0)))) /\
  fs f = inl (Schema [] (TPattern (tag "r" (SExternal (lt "d/b.rnc") None)))) /\
  fs (Path false [lit "d"; lit "b.rnc"]) = inl (gram [GInclude (lt "c.rnc") None None; def "start" (tag "a" SEmpty)]) /\
  fs (Path false [lit "d"; lit "c.rnc"]) = inl (gram []).
Proof.
  exists (files [(P "a.rnc", Schema [] (TPattern (tag "r" (SExternal (lt "d/b.rnc") None)))); (Path false [lit "d"; lit "b.rnc"], gram [GInclude (lt "c.rnc") None None; def "start" (tag "a" SEmpty)]); (Path false [lit "d"; lit "c.rnc"], gram [])]), (P "a.rnc").
  split; [intros O C; any_depth|]. repeat split.
Qed.
(** ... and may name itself without end *)
Definition self_rnc : schema := gram [def "start" (tag "a" (SExternal (lt "a.rnc") None))].
Definition self_files : filesys := files [(P "a.rnc", self_rnc)].
Lemma self_loop O C : forall d c st, file_of c = Some (P "a.rnc") -> parent_attribute c = false -> (forall st, check_include c (P "a.rnc") st = fok (tt, st)) ->
  forall t, snd (nested O C self_files d) (XGrammar c t) [def "start" (tag "a" (SExternal (lt "a.rnc") None))] st = OutOfFuel.
Proof.
  induction d as [|d IH]; intros c st Hf Hp Hc t; [reflexivity|]. cbn [nested]. destruct (nested O C self_files d) as [rp ri] eqn:E. cbn [snd] in *.
  unfold compile_contents. cbn [citer compile_content compile_pattern def tag]. unfold cbind at 1 2 3. cbn [compile_nameclass id]. unfold cret at 1. cbn [fbind rbind fok].
  unfold cbind at 1, new_element. cbn [parent_attribute]. unfold cret at 1. cbn [fbind rbind fok].
  unfold cbind at 1. cbn [compile_pattern]. unfold cbind at 1. unfold path_from. cbn [file_of]. rewrite Hf. change (resolve (P "a.rnc") (lit_value (lt "a.rnc"))) with (Some (P "a.rnc")). unfold cret at 1. cbn [fbind rbind fok].
  unfold cbind at 1, cmap_err at 1, get_schema. change (self_files (P "a.rnc")) with (@inl schema nat self_rnc). cbn [fmap_err fbind rbind fok].
  unfold cbind at 1, new_include, cbind at 1. cbn [check_include]. rewrite Hc. cbn [fbind rbind fok].
  unfold cbind at 1, new_ovr. cbn [fbind rbind fok]. unfold cret at 1. cbn [fbind rbind fok s_top self_rnc gram].
  unfold cbind at 1, new_grammar, cbind at 1, new_table. cbn [fbind rbind fok]. unfold cret at 1. cbn [fbind rbind fok].
  unfold cbind at 1. rewrite IH; [reflexivity | exact Hf | reflexivity | exact Hc].
Qed.
Theorem C42_external_loop_refuted : exists fs f, fs f = inl self_rnc /\ forall O C d, compile_grammar O C fs d f = OutOfFuel.
Proof.
  exists self_files, (P "a.rnc"). split; [reflexivity|]. intros O C d.
  unfold compile_grammar. unfold cbind at 1, get_schema. change (self_files (P "a.rnc")) with (@inl schema nat self_rnc). cbn iota beta. cbn [fbind rbind fok].
  unfold cbind at 1, new_root, cbind at 1, new_table. cbn [fbind rbind fok tables empty_cst List.length]. unfold cret at 1. cbn [fbind rbind fok].
  pose proof (self_loop O C d) as HL. destruct (nested O C self_files d) as [rp ri] eqn:E. cbn [snd] in HL. unfold cbind at 1, compile_schema_with, cbind at 1. cbn [compile_declarations s_decls self_rnc gram]. unfold cret at 1. cbn [fbind rbind fok s_top self_rnc gram].
  unfold cbind at 1. 
  unfold compile_contents. cbn [citer compile_content compile_pattern def tag]. unfold cbind at 1 2 3. cbn [compile_nameclass id]. unfold cret at 1. cbn [fbind rbind fok].
  unfold cbind at 1, new_element. cbn [parent_attribute]. unfold cret at 1. cbn [fbind rbind fok].
  unfold cbind at 1. cbn [compile_pattern]. unfold cbind at 1. unfold path_from. cbn [file_of]. change (resolve (P "a.rnc") (lit_value (lt "a.rnc"))) with (Some (P "a.rnc")). unfold cret at 1. cbn [fbind rbind fok].
  unfold cbind at 1, cmap_err at 1, get_schema. change (self_files (P "a.rnc")) with (@inl schema nat self_rnc). cbn [fmap_err fbind rbind fok].
  unfold cbind at 1, new_include, cbind at 1. cbn [check_include]. unfold cret at 1. cbn [fbind rbind fok].
  unfold cbind at 1, new_ovr. cbn [fbind rbind fok]. unfold cret at 1. cbn [fbind rbind fok s_top self_rnc gram].
  unfold cbind at 1, new_grammar, cbind at 1, new_table. cbn [fbind rbind fok]. unfold cret at 1. cbn [fbind rbind fok].
  unfold cbind at 1. rewrite HL; reflexivity.
Qed.

(** ** C43: a nested grammar may not refer to its own start *)
Definition nest_defs : list gcontent := [def "start" (tag "r" (SGrammar [def "start" (tag "a" (SOptional (ref "start")))]))].
Theorem C43_nested_start_refuted : exists fs f root, fs f = inl (gram nest_defs) /\ forall O C, schema_valid fs O C f root /\ all_depths O C fs f (ferr (EUndefinedReference (lit "start"))).
Proof.
  exists (files [(P "a.rnc", gram nest_defs)]), (P "a.rnc"), (Elm (qn "" "r") [] [empty_el "" "a"]). split; [reflexivity|]. intros O C. split; [|any_depth].
  assert (HD : forall p, default_ns (FEnv p [] []) []) by (intros p; apply Dn_inherited; intros ? ? []).
  eexists. split; [eapply Fg_grammar; [reflexivity | repeat constructor]|]. eapply one_start; [reflexivity|].
  match goal with |- SM ?fs ?O ?C _ ?e ?G _ _ _ => apply (SM_element fs O C true e G (id "r") _ (qn "" "r") [] [empty_el "" "a"] [] []) end;
    [split; [apply HD | reflexivity] | split; [cbn; intuition discriminate | exact I] | | left; reflexivity | left; reflexivity].
  apply SW_1. eapply SM_grammar; [repeat constructor|].
  eapply SN_choice; [|left; reflexivity|]; [intros d' [<-|[]]; discriminate|]. cbn [d_env d_body].
  match goal with |- SM ?fs ?O ?C _ ?e ?G _ _ _ => apply (SM_element fs O C true e G (id "a") _ (qn "" "a") [] [] [] []) end;
    [split; [apply HD | reflexivity] | split; [intros [] | exact I] | apply SW_1; constructor | left; reflexivity | left; reflexivity].
Qed.

(** ** C44: in the overriding definitions of an include, the prefixes of the file are unknown ... *)
Definition over_files (ds : list decl) (ov : list icontent) : filesys :=
  files [(P "a.rnc", Schema ds (TGrammar [GInclude (lt "b.rnc") None (Some ov); def "start" (tag "r" (ref "x"))])); (P "b.rnc", gram [def "x" SEmpty])].
Theorem C44_prefix_refuted : forall O C, all_depths O C (over_files u_decl [IDefine (lit "x") MAssign (SElement (pref "u" "a") SEmpty)]) (P "a.rnc") (ferr (EInclude (EUndefinedNamespacePrefix (lit "u")))).
Proof. intros O C. any_depth. Qed.
(** ... two definitions of a name panic ... *)
Theorem C44_two_refuted : forall O C, all_depths O C (over_files [] [IDefine (lit "x") MChoiceC (tag "a" SEmpty); IDefine (lit "x") MChoiceC (tag "b" SEmpty)]) (P "a.rnc") (Panic PUnreachable).
Proof. intros O C. any_depth. Qed.
(** ... and so does a div *)
Theorem C44_div_refuted : forall O C, all_depths O C (over_files [] [IDiv [IDefine (lit "x") MAssign (tag "a" SEmpty)]]) (P "a.rnc") (Panic PUnimplemented).
Proof. intros O C. any_depth. Qed.

(** ** C45: the predefined datatype prefix may not be declared ... *)
Theorem C45_xsd_refuted : forall O C, all_depths O C (files [(P "a.rnc", Schema [DDatatypes (lit "xsd") [xsd_uri]] (TPattern (tag "r" SEmpty)))]) (P "a.rnc") (ferr (EDatatypePrefixAlreadyDefined (lit "xsd"))).
Proof. intros O C. any_depth. Qed.
(** ... and a prefix undeclared in a file is taken from the including file *)
Definition dt_decl : list decl := [DDatatypes (lit "d") [xsd_uri]].
Definition dt_files : filesys := files [(P "a.rnc", Schema dt_decl (TGrammar [GInclude (lt "b.rnc") None None; def "start" (tag "r" (ref "x"))]));
  (P "b.rnc", gram [def "x" (SData (SdC (lit "d") (lit "int")) None None)])].
Theorem C45_undeclared_refuted : exists r st, (forall u, ~ binds_dt [] (lit "d") u) /\ forall O C, all_depths O C dt_files (P "a.rnc") (fok (r, st)).
Proof.
  eexists _, _. split; [|intros O C; any_depth]. intros u H. remember (lit "d") as d eqn:Ed. destruct H as [|p l []]. discriminate Ed.
Qed.

(** ** C46: [inherit = p] declares the prefix p in the included file instead of its default namespace *)
Definition inh_files (p : spat) : filesys := files [
  (P "a.rnc", Schema u_decl (TGrammar [GInclude (lt "b.rnc") (Some (IKId (lit "u"))) None]));
  (P "b.rnc", gram [def "start" p])].
Theorem C46_inherit_refuted : forall O C,
  (exists r st, all_depths O C (inh_files (SElement (pref "u" "a") SEmpty)) (P "a.rnc") (fok (r, st)) /\ forall q, ~ binds_ns [] (lit "u") q) /\
  (exists r st, all_depths O C (inh_files (tag "a" SEmpty)) (P "a.rnc") (fok (r, st)) /\ schema_valid (inh_files (tag "a" SEmpty)) O C (P "a.rnc") (empty_el "u" "a") /\
     ~ rng_valid O (cell_defs st) (start_of r st) (empty_el "u" "a")).
Proof.
  intros O C. split; eexists _, _; (split; [any_depth|]).
  - intros q H. remember (lit "u") as d eqn:Ed. destruct H as [|p l []|p l []]. discriminate Ed.
  - split.
    + eexists. split.
      * eapply Fg_grammar; [reflexivity|]. eapply Ex_include with (inherited := lit "u"); [reflexivity | reflexivity | constructor | apply (Bn_ns _ (lit "u") (lt "u")); left; reflexivity | repeat constructor | intros x [] | constructor].
      * eapply one_start; [reflexivity|]. apply src_empty. split; [|reflexivity]. apply (Dn_inherited (FEnv (P "b.rnc") [] (lit "u"))). intros ? ? [].
    + cbn. intros H. inversion H; subst.
      match goal with H : in_class _ ?x, E : _ ++ Elm ?x _ _ :: _ = _ |- _ => rename H into HC, E into EQ end.
      destruct ws1 as [|y ws1]; [|destruct ws1; discriminate EQ]. apply (f_equal (fun l => match l with Elm n _ _ :: _ => uri n | _ => [] end)) in EQ. destruct HC as [HC _]. cbn in EQ, HC. rewrite EQ in HC. discriminate HC.
Qed.
(** ** C57: all the other prohibited paths compile ... *)
Definition in_r (p : spat) : filesys := files [(P "a.rnc", Schema [] (TPattern (tag "r" p)))].
Definition el : spat := tag "e" SEmpty.
Definition at_ (p : spat) : spat := SAttribute (id "a") p.
Theorem C57_prohibited_refuted : Forall (fun p => prohibited p /\ forall O C, exists r, all_depths O C (in_r p) (P "a.rnc") (fok r))
  [ at_ (at_ SText); SList el; SList (at_ SText); SList (SList SEmpty); SList SText;
    SData SdToken None (Some el); SData SdToken None (Some (at_ SText)); SData SdToken None (Some (SList SEmpty)); SData SdToken None (Some SText); SData SdToken None (Some SEmpty) ].
Proof.
  repeat (apply Forall_cons; [split; [|intros O C; eexists; any_depth]|]); try apply Forall_nil.
  - eapply Ph_attribute_attribute, Pt_here.
  - eapply Ph_list_element, Pt_here.
  - eapply Ph_list_attribute, Pt_here.
  - eapply Ph_list_list, Pt_here.
  - eapply Ph_list_text, Pt_here.
  - eapply Ph_except_element, Pt_here.
  - eapply Ph_except_attribute, Pt_here.
  - eapply Ph_except_list, Pt_here.
  - eapply Ph_except_text, Pt_here.
  - eapply Ph_except_empty, Pt_here.
Qed.
(** ... and so does an element inside an attribute behind a name or in a nested grammar *)
Theorem C57_reference_refuted : forall O C,
  (exists r, all_depths O C (files [(P "a.rnc", gram [def "start" (tag "r" (at_ (ref "x"))); def "x" el])]) (P "a.rnc") (fok r)) /\
  (exists r, all_depths O C (in_r (at_ (SGrammar [def "start" el]))) (P "a.rnc") (fok r)).
Proof. intros O C. split; eexists; any_depth. Qed.
(** ** C59: schemas that mean something and are refused.
    In a file without declarations: an element, and a name with one definition *)
Lemma no_default p : default_ns (FEnv p [] []) [].
Proof. apply Dn_inherited; intros ? ? []. Qed.
Lemma src_tag fs O C f G l p ch : l <> EmptyString -> children_ok ch -> SM fs O C true (FEnv f [] []) G [] ch p -> SM fs O C true (FEnv f [] []) G [] [Elm (qn "" l) [] ch] (tag l p).
Proof.
  intros _ HC H. apply (SM_element fs O C true (FEnv f [] []) G (id l) p (qn "" l) [] ch [] []); [split; [apply no_default | reflexivity] | exact HC | apply SW_1; exact H | left; reflexivity | left; reflexivity].
Qed.
Lemma src_name fs O C g G n f p a m : defs_named n g = [SDef n MAssign (FEnv f [] []) p] -> SM fs O C true (FEnv f [] []) (g :: G) a m p -> SN fs O C true (g :: G) a m n.
Proof.
  intros E H. eapply SN_choice with (d := SDef n MAssign (FEnv f [] []) p); [rewrite E; intros d' [<-|[]]; discriminate | rewrite E; left; reflexivity | exact H].
Qed.
Lemma no_children : children_ok [].
Proof. split; [intros [] | exact I]. Qed.
Lemma one_child u l : children_ok [empty_el u l].
Proof. split; [cbn; intuition discriminate | exact I]. Qed.
(** a definition that is replaced (4.7) refers to a name without definition *)
Definition replaced_files : filesys := files [
  (P "a.rnc", gram [GInclude (lt "b.rnc") None (Some [IDefine (lit "x") MAssign (tag "a" SEmpty)]); def "start" (tag "r" (ref "x"))]);
  (P "b.rnc", gram [def "x" (tag "b" (ref "nowhere"))])].
Lemma include_one f ov l n p ds : resolve f (lit "b.rnc") = Some (P "b.rnc") -> forall fs, fs (P "b.rnc") = inl (gram [def n p]) -> incl (names_of (overrides (FEnv f [] []) ov)) [lit n] -> Expand fs (FEnv f [] []) l ds ->
  Expand fs (FEnv f [] []) (GInclude (lt "b.rnc") None (Some ov) :: l) (overrides (FEnv f [] []) ov ++ filter (not_among (names_of (overrides (FEnv f [] []) ov))) [SDef (lit n) MAssign (FEnv (P "b.rnc") [] []) p] ++ ds).
Proof.
  intros Hr fs Hf Hi He. apply (Ex_include fs (FEnv f [] []) (lt "b.rnc") None (Some ov) l (P "b.rnc") (gram [def n p]) [def n p] [] ds [SDef (lit n) MAssign (FEnv (P "b.rnc") [] []) p]); try assumption.
  - constructor.
  - apply no_default.
  - repeat constructor.
Qed.
Theorem C32_replaced_body_refuted : forall O C, schema_valid replaced_files O C (P "a.rnc") (Elm (qn "" "r") [] [empty_el "" "a"]) /\
  all_depths O C replaced_files (P "a.rnc") (ferr (EUndefinedReference (lit "nowhere"))).
Proof.
  intros O C. split; [|any_depth]. eexists. split.
  { eapply Fg_grammar; [reflexivity|]. eapply include_one; [reflexivity | reflexivity | intros n [<-|[]]; left; reflexivity | repeat constructor]. }
  eapply src_name; [reflexivity|]. apply src_tag; [discriminate | apply one_child|]. apply SM_ident. eapply src_name; [reflexivity|]. apply src_tag; [discriminate | apply no_children | constructor].
Qed.
(** a definition refers to itself through [parent], inside an element *)
Definition parent_defs : list gcontent := [def "start" (ref "n"); def "n" (SGrammar [def "start" (tag "a" (SChoicePair (SParent (lit "n")) SEmpty))])].
Definition parent_files : filesys := files [(P "a.rnc", gram parent_defs)].
Theorem C31_parent_refuted : forall O C, schema_valid parent_files O C (P "a.rnc") (Elm (qn "" "a") [] [empty_el "" "a"]) /\
  all_depths O C parent_files (P "a.rnc") (ferr (ERecursiveReference (lit "n"))).
Proof.
  intros O C. split; [|any_depth]. eexists. split; [eapply Fg_grammar; [reflexivity | repeat constructor]|].
  eapply src_name; [reflexivity|]. apply SM_ident. eapply src_name; [reflexivity|]. eapply SM_grammar; [repeat constructor|]. eapply src_name; [reflexivity|].
  apply src_tag; [discriminate | apply one_child|]. apply SM_choice_l, SM_parent. eapply src_name; [reflexivity|]. eapply SM_grammar; [repeat constructor|]. eapply src_name; [reflexivity|].
  apply src_tag; [discriminate | apply no_children | apply SM_choice_r; constructor].
Qed.
(** a definition that is not used refers to itself (4.19 removes it first) *)
Definition unused_loop : list gcontent := [def "start" (tag "r" SEmpty); def "bar" (ref "bar")].
Theorem C31_unused_refuted : forall O C, schema_valid (files [(P "a.rnc", gram unused_loop)]) O C (P "a.rnc") (empty_el "" "r") /\
  all_depths O C (files [(P "a.rnc", gram unused_loop)]) (P "a.rnc") (ferr (ERecursiveReference (lit "bar"))).
Proof.
  intros O C. split; [|any_depth]. eexists. split; [eapply Fg_grammar; [reflexivity | repeat constructor]|].
  eapply src_name; [reflexivity|]. apply src_tag; [discriminate | apply no_children | constructor].
Qed.
(** an overriding definition reads the overridden file again; no file reads itself *)
Definition again_files : filesys := files [
  (P "a.rnc", gram [GInclude (lt "b.rnc") None (Some [IDefine (lit "x") MAssign (SGrammar [GInclude (lt "b.rnc") None (Some []); def "start" (ref "x")])]); def "start" (tag "r" (ref "x"))]);
  (P "b.rnc", gram [def "x" (tag "b" SEmpty)])].
Theorem C33_override_refuted : forall O C, schema_valid again_files O C (P "a.rnc") (Elm (qn "" "r") [] [empty_el "" "b"]) /\
  (forall f k, ~ Chain again_files (S k) f f) /\
  all_depths O C again_files (P "a.rnc") (ferr (EInclude (ERecursiveInclude (P "b.rnc")))).
Proof.
  intros O C. split; [|split; [|any_depth]].
  - eexists. split.
    { eapply Fg_grammar; [reflexivity|]. eapply include_one; [reflexivity | reflexivity | intros n [<-|[]]; left; reflexivity | repeat constructor]. }
    eapply src_name; [reflexivity|]. apply src_tag; [discriminate | apply one_child|]. apply SM_ident. eapply src_name; [reflexivity|].
    eapply SM_grammar; [eapply (include_one (P "a.rnc") [] _ "x"); [reflexivity | reflexivity | intros n [] | repeat constructor]|].
    eapply src_name; [reflexivity|]. apply SM_ident. eapply src_name; [reflexivity|]. apply src_tag; [discriminate | apply no_children | constructor].
  - assert (HB : forall f, ~ Reads again_files (P "b.rnc") f).
    { intros f (s & h & E & H & R). vm_compute in E. injection E as <-.
      inversion H; subst; clear H. match goal with K : In _ _ |- _ => destruct K as [<-|[]] end. match goal with K : has_include _ _ |- _ => inversion K; subst; clear K end.
      match goal with K : in_pattern _ _ |- _ => inversion K; subst; clear K end. match goal with K : child _ _ |- _ => inversion K; subst; clear K end.
      match goal with K : in_pattern _ _ |- _ => inversion K; subst; clear K end. match goal with K : child _ _ |- _ => inversion K end. }
    assert (HF : forall f f', Reads again_files f f' -> f = P "a.rnc" /\ f' = P "b.rnc").
    { intros f f' HR. pose proof HR as (s & h & E & H & R). apply files_in in E. destruct E as [E|[E|[]]]; [|injection E as <- <-; apply HB in HR; destruct HR].
      injection E as <- <-. split; [reflexivity|]. 
      assert (Hh : h = lt "b.rnc"); [|subst h; vm_compute in R; injection R as <-; reflexivity].
      clear R HR. repeat match goal with
        | K : False |- _ => destruct K
        | K : In _ [] |- _ => destruct K
        | K : In _ (_ :: _) |- _ => destruct K as [K|K]; [first [injection K as <- <- <- | injection K as <- <- | injection K as <- | subst] |]
        | K : child _ _ |- _ => inversion K; subst; clear K
        | K : in_file _ (gram _) |- _ => inversion K; subst; clear K
        | K : has_include _ _ |- _ => inversion K; subst; clear K
        | K : in_pattern _ _ |- _ => inversion K; subst; clear K
        end; reflexivity. }
    intros f k H. inversion H; subst. match goal with K : Reads _ _ _ |- _ => apply HF in K; destruct K as [-> ->] end.
    match goal with K : Chain _ _ (P "b.rnc") (P "a.rnc") |- _ => inversion K; subst end. eapply HB; eassumption.
Qed.
Print Assumptions C32_replaced_body_refuted.
Print Assumptions C31_parent_refuted.
Print Assumptions C33_override_refuted.
Print Assumptions C31_refuted.
Print Assumptions C33_names_refuted.
Print Assumptions C41_default_namespace_refuted.
Print Assumptions C42_external_loop_refuted.
Print Assumptions C43_nested_start_refuted.
Print Assumptions C46_inherit_refuted.
Print Assumptions C57_prohibited_refuted.
Print Assumptions C57_reference_refuted.
