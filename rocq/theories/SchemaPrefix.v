(** * SchemaPrefix: prefixes declared more than once in a file (C90). *)
From Coq Require Import String.
From Verif Require Import Base Datatype Facets Store Lang Compile Syntax SchemaCompile SourceSpec SourceScope SchemaMain SchemaSpec SchemaTerm SchemaDefault Spec SchemaExamples RefutedSchema.

(** ** Specification: the declarations without the second and later ones of a prefix.
    [default namespace p = u] declares the default namespace and p; [seen]: the prefixes declared before *)
Fixpoint firsts (seen : list str) (l : list decl) : list decl :=
  match l with
  | [] => []
  | DNamespace p (UUri u) :: l' => if in_dec str_eq_dec p seen then firsts seen l' else DNamespace p (UUri u) :: firsts (p :: seen) l'
  | DDefault (Some p) (UUri u) :: l' =>
      if in_dec str_eq_dec p seen then DDefault None (UUri u) :: firsts seen l' else DDefault (Some p) (UUri u) :: firsts (p :: seen) l'
  | d :: l' => d :: firsts seen l'
  end.
Definition first_declared (fs : filesys) : filesys :=
  fun f => match fs f with inl s => inl (Schema (firsts [] (s_decls s)) (s_top s)) | inr e => inr e end.

(** ** Proof *)
Definition bound (c : ctx) (p : str) : Prop :=
  match c with XRoot _ _ ns _ | XInclude _ _ _ ns _ => assoc p ns <> None | _ => False end.
Lemma declare_bound c p u : bound c p -> forall st, declare_namespace c p u st = fok (c, st).
Proof. intros H st. destruct c; cbn in H |- *; try contradiction; unfold cret; destruct (assoc p ns); congruence. Qed.
Lemma assoc_add (p q u : str) l : assoc p l <> None -> assoc p (l ++ [(q, u)]) <> None.
Proof. induction l as [|[k v] l IH]; cbn; [congruence|]. destruct (str_eqb k p); auto. Qed.
Lemma assoc_new (p u : str) l : assoc p (l ++ [(p, u)]) <> None.
Proof. induction l as [|[k v] l IH]; cbn; [rewrite str_eqb_refl; discriminate|]. destruct (str_eqb k p); [discriminate | exact IH]. Qed.
Lemma declare_binds c p u st c' st' : declare_namespace c p u st = fok (c', st') -> bound c' p /\ (forall q, bound c q -> bound c' q) /\ st' = st.
Proof.
  destruct c; cbn; try discriminate; intros E; injection E as <- <-; destruct (assoc p ns) eqn:Ep; cbn [bound];
    (split; [try (rewrite Ep; discriminate); apply assoc_new | split; [intros q Hq; try exact Hq; apply assoc_add; exact Hq | reflexivity]]).
Qed.
Lemma datatype_binds c p u st c' st' : declare_datatype c p u st = fok (c', st') -> (forall q, bound c q -> bound c' q).
Proof.
  destruct c; cbn; try discriminate; destruct (assoc p dts); try discriminate; intros E; injection E as <- <-; auto.
Qed.
Lemma firsts_same l : forall seen c st, (forall p, In p seen -> bound c p) -> compile_declarations c l st = compile_declarations c (firsts seen l) st.
Proof.
  assert (HN : forall p u l seen c st, (forall seen c st, (forall p, In p seen -> bound c p) -> compile_declarations c l st = compile_declarations c (firsts seen l) st) ->
    (forall q, In q seen -> bound c q) ->
    fbind (declare_namespace c p u st) (fun '(c', st') => compile_declarations c' l st') =
    fbind (declare_namespace c p u st) (fun '(c', st') => compile_declarations c' (firsts (p :: seen) l) st')).
  { intros p u l0 seen c st IH H. destruct (declare_namespace c p u st) as [[[c' st']|e]|x|] eqn:E; cbn; try reflexivity.
    apply declare_binds in E as (E1 & E2 & _). apply IH. intros q [<-|Hq]; auto. }
  induction l as [|d l IH]; intros seen c st H; [reflexivity|].
  destruct d as [p [|u]|[p|] [|u]|p u]; cbn [firsts]; try (cbn; reflexivity).
  - destruct (in_dec str_eq_dec p seen) as [Hp|Hp].
    + cbn [compile_declarations compile_declaration]. unfold cbind. rewrite (declare_bound _ _ _ (H p Hp)). cbn. apply IH; exact H.
    + cbn [compile_declarations compile_declaration]. unfold cbind. apply HN; assumption.
  - destruct (in_dec str_eq_dec p seen) as [Hp|Hp].
    + cbn [compile_declarations compile_declaration]. unfold cbind. rewrite (declare_bound _ _ _ (H p Hp)). cbn. apply IH; exact H.
    + cbn [compile_declarations compile_declaration]. unfold cbind. apply HN; assumption.
  - cbn [compile_declarations compile_declaration]. unfold cbind, cret. cbn. apply IH; exact H.
  - cbn [compile_declarations compile_declaration]. unfold cbind. destruct (declare_datatype c p (lit_value u) st) as [[[c' st']|e]|x|] eqn:E; cbn; try reflexivity.
    apply IH. intros q Hq. eapply datatype_binds; [exact E | apply H; exact Hq].
Qed.
Lemma first_compile O C fs d name : compile_grammar O C fs d name = compile_grammar O C (first_declared fs) d name.
Proof.
  apply same_compile. intros f. unfold first_declared. destruct (fs f) as [s|e]; [|reflexivity]. split; [reflexivity|].
  intros c st. apply firsts_same. intros p [].
Qed.
Lemma first_meaning O C fs : files_ok (first_declared fs) -> forall d name r st, compile_grammar O C fs d name = fok (r, st) ->
  forall root, rng_valid O (cell_defs st) (start_of r st) root <-> schema_valid (first_declared fs) O C name root.
Proof. intros Hf d name r st H. rewrite first_compile in H. exact (compiled_meaning O C (first_declared fs) Hf d name r st H). Qed.
(** what is left declares no prefix twice *)
Definition declares (d : decl) (p : str) : Prop := exists u, d = DNamespace p (UUri u) \/ d = DDefault (Some p) (UUri u).
Lemma firsts_seen l : forall seen p d, In p seen -> In d (firsts seen l) -> ~ declares d p.
Proof.
  induction l as [|d0 l IH]; intros seen p d Hp H; [destruct H|].
  assert (HX : forall q d1, d1 = d -> ~ In q seen -> (forall p, declares d1 p -> p = q) -> ~ declares d p).
  { intros q d1 -> Hq Hd K. apply Hd in K. subst. contradiction. }
  destruct d0 as [q [|v]|[q|] [|v]|q v]; cbn [firsts] in H;
    try (destruct H as [<-|H]; [intros (u & [E|E]); discriminate E | exact (IH _ _ _ Hp H)]); destruct (in_dec str_eq_dec q seen) as [Hq|Hq].
  - exact (IH _ _ _ Hp H).
  - destruct H as [H|H]; [eapply HX; [exact H | exact Hq | intros p' (u & [E|E]); congruence] | exact (IH _ _ _ (in_cons _ _ _ Hp) H)].
  - destruct H as [<-|H]; [intros (u & [E|E]); discriminate E | exact (IH _ _ _ Hp H)].
  - destruct H as [H|H]; [eapply HX; [exact H | exact Hq | intros p' (u & [E|E]); congruence] | exact (IH _ _ _ (in_cons _ _ _ Hp) H)].
Qed.
Lemma firsts_once l : forall seen l1 d l2 d' l3 p, firsts seen l = l1 ++ d :: l2 ++ d' :: l3 -> declares d p -> ~ declares d' p.
Proof.
  induction l as [|d0 l IH]; intros seen l1 d l2 d' l3 p H Hd; [destruct l1; discriminate H|].
  assert (HX : forall d1 seen', d1 :: firsts seen' l = l1 ++ d :: l2 ++ d' :: l3 -> (declares d1 p -> In p seen') -> ~ declares d' p).
  { intros d1 seen' E K. destruct l1 as [|x l1]; injection E as -> E; [|eapply IH; eassumption].
    eapply firsts_seen; [apply K; exact Hd | rewrite E; apply in_or_app; right; left; reflexivity]. }
  destruct d0 as [q [|v]|[q|] [|v]|q v]; cbn [firsts] in H; try (eapply HX; [exact H | intros (u & [E|E]); discriminate E]);
    destruct (in_dec str_eq_dec q seen) as [Hq|Hq].
  - eapply IH; eassumption.
  - eapply HX; [exact H | intros (u & [E|E]); [injection E as -> _; left; reflexivity | discriminate E]].
  - eapply HX; [exact H | intros (u & [E|E]); discriminate E].
  - eapply HX; [exact H | intros (u & [E|E]); [discriminate E | injection E as -> _; left; reflexivity]].
Qed.

(** ** Examples *)
(** a.rnc: namespace u = "u" namespace u = "v" namespace xml = "w" start = element u:a { empty } *)
Definition dup_files : filesys := files [
  (P "a.rnc", Schema [DNamespace (lit "u") (UUri (lt "u")); DNamespace (lit "u") (UUri (lt "v")); DNamespace (lit "xml") (UUri (lt "w"))]
    (TGrammar [def "start" (SElement (pref "u" "a") SEmpty)]))].
Lemma dup_refuted : exists s, dup_files (P "a.rnc") = inl s /\
  (exists p u u', binds_ns (s_decls s) p u /\ binds_ns (s_decls s) p u' /\ u <> u') /\
  (exists u, binds_ns (s_decls s) (lit "xml") u /\ u <> lit "http://www.w3.org/XML/1998/namespace") /\
  forall O C, exists r st, all_depths O C dup_files (P "a.rnc") (fok (r, st)).
Proof.
  eexists. split; [reflexivity|]. split; [|split].
  - exists (lit "u"), (lit "u"), (lit "v"). split; [apply (Bn_ns _ _ (lt "u")); left; reflexivity|]. split; [apply (Bn_ns _ _ (lt "v")); right; left; reflexivity | discriminate].
  - exists (lit "w"). split; [apply (Bn_ns _ _ (lt "w")); right; right; left; reflexivity | discriminate].
  - intros O C. eexists _, _. any_depth.
Qed.
(** without [xml]: the meaning is that of the first declaration *)
Definition twice_files : filesys := files [
  (P "a.rnc", Schema [DNamespace (lit "u") (UUri (lt "u")); DNamespace (lit "u") (UUri (lt "v"))] (TGrammar [def "start" (SElement (pref "u" "a") SEmpty)]))].
Lemma twice_ok : files_ok (first_declared twice_files).
Proof.
  intros f s H. unfold first_declared in H. destruct (twice_files f) as [s0|] eqn:E; [|discriminate H]. injection H as <-. apply files_in in E. destruct E as [[= <- <-]|[]].
  split; [exact u_decl_ok | cbn; repeat split; exact I].
Qed.
Lemma twice_compile O C : exists r st, compile_grammar O C twice_files 5 (P "a.rnc") = fok (r, st).
Proof. eexists _, _. vm_compute. reflexivity. Qed.
