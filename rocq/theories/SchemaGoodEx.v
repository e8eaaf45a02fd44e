(** * SchemaGoodEx: main.rnc of SchemaExamples keeps the rules of SchemaGood.v. *)
From Coq Require Import String.
From Verif Require Import Base Datatype Facets Store Compile Syntax SchemaCompile SourceSpec SourceScope SchemaSpec SchemaDoc SchemaExamples SchemaGood.

Ltac inv H := inversion H; subst; clear H.
Ltac includes := repeat match goal with
  | H : False |- _ => destruct H
  | H : In _ [] |- _ => destruct H
  | H : In _ (_ :: _) |- _ => destruct H as [H|H]; [inv H|]
  | H : child _ _ |- _ => inv H
  | H : in_file _ _ |- _ => inv H
  | H : has_include _ _ |- _ => inv H
  | H : in_pattern _ _ |- _ => inv H
  | H : file_occurs _ _ |- _ => inv H
  | H : occurs _ _ |- _ => inv H
  | H : occurs_in _ _ |- _ => inv H
  end.
Lemma closed_trail fs name L : In name L -> (forall f f', In f L -> Opens fs f f' -> In f' L) -> forall m f, Trail fs m name f -> In f L.
Proof. intros H K m f HT. revert H. induction HT as [|m a b c HO HT IH]; intros H; [exact H | apply IH, (K a); assumption]. Qed.
Lemma main_reads f : Opens ex_files (P "main.rnc") f -> f = P "lib.rnc".
Proof.
  intros (s & r & h & E & H & R). assert (Es : s = main_rnc) by (vm_compute in E; injection E as <-; reflexivity). subst s. unfold main_rnc, rest, card1, leaf, word, book, def, or_def, tag, ref in H. cbn [map ov as_override] in H.
  unfold tag, word in H. destruct r; cbn [mentioned] in H; includes. vm_compute in R. injection R as <-. reflexivity.
Qed.
Lemma lib_reads f : ~ Opens ex_files (P "lib.rnc") f.
Proof.
  intros (s & r & h & E & H & R). assert (Es : s = lib_rnc) by (vm_compute in E; injection E as <-; reflexivity). subst s. unfold lib_rnc, lib_defs, tag, ref in H. cbn [map as_content] in H. destruct r; cbn [mentioned] in H; includes.
Qed.
Lemma main_chain m f : Trail ex_files m (P "main.rnc") f -> m = 0 /\ f = P "main.rnc" \/ m = 1 /\ f = P "lib.rnc".
Proof.
  intros H. inv H; [auto|]. apply main_reads in H0. subst f'. inv H1; [auto|]. apply lib_reads in H. destruct H.
Qed.
Definition main_env : fenv := FEnv (P "main.rnc") u_decl [].
Definition lib_env : fenv := FEnv (P "lib.rnc") u_decl [].
Definition main_defs : list sdef :=
  [SDef (lit "name") MAssign main_env (tag "name" word); SDef (lit "card") MChoiceC lib_env (tag "other" (ref "name"));
   SDef (lit "start") MAssign main_env (ref "book"); SDef (lit "card") MChoiceC main_env card1; SDef (lit "card") MChoiceC main_env leaf;
   SDef (lit "note") MAssign main_env (tag "note" SText); SDef (lit "book") MAssign main_env book].
Lemma main_expands : Expand ex_files main_env (GInclude (lt "lib.rnc") None (Some (map as_override ov)) :: rest) main_defs.
Proof.
  apply (Ex_include ex_files main_env (lt "lib.rnc") None (Some (map as_override ov)) rest (P "lib.rnc") lib_rnc (map as_content lib_defs) []
    (skipn 2 main_defs) [SDef (lit "name") MAssign lib_env (tag "title" SText); SDef (lit "card") MChoiceC lib_env (tag "other" (ref "name"))]).
  - reflexivity.
  - reflexivity.
  - constructor.
  - apply Dn_inherited. intros p u [E|[]]. discriminate E.
  - repeat constructor.
  - intros n [<-|[]]. left. reflexivity.
  - repeat constructor. apply (Ex_div ex_files main_env [def "note" (tag "note" SText)] [def "book" book] [_] [_]); repeat constructor.
Qed.
Lemma ex_lib s : ex_files (P "lib.rnc") = inl s -> s = Schema u_decl (TGrammar [GDefine (lit "name") MAssign (SElement (id "title") SText); GDefine (lit "card") MChoiceC (SElement (id "other") (SIdent (lit "name")))]).
Proof. intros H. vm_compute in H. injection H as <-. reflexivity. Qed.
Lemma res_lib x : resolve (P "main.rnc") (lit_value (lt "lib.rnc")) = Some x -> x = P "lib.rnc".
Proof. intros H. vm_compute in H. injection H as <-. reflexivity. Qed.
Ltac names := repeat match goal with
  | H : False |- _ => destruct H
  | H : In _ [] |- _ => destruct H
  | H : In _ (_ :: _) |- _ => destruct H as [H|H]; [inv H|]
  | H : child _ _ |- _ => inv H
  | H : resolve _ _ = Some _ |- _ => apply res_lib in H; subst
  | H : ex_files _ = inl _ |- _ => apply ex_lib in H; subst
  | H : file_contents _ _ |- _ => inv H
  | H : Names _ _ _ _ _ |- _ => inv H
  | H : NamesC _ _ _ _ _ |- _ => inv H
  end.
Lemma u_decl_fine : decls_fine u_decl.
Proof. split; [intros p [E|[]]; discriminate E | split; [intros p [E|[]]; discriminate E | cbn; constructor; [intros [] | constructor]]]. Qed.
Lemma main_combinable n : combinable (map d_how (defs_named n main_defs)).
Proof.
  destruct (in_dec str_eq_dec n (names_of main_defs)) as [H|H].
  - cbn in H. repeat destruct H as [H|H]; try (destruct H; fail); subst n.
    all: match goal with |- combinable ?x => let y := eval vm_compute in x in change (combinable y) end.
    all: split; [vm_compute; lia | cbn; intuition discriminate].
  - replace (defs_named n main_defs) with (@nil sdef); [split; cbn; [lia | tauto]|]. revert H. generalize main_defs. clear.
    intros l. induction l as [|d l IH]; cbn; intros H; [reflexivity|]. unfold is_named, str_eqb at 1. destruct (str_eq_dec (d_name d) n) as [E|E]; [exfalso; auto|]. apply IH. tauto.
Qed.
Lemma main_names g n : In g (GInclude (lt "lib.rnc") None (Some (map as_override ov)) :: rest) -> NamesC ex_files (P "main.rnc") 0 n g -> In n (names_of main_defs).
Proof. intros H K. unfold rest, card1, leaf, word, book, def, or_def, tag, ref in H. cbn [map ov as_override] in H. unfold tag, word in H. names; cbn; tauto. Qed.
Lemma main_outer g k n : In g (GInclude (lt "lib.rnc") None (Some (map as_override ov)) :: rest) -> ~ NamesC ex_files (P "main.rnc") (S k) n g.
Proof. intros H K. unfold rest, card1, leaf, word, book, def, or_def, tag, ref in H. cbn [map ov as_override] in H. unfold tag, word in H. names. Qed.
Definition inner_gram : list gcontent := [def "start" (tag "x" (SOptional (SParent (lit "note"))))].
Lemma inner_fine : grammar_fine ex_files true Inner main_env inner_gram.
Proof.
  exists [SDef (lit "start") MAssign main_env (tag "x" (SOptional (SParent (lit "note"))))]. split; [repeat constructor|]. split; [|split; [left; reflexivity|]].
  - intros n. unfold defs_named, is_named. cbn [filter d_name]. destruct (str_eqb _ n); (split; cbn; [lia | intuition discriminate]).
  - intros g n H K. unfold inner_gram, def, tag in H. names.
Qed.
Lemma word_fine O C : data_fine O C main_env (SdC (lit "xsd") (lit "NCName")) None.
Proof.
  intros d H. inv H. match goal with K : binds_dt _ _ _ |- _ => inversion K as [E1 E2|q l Hi E1 E2]; subst; [|destruct Hi as [Hi|[]]; discriminate Hi] end. eexists. vm_compute. reflexivity.
Qed.
Lemma k_fine : value_fine main_env None (lt "k").
Proof. intros d H. inv H. eexists. vm_compute. reflexivity. Qed.
Lemma main_fine O C : contents_fine O C ex_files true (P "main.rnc") u_decl false (GInclude (lt "lib.rnc") None (Some (map as_override ov)) :: rest).
Proof.
  assert (Hg := inner_fine). assert (Hw := word_fine O C). assert (Hk := k_fine). unfold main_env in *.
  cbn -[grammar_fine data_fine value_fine]. repeat split; try exact I; try assumption; try discriminate.
  - repeat constructor. intros [].
  - intros r h' f' f'' k H. destruct r; cbn [mentions_in] in H; includes.
  - eexists. apply Bn_ns. left; reflexivity.
Qed.
Lemma main_correct O C : correct O C ex_files (P "main.rnc").
Proof.
  split; [|split; [|split; [|split]]].
  - exists [P "main.rnc"; P "lib.rnc"]. apply closed_trail; [left; reflexivity|]. intros f f' [<-|[<-|[]]] H; [apply main_reads in H; subst; right; left; reflexivity | apply lib_reads in H; destruct H].
  - intros m f k H K. apply main_chain in H. destruct H as [[-> ->]|[-> ->]]; [apply main_chain in K; destruct K as [[E _]|[_ E]]; discriminate E | inv K; apply lib_reads in H0; destruct H0].
  - intros s E. assert (Es : s = main_rnc) by (vm_compute in E; injection E as <-; reflexivity). subst s. split; [exact u_decl_fine | apply main_fine].
  - intros m f s r h f' s' H E Hm Hr Es'. assert (HO : Opens ex_files f f') by (exists s, r, h; auto). apply main_chain in H. destruct H as [[-> ->]|[-> ->]]; [|apply lib_reads in HO; destruct HO].
    apply main_reads in HO. subst f'. assert (Er : r = RInclude).
    { destruct r; [reflexivity|]. assert (Es : s = main_rnc) by (vm_compute in E; injection E as <-; reflexivity). subst s. exfalso. unfold main_rnc, rest, card1, leaf, word, book, def, or_def, tag, ref in Hm. cbn [map ov as_override] in Hm. unfold tag, word in Hm. cbn [mentioned] in Hm. includes. }
    subst r. assert (Es : s' = lib_rnc) by (vm_compute in Es'; injection Es' as <-; reflexivity). subst s'. split; [exact u_decl_fine|]. cbn. repeat split; discriminate.
  - split; [|intros g k n; apply main_outer]. exists main_defs. split; [exact main_expands|]. split; [exact main_combinable|]. split; [cbn; tauto|].
    intros g n Hg Hn. split; [intros _; eapply main_names; eassumption | intros _ K; destruct K; reflexivity].
Qed.

(** ** with externals: x.rnc names an external pattern which uses a name of x.rnc, one inside an attribute, and an external bare grammar *)
Definition x_rnc : schema := Schema u_decl (TGrammar [def "start" (SElement (CName (NmC (lit "u") (lit "a"))) (SListPair (SExternal (lt "p.rnc") None) (SListPair (SAttribute (id "k") (SExternal (lt "t.rnc") None)) (SExternal (lt "g.rnc") None)))); def "item" (tag "item" SText)]).
Definition p_rnc : schema := Schema [] (TPattern (SOneOrMore (tag "b" (ref "item")))).
Definition t_rnc : schema := Schema [] (TPattern SText).
Definition g_rnc : schema := Schema u_decl (TGrammar [def "start" (SElement (CName (NmC (lit "u") (lit "c"))) (SOptional (SParent (lit "item"))))]).
Definition x_files : filesys := files [(P "x.rnc", x_rnc); (P "p.rnc", p_rnc); (P "t.rnc", t_rnc); (P "g.rnc", g_rnc)].
Ltac x_inv E := apply files_in in E; repeat (destruct E as [E|E]; [injection E as <- <- |]); [ | | | | destruct E].
Lemma x_opens f f' : Opens x_files f f' -> f = P "x.rnc" /\ (f' = P "p.rnc" \/ f' = P "t.rnc" \/ f' = P "g.rnc").
Proof.
  intros (s & r & h & E & H & R). x_inv E; unfold x_rnc, p_rnc, t_rnc, g_rnc, def, tag, ref in H; destruct r; cbn [mentioned] in H; includes; (split; [reflexivity|]); vm_compute in R; injection R as <-; auto.
Qed.
Lemma x_role f s r h : x_files f = inl s -> mentioned r h s -> r = RExternal.
Proof. intros E H. destruct r; [|reflexivity]. exfalso. x_inv E; unfold x_rnc, p_rnc, t_rnc, g_rnc, def, tag, ref in H; cbn [mentioned] in H; includes. Qed.
Lemma x_files_ok : files_ok x_files.
Proof.
  apply files_are_ok. change (files _) with x_files.
  repeat (constructor; [split; [exact u_decl_ok || exact no_decls|]; cbn - [x_files]; repeat split|]); [| | |constructor].
  1, 2: intros g s Hr Hs; injection Hr as <-; injection Hs as <-; cbn; intros p l [].
  intros g s Hr Hs. injection Hr as <-. injection Hs as <-. split; [reflexivity | exact (same_dir_flat "x.rnc" "g.rnc")].
Qed.
Definition x_defs : list sdef := [SDef (lit "start") MAssign (FEnv (P "x.rnc") u_decl []) (SElement (CName (NmC (lit "u") (lit "a"))) (SListPair (SExternal (lt "p.rnc") None) (SListPair (SAttribute (id "k") (SExternal (lt "t.rnc") None)) (SExternal (lt "g.rnc") None))));
  SDef (lit "item") MAssign (FEnv (P "x.rnc") u_decl []) (tag "item" SText)].
Definition g_defs : list sdef := [SDef (lit "start") MAssign (FEnv (P "g.rnc") u_decl []) (SElement (CName (NmC (lit "u") (lit "c"))) (SOptional (SParent (lit "item"))))].
Ltac x_names := repeat match goal with
  | H : False |- _ => destruct H
  | H : In _ [] |- _ => destruct H
  | H : In _ (_ :: _) |- _ => destruct H as [H|H]; [inv H|]
  | H : child _ _ |- _ => inv H
  | H : resolve _ _ = Some _ |- _ => vm_compute in H; injection H as <-
  | H : x_files _ = inl _ |- _ => vm_compute in H; first [discriminate H | injection H as <- <-]
  | H : file_contents _ _ |- _ => inv H
  | H : Names _ _ _ _ _ |- _ => inv H
  | H : NamesC _ _ _ _ _ |- _ => inv H
  end.
Lemma one_combinable n a e p : combinable (map d_how (defs_named n [SDef a MAssign e p])).
Proof. unfold defs_named, is_named. cbn [filter d_name]. destruct (str_eqb _ n); (split; cbn; [lia | intuition discriminate]). Qed.
Lemma x_combinable n : combinable (map d_how (defs_named n x_defs)).
Proof.
  unfold x_defs, defs_named, is_named. cbn [filter d_name]. destruct (str_eqb (lit "start") n) eqn:E1, (str_eqb (lit "item") n) eqn:E2; try (split; cbn; [lia | intuition discriminate]).
  apply str_eqb_eq in E1. apply str_eqb_eq in E2. subst n. discriminate E2.
Qed.
Lemma u_known : known u_decl false (lit "u").
Proof. eexists. apply Bn_ns. left; reflexivity. Qed.
Lemma g_fine : grammar_fine x_files true Outside (FEnv (P "g.rnc") u_decl []) [def "start" (SElement (CName (NmC (lit "u") (lit "c"))) (SOptional (SParent (lit "item"))))].
Proof.
  exists g_defs. split; [repeat constructor|]. split; [intros n; apply one_combinable|]. split; [left; reflexivity|]. intros g n H K. unfold def in H. x_names.
Qed.
Lemma x_correct O C : correct O C x_files (P "x.rnc").
Proof.
  split; [|split; [|split; [|split]]].
  - exists [P "x.rnc"; P "p.rnc"; P "t.rnc"; P "g.rnc"]. apply closed_trail; [left; reflexivity|]. intros f f' _ H. apply x_opens in H. destruct H as [_ [-> | [-> | ->]]]; cbn; tauto.
  - intros m f k H K. inv K. apply x_opens in H1. destruct H1 as [-> Hf]. inv H2; [destruct Hf as [E|[E|E]]; discriminate E|]. apply x_opens in H0. destruct H0 as [-> _]. destruct Hf as [E|[E|E]]; discriminate E.
  - intros s E. assert (Es : s = x_rnc) by (vm_compute in E; injection E as <-; reflexivity). subst s. split; [exact u_decl_fine|]. cbn -[grammar_fine]. repeat split; try exact u_known; try discriminate.
    + eexists _, p_rnc. split; [reflexivity|]. split; [reflexivity|]. discriminate.
    + eexists _, t_rnc. split; [reflexivity|]. split; [reflexivity|]. intros _ K. inv K. inv H.
    + eexists _, g_rnc. split; [reflexivity|]. split; [reflexivity|]. split; [reflexivity|]. split; [exact g_fine | discriminate].
  - intros m f s r h f' s' H E Hm Hr Es'. pose proof (x_role _ _ _ _ E Hm) as ->. assert (HO : Opens x_files f f') by (exists s, RExternal, h; auto).
    apply x_opens in HO. destruct HO as [_ Hf]. clear - Hf Es'.
    x_inv Es'; [destruct Hf as [K|[K|K]]; discriminate K | | |]; cbn; repeat split; try exact u_known; try discriminate.
  - split.
    + exists x_defs. split; [repeat constructor|]. split; [exact x_combinable|]. split; [left; reflexivity|]. intros g n Hg Hn. split; [intros _|intros _ K; destruct K; reflexivity]. unfold def, tag in Hg. x_names; cbn; tauto.
    + intros g k n Hg Hn. unfold def, tag in Hg. x_names.
Qed.
