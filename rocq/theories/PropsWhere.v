(** * PropsWhere: the property theorems on the positions of schema errors (C84). *)
From Coq Require Import String Lia.
From Verif Require Import Base Datatype Facets Store Compile Syntax SchemaCompile SchemaExamples Diag Located PropsLocated Where WhereSpec WhereProof WhereSim.

(** ** C84: a schema error points at the construct it is about (WhereSpec.v: [says], for each kind of error).
    Missing: a file named by [external] that is a grammar without the keyword ([C84_external_refuted]), and the kinds
    of error whose position is not that of the construct, as [says] admits and the theorems [..._refuted] below show. *)
Theorem C84_error_positions_partial : forall O C fs flen, externals_are_patterns fs -> forall main d e,
  wcompile_grammar O C fs flen d main = ferr e -> says O C fs flen main main e.
Proof. exact (fun O C fs flen Ex main d e => error_says O C fs flen main d e Ex). Qed.
Print Assumptions C84_error_positions_partial.

(** ** C84: apart from its positions, the compiler of Where.v is that of Located.v (C58) *)
Theorem C84_forget_partial : forall O C fs flen, externals_are_patterns fs -> forall main d,
  forget same (wcompile_grammar O C fs flen d main) = lcompile_grammar O C fs flen d main.
Proof. exact (fun O C fs flen Ex main d => erasure O C fs flen main d Ex). Qed.
Print Assumptions C84_forget_partial.

(** ** C84: the diagnostic of a schema error can be made, has a label unless the first file cannot be read, its first
    label is the primary one, and its labels lie in their files.
    Missing: the two errors whose diagnostic panics (C36), and files named by [external] that are grammars. *)
Theorem C84_labels_partial : forall O C fs flen, positions_ok fs flen -> externals_are_patterns fs -> forall main d e,
  wcompile_grammar O C fs flen d main = ferr e ->
  (forall a, core e <> WDatatype (DFacet FConflict) a) -> (forall p, core e <> WDatatypePrefixAlreadyDefined p) ->
  forall syn, (forall n a, syn n = Some a -> inside flen a) ->
  exists l, labels syn e = fok l /\ (forall a b, In (a, b) l -> inside flen a) /\
    match l with
    | [] => exists n, e = WFile n /\ syn n = None
    | (_, b) :: l' => b = true /\ forall a c, In (a, c) l' -> c = false
    end.
Proof.
  exact (fun O C fs flen Pos Ex main d e E Nc Nd syn Sy =>
    match labels_shape syn e (says_shown O C fs flen main main e (error_says O C fs flen main d e Ex E)) Nc Nd with
    | ex_intro _ l (conj L Sh) => ex_intro _ l (conj L (conj (labels_inside O C fs flen main Pos syn main e l Sy (error_says O C fs flen main d e Ex E) L) Sh))
    end).
Qed.
Print Assumptions C84_labels_partial.

(** ** C84: these are the diagnostics of C36: one is made exactly if it is made there *)
Theorem C84_diagnostic : forall syn e, (exists l, labels syn e = fok l) <-> schema_diagnostic (eerr e) = Ok tt.
Proof. exact labels_diagnostic. Qed.
Print Assumptions C84_diagnostic.

Ltac any_wdepth := let d := fresh "d" in let H := fresh in intros d H; destruct d as [|d]; [inversion H|];
  unfold wcompile_grammar; cbn [wnested]; destruct (wnested _ _ _ _ d) as [?rp ?ri]; vm_compute; reflexivity.
Definition df (a b : N) (n : string) (p : lspat) : lgcontent := LDefine (a, b) (lit n) MAssign p.
Definition el (a b : N) (n : string) (p : lspat) : lspat := LElement (a, b) (el_nm n) p.

(** a.rnc: [include "b.rnc" { x = attribute y { element z { empty } } }   start = x]; b.rnc: [x = empty] *)
Definition wh_list : list (path * (lschema * N)) := [
  (P "a.rnc", (LSchema [] (LTGrammar [LInclude (8, 15)%N (lt "b.rnc") None (Some [LIDefine (18, 19)%N (lit "x") MAssign (LAttribute (22, 56)%N (el_nm "y") (el 36 54 "z" LEmpty))]); df 62 67 "start" (LIdent (70, 71)%N (lit "x"))]), 72%N));
  (P "b.rnc", (LSchema [] (LTGrammar [df 0 1 "x" LEmpty]), 9%N))].
Lemma wh_externals : externals_are_patterns (lfiles wh_list).
Proof. apply lfiles_externals. intros x h f' s' [<-|[<-|[]]] I; cbn in I; contradiction. Qed.
Example C84_instance O C : positions_ok (lfiles wh_list) (llen wh_list) /\ externals_are_patterns (lfiles wh_list) /\
  forall d, 5 <= d -> wcompile_grammar O C (lfiles wh_list) (llen wh_list) d (P "a.rnc") =
    ferr (WInclude (P "a.rnc", (8, 15)%N) (WElementAsChildOfAttribute (P "a.rnc", (22, 56)%N) (P "a.rnc", (36, 54)%N))).
Proof. split; [apply lfiles_positions; vm_compute; reflexivity|]. split; [exact wh_externals|]. any_wdepth. Qed.

(** what is written in concrete files *)
Lemma within_inv x z : within x z -> x = z \/ exists y, In y (parts x) /\ within y z.
Proof.
  induction 1 as [x|x y z W [->|(w & I & V)] J]; [now left | right; exists z; split; [exact J | constructor] |].
  right. exists w. split; [exact I|]. econstructor; eauto.
Qed.
Lemma written_list l f x : written (lfiles l) f x -> exists e t, In e l /\ f = fst e /\ In t (tops (ls_top (fst (snd e)))) /\ within t x.
Proof.
  intros (s & t & E & I & W). unfold lfiles in E. destruct (find (fun x => path_eqb (fst x) f) l) as [[g [s0 n]]|] eqn:F; [|discriminate E].
  injection E as ->. apply find_some in F as [F K]. unfold path_eqb in K. cbn in K. destruct (path_eq_dec g f) as [->|]; [|discriminate K].
  exists (f, (s, n)), t. auto.
Qed.
Ltac pick I := cbn in I; repeat (destruct I as [<-|I]); [..|contradiction].
Ltac search W := let I := fresh "I" in apply within_inv in W; destruct W as [W|(?y & I & W)]; [try discriminate W|pick I; search W].

(** ** C84: a reference to a name that is not defined: [start = element r { x }] is reported at the start of the file *)
Definition und_list : list (path * (lschema * N)) := [(P "a.rnc", (LSchema [] (LTGrammar [df 0 5 "start" (el 8 23 "r" (LIdent (20, 21)%N (lit "x")))]), 24%N))].
Theorem C84_undefined_refuted : exists fs flen main n a, positions_ok fs flen /\ externals_are_patterns fs /\
  (forall O C d, 5 <= d -> wcompile_grammar O C fs flen d main = ferr (WUndefinedReference n a)) /\ ~ reference_at fs a n.
Proof.
  exists (lfiles und_list), (llen und_list), (P "a.rnc"), (lit "x"), (P "a.rnc", (0, 0)%N). split; [apply lfiles_positions; vm_compute; reflexivity|].
  split; [apply lfiles_externals; intros x h f' s' [<-|[]] I; cbn in I; contradiction|]. split.
  - intros O C. any_wdepth.
  - intros [W|W]; apply written_list in W as (e & t & I & _ & J & W); pick I; pick J; search W.
Qed.
Print Assumptions C84_undefined_refuted.

(** ** C84: [x = empty   x = text   start = element r { x }]: the position shown as the duplicate is that of the first
    definition, the one shown as "First seen here" that of the second; the same for [x |= ...  x &= ...] *)
Definition dup_list : list (path * (lschema * N)) := [(P "a.rnc", (LSchema [] (LTGrammar [df 0 1 "x" LEmpty; df 12 13 "x" LText]), 40%N))].
Definition mix_list : list (path * (lschema * N)) := [(P "a.rnc", (LSchema [] (LTGrammar [LDefine (0, 1)%N (lit "x") MChoiceC LEmpty; LDefine (13, 14)%N (lit "x") MInterleaveC LText]), 40%N))].
Theorem C84_first_seen_refuted : exists fs gs flen glen main n, positions_ok fs flen /\ externals_are_patterns fs /\ positions_ok gs glen /\ externals_are_patterns gs /\
  (exists a b c d, (b < c)%N /\ forall O C k, 5 <= k ->
     wcompile_grammar O C fs flen k main = ferr (WDuplicateDefinition n (main, (a, b)) (main, (c, d)))) /\
  (exists a b c d, (b < c)%N /\ forall O C k, 5 <= k ->
     wcompile_grammar O C gs glen k main = ferr (WMixesChoiceAndInterleave (main, (a, b)) (main, (c, d)))).
Proof.
  exists (lfiles dup_list), (lfiles mix_list), (llen dup_list), (llen mix_list), (P "a.rnc"), (lit "x"). split; [apply lfiles_positions; vm_compute; reflexivity|].
  split; [apply lfiles_externals; intros x h f' s' [<-|[]] I; cbn in I; contradiction|].
  split; [apply lfiles_positions; vm_compute; reflexivity|].
  split; [apply lfiles_externals; intros x h f' s' [<-|[]] I; cbn in I; contradiction|]. split.
  - exists 0%N, 1%N, 12%N, 13%N. split; [reflexivity|]. intros O C. any_wdepth.
  - exists 0%N, 1%N, 13%N, 14%N. split; [reflexivity|]. intros O C. any_wdepth.
Qed.
Print Assumptions C84_first_seen_refuted.

(** ** C84: a [parent] reference without parent grammar in an included file is shown in the main file, where there is none *)
Definition nop_list : list (path * (lschema * N)) := [
  (P "a.rnc", (LSchema [] (LTGrammar [df 0 5 "start" (el 8 28 "root" LEmpty); LInclude (37, 44)%N (lt "b.rnc") None None]), 44%N));
  (P "b.rnc", (LSchema [] (LTGrammar [df 0 1 "y" (el 4 30 "r" (LParent (16, 17)%N (lit "x")))]), 30%N))].
Theorem C84_no_parent_refuted : exists fs flen main i a, positions_ok fs flen /\ externals_are_patterns fs /\
  (forall O C d, 5 <= d -> wcompile_grammar O C fs flen d main = ferr (WInclude i (WNoParentAvailable a))) /\
  forall sp n, ~ written fs (fst a) (IPat (LParent sp n)).
Proof.
  exists (lfiles nop_list), (llen nop_list), (P "a.rnc"), (P "a.rnc", (37, 44)%N), (P "a.rnc", (16, 17)%N). split; [apply lfiles_positions; vm_compute; reflexivity|].
  split; [apply lfiles_externals; intros x h f' s' [<-|[<-|[]]] I; cbn in I; contradiction|]. split.
  - intros O C. any_wdepth.
  - intros sp n W. apply written_list in W as (e & t & I & F & J & W). pick I; try (vm_compute in F; discriminate F). pick J; search W.
Qed.
Print Assumptions C84_no_parent_refuted.

(** ** C84: a [parent] reference in a file named by [external] that refers back to the definition around it is shown in the
    file of the definition.  a.rnc: [start = x   x = grammar { start = external "c.rnc" }]; c.rnc: [parent x] *)
Definition rec_list : list (path * (lschema * N)) := [
  (P "a.rnc", (LSchema [] (LTGrammar [df 0 5 "start" (LIdent (8, 9)%N (lit "x")); df 12 13 "x" (LGrammar (16, 52)%N [df 26 31 "start" (LExternal (43, 50)%N (lt "c.rnc") None)])]), 53%N));
  (P "c.rnc", (LSchema [] (LTPattern (LParent (7, 8)%N (lit "x"))), 8%N))].
Theorem C84_recursive_parent_refuted : exists fs flen main i n a b, positions_ok fs flen /\ externals_are_patterns fs /\
  (forall O C d, 5 <= d -> wcompile_grammar O C fs flen d main = ferr (WInclude i (WRecursiveReference n a b))) /\
  ~ reference_at fs a n.
Proof.
  exists (lfiles rec_list), (llen rec_list), (P "a.rnc"), (P "a.rnc", (43, 50)%N), (lit "x"), (P "a.rnc", (7, 8)%N), (P "a.rnc", (12, 13)%N).
  split; [apply lfiles_positions; vm_compute; reflexivity|].
  split.
  { apply lfiles_externals. intros x h f' s' [<-|[<-|[]]] I R E'; cbn in I; try contradiction. destruct I as [<-|[]].
    vm_compute in R. injection R as <-. vm_compute in E'. injection E' as <-. eexists. reflexivity. }
  split.
  - intros O C. any_wdepth.
  - intros [W|W]; apply written_list in W as (e & t & I & F & J & W); pick I; try (vm_compute in F; discriminate F); pick J; search W.
Qed.
Print Assumptions C84_recursive_parent_refuted.

(** ** C84: a.rnc [include "b.rnc" { x = element y { external "b.rnc" } }], b.rnc [grammar { start = x   x = empty }]: no file
    reads itself, but the error is that b.rnc refers to itself recursively *)
Definition inc_list : list (path * (lschema * N)) := [
  (P "a.rnc", (LSchema [] (LTGrammar [LInclude (8, 15)%N (lt "b.rnc") None (Some [LIDefine (18, 19)%N (lit "x") MAssign (el 22 54 "y" (LExternal (43, 50)%N (lt "b.rnc") None))])]), 56%N));
  (P "b.rnc", (LSchema [] (LTPattern (LGrammar (0, 30)%N [df 10 15 "start" (LIdent (18, 19)%N (lit "x")); df 21 22 "x" LEmpty])), 31%N))].
Theorem C84_recursive_include_refuted : exists fs flen main i f a, positions_ok fs flen /\ externals_are_patterns fs /\
  (forall O C d, 5 <= d -> wcompile_grammar O C fs flen d main = ferr (WInclude i (WRecursiveInclude f a))) /\
  forall g sp g', names_file fs g sp g' -> ~ reads fs g' g.
Proof.
  exists (lfiles inc_list), (llen inc_list), (P "a.rnc"), (P "a.rnc", (8, 15)%N), (P "b.rnc"), (P "a.rnc", (43, 50)%N).
  split; [apply lfiles_positions; vm_compute; reflexivity|].
  split.
  { apply lfiles_externals. intros x h f' s' [<-|[<-|[]]] I R E'; cbn in I; try contradiction. destruct I as [<-|[]].
    vm_compute in R. injection R as <-. vm_compute in E'. injection E' as <-. eexists. reflexivity. }
  split; [intros O C; any_wdepth|].
  assert (N : forall g sp g', names_file (lfiles inc_list) g sp g' -> g = P "a.rnc" /\ g' = P "b.rnc").
  { intros g sp g' (h & R & [(inh & ov & W)|W]); apply written_list in W as (e & t & I & F & J & W); pick I; cbn in F; subst g; pick J; search W;
      injection W as; subst; (split; [reflexivity|]); vm_compute in R; injection R as <-; reflexivity. }
  assert (Rd : forall g, reads (lfiles inc_list) (P "b.rnc") g -> g = P "b.rnc").
  { induction 1 as [|g sp h R IH Nf]; [reflexivity|]. apply N in Nf as [-> _]. discriminate IH. }
  intros g sp g' Nf R. apply N in Nf as [-> ->]. apply Rd in R. discriminate R.
Qed.
Print Assumptions C84_recursive_include_refuted.

(** ** C84: an error in a grammar named by [external] is shown at its offset in the file that names it.
    a.rnc: [element r { external "b.rnc" }]; b.rnc: [start = element p:x { empty }] *)
Definition exg_list : list (path * (lschema * N)) := [
  (P "a.rnc", (LSchema [] (LTPattern (el 0 30 "r" (LExternal (21, 28)%N (lt "b.rnc") None))), 30%N));
  (P "b.rnc", (LSchema [] (LTGrammar [df 0 5 "start" (LElement (8, 29)%N (LName (NmC (lit "p") (lit "x")) (16, 17)%N) LEmpty)]), 29%N))].
Theorem C84_external_refuted : exists fs flen main p a, positions_ok fs flen /\
  (forall O C d, 5 <= d -> wcompile_grammar O C fs flen d main = ferr (WUndefinedNamespacePrefix p a)) /\
  forall q, ~ prefix_at fs a q.
Proof.
  exists (lfiles exg_list), (llen exg_list), (P "a.rnc"), (lit "p"), (P "a.rnc", (16, 17)%N). split; [apply lfiles_positions; vm_compute; reflexivity|]. split.
  - intros O C. any_wdepth.
  - intros q [(l & W)|[(ex & W)|(sp & h & i & ov & _ & W)]]; apply written_list in W as (e & t & I & F & J & W); pick I; try (vm_compute in F; discriminate F); pick J; search W.
Qed.
Print Assumptions C84_external_refuted.

(** ** C84: the unsupported library of [data], if it is named by a prefix, is shown at the start of the file.
    a.rnc: [datatypes d = "urn:x" start = element r { d:t }] *)
Definition lib_list : list (path * (lschema * N)) := [
  (P "a.rnc", (LSchema [DDatatypes (lit "d") (lt "urn:x")] (LTGrammar [df 22 27 "start" (el 30 47 "r" (LData (LdC (42, 43)%N (lit "d") (44, 45)%N (lit "t")) None None))]), 47%N))].
Theorem C84_library_refuted : exists fs flen main u a, positions_ok fs flen /\ externals_are_patterns fs /\
  (forall O C d, 5 <= d -> wcompile_grammar O C fs flen d main = ferr (WDatatype (DUnsupportedLibrary u) (Some a))) /\
  forall n, datatype_in fs (fst a) n -> ~ names_library n (snd a).
Proof.
  exists (lfiles lib_list), (llen lib_list), (P "a.rnc"), (lit "urn:x"), (P "a.rnc", (0, 0)%N). split; [apply lfiles_positions; vm_compute; reflexivity|].
  split; [apply lfiles_externals; intros x h f' s' [<-|[]] I; cbn in I; contradiction|]. split.
  - intros O C. any_wdepth.
  - intros n [(v & W)|(ps & ex & W)] L; apply written_list in W as (e & t & I & _ & J & W); pick I; pick J; search W.
    injection W as <- <- <-. destruct L as [(p & lsp & l & E)|(u & lsp & l & E)]; discriminate E.
Qed.
Print Assumptions C84_library_refuted.
(** the library of [value] is shown at its prefix: [datatypes d = "urn:x" start = element r { d:t "v" }] *)
Definition val_list : list (path * (lschema * N)) := [
  (P "a.rnc", (LSchema [DDatatypes (lit "d") (lt "urn:x")] (LTGrammar [df 22 27 "start" (el 30 51 "r" (LValue (Some (LdC (42, 43)%N (lit "d") (44, 45)%N (lit "t"))) (lt "v")))]), 51%N))].
Example C84_library_instance O C : positions_ok (lfiles val_list) (llen val_list) /\ externals_are_patterns (lfiles val_list) /\
  forall d, 5 <= d -> wcompile_grammar O C (lfiles val_list) (llen val_list) d (P "a.rnc") =
    ferr (WDatatype (DUnsupportedLibrary (lit "urn:x")) (Some (P "a.rnc", (42, 43)%N))).
Proof.
  split; [apply lfiles_positions; vm_compute; reflexivity|]. split; [apply lfiles_externals; intros x h f' s' [<-|[]] I; cbn in I; contradiction|]. any_wdepth.
Qed.
(** a facet is shown at the parameter that is at fault, here the second:
    [start = element r { xsd:string { minLength = "1" maxLength = "z" } }] *)
Definition par_list : list (path * (lschema * N)) := [
  (P "a.rnc", (LSchema [] (LTGrammar [df 0 5 "start" (el 8 68 "r" (LData (LdC (20, 23)%N (lit "xsd") (24, 30)%N (lit "string"))
     (Some [((33, 48)%N, (None, IKId (lit "minLength"), lt "1")); ((49, 64)%N, (None, IKId (lit "maxLength"), lt "z"))]) None))]), 68%N))].
Example C84_facet_instance O C : positions_ok (lfiles par_list) (llen par_list) /\ externals_are_patterns (lfiles par_list) /\
  forall d, 5 <= d -> wcompile_grammar O C (lfiles par_list) (llen par_list) d (P "a.rnc") =
    ferr (WDatatype (DFacet FInvalidInt) (Some (P "a.rnc", (49, 64)%N))).
Proof.
  split; [apply lfiles_positions; vm_compute; reflexivity|]. split; [apply lfiles_externals; intros x h f' s' [<-|[]] I; cbn in I; contradiction|]. any_wdepth.
Qed.
