(** * XmlDoc: schema files in the XML syntax, compiled and used. *)
From Coq Require Import String.
From Verif Require Import Base Datatype DatatypeSpec Facets Syntax Store Deriv Lang Compile SchemaCompile Spec SourceSpec SourceScope SchemaSpec SchemaMain SchemaDoc SchemaExamples.
From Verif Require Import Main Infoset Scope Doc Verdicts Examples.
From Verif Require Import XmlSyntax RngXml XmlScope XmlBase XmlProof XmlCheck.

(** relaxng-model/src/lib.rs:1180-1193 [get_schema] with [Syntax::Xml]: [t] gives the tree roxmltree builds of a file *)
Definition xml_files (U : str -> bool) (t : path -> option xnod) : filesys := fun f =>
  match t f with
  | Some X => match parse U X with Some s => inl s | None => inr 1 end
  | None => inr 0
  end.
Definition grammar_root (X : xnod) : Prop := exists ns a s k, X = XElt ns (lit "grammar") a s k.
(** <externalRef> in file [f]: a file whose root is <grammar> lies in the same directory
    (it is read as if its contents stood in [f]; see RefutedSchema.v) *)
Definition near (t : path -> option xnod) (f : path) (X : xnod) : Prop := forall up a s k h r g Y,
  Within [] X up (XElt (Some rng_uri) (lit "externalRef") a s k) -> Has a "href" h -> Resolved (a :: up) h r ->
  resolve f r = Some g -> t g = Some Y -> grammar_root Y -> same_dir f g.

Lemma each_all {A} (P : A -> Prop) (f : xnod -> option A) ks l : (forall k x, In k ks -> f k = Some x -> P x) -> each f ks = Some l -> Forall P l.
Proof.
  revert l. induction ks as [|k ks IH]; intros l HF E; cbn in E; [injection E as <-; constructor|]. destruct (is_rng_el k).
  - destruct (f k) as [x|] eqn:E1; [|discriminate]. fold (each f ks) in E. destruct (each f ks) as [m|] eqn:E2; [|discriminate]. injection E as <-. constructor; [apply (HF k x (or_introl eq_refl) E1) | apply IH; [intros; eapply HF; eauto; right; assumption | reflexivity]].
  - apply IH; [intros; eapply HF; eauto; right; assumption | exact E].
Qed.
Lemma joined_all {A} (P : A -> Prop) op (o : option (list A)) x : (forall a b, P a -> P b -> P (op a b)) -> (forall l, o = Some l -> Forall P l) -> joined op o = Some x -> P x.
Proof.
  intros Hop HF H. destruct o as [l|]; [|discriminate]. destruct l as [|y l]; [discriminate|]. injection H as <-. specialize (HF _ eq_refl). inversion HF as [|? ? Hy Hl]; subst. clear HF.
  revert y Hy. induction Hl as [|z l Hz Hl IH]; intros y Hy; [exact Hy|]. cbn. apply IH. apply Hop; assumption.
Qed.
Section Forall.
Variables (fs : filesys) (f : path).
Lemma contents_Forall ds l : Forall (content_ok fs f ds) l -> contents_ok fs f ds l.
Proof. induction 1; cbn; auto. Qed.
Lemma grammar_Forall ds l : Forall (content_ok fs f ds) l -> pat_ok fs f ds (SGrammar l).
Proof. induction 1; cbn in *; auto. Qed.
Lemma gdiv_Forall ds l : Forall (content_ok fs f ds) l -> content_ok fs f ds (GDiv l).
Proof. induction 1; cbn in *; auto. Qed.
Lemma idiv_Forall ds l : Forall (override_ok fs f ds) l -> override_ok fs f ds (IDiv l).
Proof. induction 1; cbn in *; auto. Qed.
Lemma include_Forall ds h l : Forall (override_ok fs f ds) l -> content_ok fs f ds (GInclude h None (Some l)).
Proof. intros H. split; [reflexivity|]. induction H; cbn in *; auto. Qed.
End Forall.
Section Proof.
Variable U : str -> bool.
Variable t : path -> option xnod.
Variable fl : path.
Notation fs := (xml_files U t).
Definition clean (up : ups) (n : xnod) : Prop := Ok U up n /\ forall up' a s k h r g Y, Within up n up' (XElt (Some rng_uri) (lit "externalRef") a s k) ->
  Has a "href" h -> Resolved (a :: up') h r -> resolve fl r = Some g -> t g = Some Y -> grammar_root Y -> same_dir fl g.
Lemma clean_kid up nm a sc kids k : clean up (XElt (Some rng_uri) (lit nm) a sc kids) -> In k kids -> clean (a :: up) k.
Proof. intros [HO H] Hk. split; [exact (Ok_kid _ _ _ _ _ _ _ HO Hk)|]. intros up' a' s' k' h r g Y HW. apply (H up' a' s' k' h r g Y). econstructor; eassumption. Qed.
Lemma ext_clean up a sc kids h : clean up (XElt (Some rng_uri) (lit "externalRef") a sc kids) -> att "href" a = Some h -> ext_ok fs fl [] [rebase_path (a :: up) h] None.
Proof.
  intros [HO HC] Ea. pose proof (Ok_local _ _ _ _ _ _ HO) as L. destruct (Ok_up _ _ _ _ _ _ HO) as [HD HB]. pose proof (l_distinct _ _ _ _ _ _ L) as Hd.
  destruct (l_file _ _ _ _ _ _ L ltac:(apply In_dec_names; reflexivity)) as [_ Hh]. apply att_Has in Ea; [|exact Hd]. split; [reflexivity|]. intros g s Hr Hs. assert (E : lit_value [rebase_path (a :: up) h] = rebase_path (a :: up) h) by apply app_nil_r. rewrite E in Hr. unfold xml_files in Hs.
  destruct (t g) as [Y|] eqn:Et; [|discriminate]. destruct (parse U Y) as [s'|] eqn:Ep; [|discriminate]. injection Hs as ->. pose proof Ep as Ep'. unfold parse in Ep. destruct Y as [ns nm a' sc' kids'| | |]; try discriminate.
  destruct (is_rng ns); [|discriminate]. destruct (str_eqb nm (lit "grammar")) eqn:En.
  - destruct (each _ kids') as [l|]; [|discriminate]. injection Ep as <-. cbn. split; [reflexivity|]. apply str_eqb_eq in En. subst nm. eapply (HC up a sc kids h (rebase_path (a :: up) h)); [apply Wi_here | exact Ea | apply rebase_ok; auto | exact Hr | exact Et|]. unfold grammar_root. eauto.
  - destruct (pattern U [] _) as [p|]; [|discriminate]. injection Ep as <-. cbn. intros ? ? [].
Qed.
Definition Sc (N : nat) : Prop :=
  (forall n up p, (xsize n < N)%nat -> clean up n -> pattern U up n = Some p -> pat_ok fs fl [] p) /\
  (forall n up g, (xsize n < N)%nat -> clean up n -> grammar_content U up n = Some g -> content_ok fs fl [] g) /\
  (forall n up i, (xsize n < N)%nat -> clean up n -> include_content U up n = Some i -> override_ok fs fl [] i).
Lemma except_all {A} (P : A -> Prop) op (f : list xatt -> xnod -> option A) ks e : (forall a b, P a -> P b -> P (op a b)) ->
  (forall x a sc k y z, In x ks -> x = XElt (Some rng_uri) (lit "except") a sc k -> In y k -> f a y = Some z -> P z) -> except_child f op ks = Some (Some e) -> P e.
Proof.
  intros Hop HF. induction ks as [|k ks IH]; cbn [except_child]; [discriminate|]. destruct (is_rng_el k) eqn:Er; [|apply IH; intros; eapply HF; eauto; right; assumption].
  destruct k as [ns nm a sc gk| | |]; try discriminate. destruct (str_eqb nm (lit "except")) eqn:En; [|discriminate]. destruct (existsb is_rng_el ks); [discriminate|].
  destruct (joined op (each (f a) gk)) as [x|] eqn:Ej; [|discriminate]. intros [= <-]. apply str_eqb_eq in En. cbn in Er. apply is_rng_true in Er. subst nm ns.
  apply (joined_all P op _ _ Hop) in Ej; [exact Ej|]. intros l El. eapply each_all; [|exact El]. intros y z Hy E. eapply HF; eauto. left; reflexivity.
Qed.
Lemma data_all (P : spat -> Prop) (f : list xatt -> xnod -> option spat) ks ps e : (forall a b, P a -> P b -> P (SChoicePair a b)) ->
  (forall x a sc k y z, In x ks -> x = XElt (Some rng_uri) (lit "except") a sc k -> In y k -> f a y = Some z -> P z) -> data_children f ks = Some (ps, Some e) -> P e.
Proof.
  intros Hop. revert ps. induction ks as [|k ks IH]; intros ps HF; cbn [data_children]; [discriminate|]. destruct (is_rng_el k) eqn:Er; [|apply IH; intros; eapply HF; eauto; right; assumption].
  destruct (named k "param").
  - destruct (param_el k); [|discriminate]. destruct (data_children f ks) as [[ps' e']|] eqn:Ed; [|discriminate]. intros [= <- ->]. eapply IH; [|reflexivity]. intros; eapply HF; eauto; right; assumption.
  - destruct (except_child f SChoicePair (k :: ks)) as [e'|] eqn:Ee; [|discriminate]. intros [= <- ->]. exact (except_all P SChoicePair f _ _ Hop HF Ee).
Qed.
Lemma scope_all : forall N, Sc N.
Proof.
  induction N as [|N (IHp & IHg & IHi)]; [split; [|split]; intros; lia|].
  assert (Pp : forall nm a sc kids up, (xsize (XElt (Some rng_uri) (lit nm) a sc kids) < S N)%nat -> clean up (XElt (Some rng_uri) (lit nm) a sc kids) -> forall l, each (pattern U (a :: up)) kids = Some l -> Forall (pat_ok fs fl []) l).
  { intros nm a sc kids up HN HC l. apply each_all. intros k x Hk E. refine (IHp k _ x _ (clean_kid _ _ _ _ _ _ HC Hk) E). apply (kid_size (Some rng_uri) (lit nm) a sc) in Hk. lia. }
  assert (Jp : forall nm a sc kids up op x, (forall p q, pat_ok fs fl [] p -> pat_ok fs fl [] q -> pat_ok fs fl [] (op p q)) -> (xsize (XElt (Some rng_uri) (lit nm) a sc kids) < S N)%nat -> clean up (XElt (Some rng_uri) (lit nm) a sc kids) ->
             joined op (each (pattern U (a :: up)) kids) = Some x -> pat_ok fs fl [] x).
  { intros nm a sc kids up op x Hop HN HC E. exact (joined_all _ op _ _ Hop (Pp nm a sc kids up HN HC) E). }
  assert (Ds : forall nm a sc kids up n h p, (xsize (XElt (Some rng_uri) (lit nm) a sc kids) < S N)%nat -> clean up (XElt (Some rng_uri) (lit nm) a sc kids) ->
             start_of_el a (each (pattern U (a :: up)) kids) = Some (n, h, p) \/ define_of_el a (each (pattern U (a :: up)) kids) = Some (n, h, p) -> pat_ok fs fl [] p).
  { intros nm a sc kids up n h p HN HC [E|E].
    - unfold start_of_el in E. destruct (combine_of a); [|discriminate]. destruct (each (pattern U (a :: up)) kids) as [[|q [|? ?]]|] eqn:Ee; try discriminate. destruct (no_attrs_except _ _); [|discriminate]. injection E as <- <- <-.
      pose proof (Pp nm a sc kids up HN HC _ Ee) as H. inversion H; assumption.
    - unfold define_of_el in E. destruct (combine_of a); [|discriminate]. destruct (the_name a); [|discriminate]. destruct (joined SListPair _) as [q|] eqn:Ee; [|discriminate]. injection E as <- <- <-.
      eapply Jp; eauto. intros ? ? ? ?; split; assumption. }
  split; [|split].
  - intros n up p HN HC E. destruct n as [ns nm a sc kids| | |]; try discriminate E. cbn [pattern] in E. destruct (is_rng ns) eqn:Er; [|discriminate E]. apply is_rng_true in Er. subst ns. cbn [andb] in E.
    destruct (std_attrs U a); [|discriminate E]. destruct (find_entry nm pattern_kinds) as [kd|] eqn:Ek; [|discriminate E]. apply find_entry_name' in Ek as (nk & Hk & ->).
    assert (J : forall op x, (forall p q, pat_ok fs fl [] p -> pat_ok fs fl [] q -> pat_ok fs fl [] (op p q)) -> joined op (each (pattern U (a :: up)) kids) = Some x -> pat_ok fs fl [] x) by (intros op x Hop Ex; eapply Jp; eauto).
    assert (HL : forall p q, pat_ok fs fl [] p -> pat_ok fs fl [] q -> pat_ok fs fl [] (SListPair p q)) by (intros ? ? ? ?; split; assumption).
    assert (H1 : forall (f : spat -> spat) q, (forall x, pat_ok fs fl [] x -> pat_ok fs fl [] (f x)) -> opt1 f (joined SListPair (each (pattern U (a :: up)) kids)) = Some q -> pat_ok fs fl [] q).
    { intros f q Hf Eq. apply opt1_some in Eq as (x & Ex & ->). apply Hf, (J SListPair x HL Ex). }
    assert (HR : forall c l, first_rest (name_class (a :: up) false) (pattern U (a :: up)) kids = Some (c, l) -> Forall (pat_ok fs fl []) l).
    { intros c l Ef. rewrite first_rest_filter in Ef. destruct (filter is_rng_el kids) as [|k ks] eqn:Efi; [discriminate|]. destruct (name_class (a :: up) false k); [|discriminate].
      destruct (map_opt (pattern U (a :: up)) ks) as [m|] eqn:Em; [|discriminate]. injection Ef as <- <-.
      assert (Hin : forall x, In x ks -> In x kids) by (intros x Hx; assert (HI : In x (filter is_rng_el kids)) by (rewrite Efi; right; exact Hx); apply filter_In in HI; apply HI).
      clear Efi. revert m Em. induction ks as [|y ks IH]; intros m Em; cbn [map_opt] in Em; [injection Em as <-; constructor|].
      destruct (pattern U (a :: up) y) as [z|] eqn:Ey; [|discriminate]. destruct (map_opt (pattern U (a :: up)) ks) as [m'|]; [|discriminate]. injection Em as <-.
      constructor; [|apply IH; [intros x Hx; apply Hin; right; exact Hx | reflexivity]].
      assert (Hy : In y kids) by (apply Hin; left; reflexivity). refine (IHp y _ z _ (clean_kid _ _ _ _ _ _ HC Hy) Ey). apply (kid_size (Some rng_uri) (lit nk) a sc) in Hy. lia. }
    cbn in Hk. repeat (destruct Hk as [Hk|Hk]; [injection Hk as <- <-|]); [..|destruct Hk].
    + destruct (no_attrs_except a _); [|discriminate]. destruct (att "name" a) as [v|].
      * destruct (qname_att _ _ _); [|discriminate]. destruct (joined SListPair _) as [x|] eqn:Ex; [|discriminate]. injection E as <-. exact (J _ _ HL Ex).
      * destruct (first_rest _ _ _) as [[c l]|] eqn:Ef; [|discriminate]. destruct (joined SListPair (Some l)) as [x|] eqn:Ex; [|discriminate]. injection E as <-.
        refine (joined_all _ SListPair _ _ HL _ Ex). intros l' [= <-]. exact (HR _ _ eq_refl).
    + destruct (no_attrs_except a _); [|discriminate]. destruct (att "name" a) as [v|].
      * destruct (attribute_name_ok _ _); [|discriminate]. destruct (qname_att _ _ _); [|discriminate]. destruct (each (pattern U (a :: up)) kids) as [[|x [|? ?]]|] eqn:Ex; try discriminate; injection E as <-; [exact I|].
        pose proof (Pp _ a sc kids up HN HC _ Ex) as H. inversion H; assumption.
      * destruct (first_rest _ _ _) as [[c [|x [|? ?]]]|] eqn:Ef; try discriminate; injection E as <-; [exact I|]. pose proof (HR _ _ eq_refl) as H. inversion H; assumption.
    + exact (H1 SGroup p (fun x Hx => Hx) E).
    + refine (J _ _ _ E). intros ? ? ? ?; split; assumption.
    + refine (J _ _ _ E). intros ? ? ? ?; split; assumption.
    + exact (H1 SOptional p (fun x Hx => Hx) E).
    + exact (H1 SZeroOrMore p (fun x Hx => Hx) E).
    + exact (H1 SOneOrMore p (fun x Hx => Hx) E).
    + exact (H1 SList p (fun x Hx => Hx) E).
    + exact (H1 SMixed p (fun x Hx => Hx) E).
    + destruct (no_rng_children kids); [|discriminate]. apply opt1_some in E as (x & _ & ->). exact I.
    + destruct (no_rng_children kids); [|discriminate]. apply opt1_some in E as (x & _ & ->). exact I.
    + destruct (_ && _); [|discriminate]. injection E as <-. exact I.
    + destruct (_ && _); [|discriminate]. injection E as <-. exact I.
    + unfold value_el in E. destruct (existsb is_elt kids); [discriminate|]. destruct (att "type" a) as [v|]; [destruct (ncname v); [|discriminate]|]; (destruct (match kids with [] => _ | _ => _ end); [|discriminate]); injection E as <-; exact I.
    + destruct (att "type" a) as [v|]; [|discriminate]. destruct (no_attrs_except a _); [|discriminate]. destruct (data_type (a :: up) v) as [ty|] eqn:Et; [|discriminate].
      destruct (data_children _ kids) as [[ps e]|] eqn:Ed; [|discriminate]. injection E as <-. split.
      * unfold data_type in Et. destruct (str_eqb (trim v) (lit "token")); [injection Et as <-; exact I|]. destruct (ncname (trim v)); [injection Et as <-; exact I | discriminate].
      * destruct e as [e|]; [|exact I]. refine (data_all (pat_ok fs fl []) _ kids ps e _ _ Ed); [intros ? ? ? ?; split; assumption|].
        intros x xa xs xk y z Hx -> Hy Ez. pose proof (clean_kid _ _ _ _ _ _ HC Hx) as HC'. refine (IHp y _ z _ (clean_kid _ _ _ _ _ _ HC' Hy) Ez).
        apply (kid_size (Some rng_uri) (lit "data") a sc) in Hx. apply (kid_size (Some rng_uri) (lit "except") xa xs) in Hy. lia.
    + destruct (_ && _); [|discriminate]. injection E as <-. exact I.
    + destruct (att "href" a) as [h|] eqn:Ea; [|discriminate]. injection E as <-. exact (ext_clean up a sc kids h HC Ea).
    + apply opt1_some in E as (l & El & ->). apply grammar_Forall. eapply each_all; [|exact El]. intros k x Hk Ex. refine (IHg k _ x _ (clean_kid _ _ _ _ _ _ HC Hk) Ex). apply (kid_size (Some rng_uri) (lit "grammar") a sc) in Hk. lia.
  - intros n up g HN HC E. destruct n as [ns nm a sc kids| | |]; try discriminate E. cbn [grammar_content] in E. destruct (is_rng ns) eqn:Er; [|discriminate E]. apply is_rng_true in Er. subst ns.
    destruct (find_entry nm content_kinds) as [kd|] eqn:Ek; [|discriminate E]. apply find_entry_name' in Ek as (nk & _ & ->). destruct kd.
    + apply opt1_some in E as ([[m h] q] & Ex & ->). exact (Ds nk a sc kids up m h q HN HC (or_introl Ex)).
    + apply opt1_some in E as ([[m h] q] & Ex & ->). exact (Ds nk a sc kids up m h q HN HC (or_intror Ex)).
    + apply opt1_some in E as (l & El & ->). apply gdiv_Forall. eapply each_all; [|exact El]. intros k x Hk Ex. refine (IHg k _ x _ (clean_kid _ _ _ _ _ _ HC Hk) Ex). apply (kid_size (Some rng_uri) (lit nk) a sc) in Hk. lia.
    + destruct (att "href" a) as [h|]; [|discriminate]. change (match each (include_content U (a :: up)) kids with Some l => Some (GInclude [rebase_path (a :: up) h] None (Some l)) | None => None end = Some g) in E.
      destruct (each (include_content U (a :: up)) kids) as [l|] eqn:El; [|discriminate]. injection E as <-. apply include_Forall. eapply each_all; [|exact El].
      intros k x Hk Ex. refine (IHi k _ x _ (clean_kid _ _ _ _ _ _ HC Hk) Ex). apply (kid_size (Some rng_uri) (lit nk) a sc) in Hk. lia.
  - intros n up g HN HC E. destruct n as [ns nm a sc kids| | |]; try discriminate E. cbn [include_content] in E. destruct (is_rng ns) eqn:Er; [|discriminate E]. apply is_rng_true in Er. subst ns.
    destruct (find_entry nm content_kinds) as [kd|] eqn:Ek; [|discriminate E]. apply find_entry_name' in Ek as (nk & _ & ->). destruct kd; [| | |discriminate E].
    + apply opt1_some in E as ([[m h] q] & Ex & ->). exact (Ds nk a sc kids up m h q HN HC (or_introl Ex)).
    + apply opt1_some in E as ([[m h] q] & Ex & ->). exact (Ds nk a sc kids up m h q HN HC (or_intror Ex)).
    + apply opt1_some in E as (l & El & ->). apply idiv_Forall. eapply each_all; [|exact El]. intros k x Hk Ex. refine (IHi k _ x _ (clean_kid _ _ _ _ _ _ HC Hk) Ex). apply (kid_size (Some rng_uri) (lit nk) a sc) in Hk. lia.
Qed.
Lemma parsed_ok X s : clean [] X -> parse U X = Some s -> schema_ok fs fl s.
Proof.
  intros HC E.
  destruct (scope_all (S (xsize X))) as (HP & HG & _). unfold parse in E. destruct X as [ns nm a sc kids| | |]; try discriminate E. destruct (is_rng ns) eqn:Er; [|discriminate E]. apply is_rng_true in Er. subst ns.
  destruct (str_eqb nm (lit "grammar")) eqn:En.
  - apply str_eqb_eq in En. subst nm. destruct (each _ kids) as [l|] eqn:El; [|discriminate]. injection E as <-. split; [exact no_decls|]. cbn. apply contents_Forall. eapply each_all; [|exact El].
    intros k x Hk Ex. refine (HG k _ x _ (clean_kid _ _ _ _ _ _ HC Hk) Ex). apply (kid_size (Some rng_uri) (lit "grammar") a sc) in Hk. lia.
  - destruct (pattern U [] _) as [p|] eqn:Ep; [|discriminate]. injection E as <-. split; [exact no_decls|]. cbn. exact (HP (XElt (Some rng_uri) nm a sc kids) [] p (Nat.lt_succ_diag_r _) HC Ep).
Qed.
End Proof.
Lemma near_clean U t f X : XScope U X -> near t f X -> clean U t f [] X.
Proof. intros HS HN. split; [split; [exact HS | split; constructor] | exact HN]. Qed.
(** files in scope *)
Definition xml_ok (U : str -> bool) (t : path -> option xnod) : Prop := forall f X, t f = Some X -> XScope U X /\ near t f X.
Lemma xml_are_files U t fs : xml_ok U t -> (forall f, match t f with Some X => exists s, fs f = inl s /\ Stands U X s | None => fs f = inr 0 end) -> forall f, xml_files U t f = fs f.
Proof.
  intros HO H f. specialize (H f). unfold xml_files. destruct (t f) as [X|] eqn:E; [|symmetry; exact H]. destruct H as (s & -> & Hs). apply parse_ok in Hs; [|apply (HO f X E)]. rewrite Hs. reflexivity.
Qed.
Lemma xml_files_ok U t : xml_ok U t -> files_ok (xml_files U t).
Proof.
  intros H f s. unfold xml_files. destruct (t f) as [X|] eqn:E; [|discriminate]. destruct (parse U X) as [s'|] eqn:Ep; [|discriminate]. intros [= <-]. exact (parsed_ok U t f X s' (near_clean U t f X (proj1 (H f X E)) (proj2 (H f X E))) Ep).
Qed.
Lemma xml_meaning U O C t : xml_ok U t -> forall d name r st,
  compile_grammar O C (xml_files U t) d name = fok (r, st) -> rng_schema (cell_defs st) (start_of r st) -> in_limits (cell_defs st) (start_of r st) ->
  forall x root, doc_fits (cell_defs st) (start_of r st) x -> Document x root -> plain_for (cell_defs st) (start_of r st) root ->
  accepts O (cell_defs st) (start_of r st) (doc_tokens x) -> schema_valid (xml_files U t) O C name root.
Proof. intros H. exact (source_accepted_valid O C _ (xml_files_ok U t H)). Qed.
