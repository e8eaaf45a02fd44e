(** * XmlAnnot: annotations of schema documents (RELAX NG, section 3 and 4.1). *)
From Coq Require Import String.
From Verif Require Import Base Datatype DatatypeSpec Facets Syntax XmlSyntax RngXml XmlScope XmlBase XmlProof XmlCheck.

(** ** Two documents which differ in annotations only *)
(** foreign attributes: in a namespace, which is not RELAX NG's; xml:base has a meaning *)
Definition ForeignAtt (a : xatt) : Prop := exists u, xa_ns a = Some u /\ u <> rng_uri /\ ~ (u = xml_ns /\ xa_name a = lit "base").
(** the same attributes, in any order, apart from foreign ones *)
Definition AttsAlike (a b : list xatt) : Prop :=
  NoDup (map (fun x => (xa_ns x, xa_name x)) a) /\ NoDup (map (fun x => (xa_ns x, xa_name x)) b) /\
  forall x, ~ ForeignAtt x -> (In x a <-> In x b).
(** what may stand between the elements of a schema *)
Inductive Extra : xnod -> Prop :=
| Ex_comment s : Extra (XCom s)
| Ex_pi : Extra XPin
| Ex_blank s : blank s -> Extra (XTxt s)
| Ex_foreign ns nm a sc k : ns <> Some rng_uri -> Extra (XElt ns nm a sc k).
Section Alike.
(** how the namespaces in scope compare *)
Variable R : list (option str * str) -> list (option str * str) -> Prop.
Inductive Alike : xnod -> xnod -> Prop :=
| Al_element nm a a' sc sc' k k' : ~ In nm (map lit string_names) -> AttsAlike a a' -> R sc sc' -> AlikeAll k k' ->
    Alike (XElt (Some rng_uri) nm a sc k) (XElt (Some rng_uri) nm a' sc' k')
(** the content of <name>, <value>, <param> is the same *)
| Al_string nm a a' sc sc' k : In nm (map lit string_names) -> AttsAlike a a' -> R sc sc' ->
    Alike (XElt (Some rng_uri) nm a sc k) (XElt (Some rng_uri) nm a' sc' k)
with AlikeAll : list xnod -> list xnod -> Prop :=
| Aa_nil : AlikeAll [] []
| Aa_left k l l' : Extra k -> AlikeAll l l' -> AlikeAll (k :: l) l'
| Aa_right k l l' : Extra k -> AlikeAll l l' -> AlikeAll l (k :: l')
| Aa_both k k' l l' : Alike k k' -> AlikeAll l l' -> AlikeAll (k :: l) (k' :: l').
End Alike.
(** the annotated document may declare more prefixes *)
Definition MorePrefixes (sc sc' : list (option str * str)) : Prop :=
  NoDup (map fst sc) /\ NoDup (map fst sc') /\ forall p u, In (Some p, u) sc -> In (Some p, u) sc'.
Definition SamePrefixes (sc sc' : list (option str * str)) : Prop := MorePrefixes sc sc' /\ MorePrefixes sc' sc.

(** ** Proof *)
Definition ole {A} (a b : option A) : Prop := match a with Some x => b = Some x | None => True end.
Lemma ole_refl {A} (a : option A) : ole a a. Proof. destruct a; reflexivity. Qed.
Ltac by_ole H := match type of H with ole ?a _ => let E := fresh "E" in destruct a eqn:E; cbn [ole] in H; [rewrite H; clear E | exact I] end.

Lemma alike_own a b x : AttsAlike a b -> xa_ns x = None -> (In x a <-> In x b).
Proof. intros (_ & _ & H) Hx. apply H. intros (u & E & _). congruence. Qed.
Lemma alike_att n a b : AttsAlike a b -> att n a = att n b.
Proof.
  intros H. destruct (att n a) as [v|] eqn:E.
  - apply att_Has in E; [|apply H]. symmetry. apply att_Has; [apply H|]. apply (alike_own _ _ _ H); [reflexivity | exact E].
  - destruct (att n b) as [v|] eqn:E'; [|reflexivity]. apply att_Has in E'; [|apply H]. apply (alike_own _ _ _ H) in E'; [|reflexivity]. apply att_Has in E'; [congruence | apply H].
Qed.
Lemma alike_base a b : AttsAlike a b -> xml_base a = xml_base b.
Proof.
  intros H. assert (HB : forall v, HasBase a v <-> HasBase b v).
  { intros v. apply H. intros (u & E1 & _ & E2). apply E2. cbn in *. split; [congruence | reflexivity]. }
  destruct (xml_base a) as [v|] eqn:E.
  - apply xml_base_ok in E; [|apply H]. symmetry. apply xml_base_ok; [apply H|]. apply HB. exact E.
  - destruct (xml_base b) as [v|] eqn:E'; [|reflexivity]. apply xml_base_ok in E'; [|apply H]. apply HB in E'. apply xml_base_ok in E'; [congruence | apply H].
Qed.
Lemma own_not_foreign x : is_rng_att x = true -> ~ ForeignAtt x.
Proof. intros H (u & E & Hu & _). unfold is_rng_att in H. rewrite E in H. apply is_rng_true in H. congruence. Qed.
Lemma alike_no_attrs a b names : AttsAlike a b -> no_attrs_except a names = no_attrs_except b names.
Proof.
  intros H. unfold no_attrs_except. f_equal. apply eq_true_iff_eq. rewrite !existsb_exists. split; intros (x & Hx & E); exists x; (split; [|exact E]); apply andb_true_iff in E as [E _];
  apply own_not_foreign in E; apply H; auto.
Qed.
Lemma alike_std U a b : AttsAlike a b -> std_attrs U a = std_attrs U b.
Proof. intros H. unfold std_attrs. rewrite (alike_att _ _ _ H). reflexivity. Qed.
Lemma alike_inherited n up up' : Forall2 AttsAlike up up' -> inherited n up = inherited n up'.
Proof. induction 1 as [|a b l l' H _ IH]; [reflexivity|]. cbn [inherited]. rewrite (alike_att _ _ _ H), IH. reflexivity. Qed.
Lemma alike_rebase up up' h : Forall2 AttsAlike up up' -> rebase_path up h = rebase_path up' h.
Proof.
  intros H. unfold rebase_path. replace (bases up') with (bases up); [reflexivity|]. unfold bases. induction H as [|a b l l' H _ IH]; [reflexivity|]. cbn [flat_map]. rewrite (alike_base _ _ H), IH. reflexivity.
Qed.
Lemma alike_name a b : AttsAlike a b -> the_name a = the_name b.
Proof. intros H. unfold the_name. rewrite (alike_att _ _ _ H). reflexivity. Qed.
Lemma alike_combine a b : AttsAlike a b -> combine_of a = combine_of b.
Proof. intros H. unfold combine_of. rewrite (alike_att _ _ _ H). reflexivity. Qed.

Section Proof.
Variable U : str -> bool.
Notation Al := (Alike MorePrefixes).
Notation Als := (AlikeAll MorePrefixes).
Lemma extra_rng k : Extra k -> is_rng_el k = false.
Proof. intros []; try reflexivity. cbn. destruct (is_rng ns) eqn:E; [apply is_rng_true in E; contradiction | reflexivity]. Qed.
Lemma alike_rng k k' : Al k k' -> is_rng_el k = true /\ is_rng_el k' = true.
Proof. intros []; split; reflexivity. Qed.
Lemma alike_filter ks ks' : Als ks ks' -> Forall2 Al (filter is_rng_el ks) (filter is_rng_el ks').
Proof.
  induction 1 as [|k l l' H _ IH|k l l' H _ IH|k k' l l' H _ IH]; cbn [filter]; [constructor | rewrite (extra_rng _ H); exact IH | rewrite (extra_rng _ H); exact IH|].
  destruct (alike_rng _ _ H) as [-> ->]. constructor; assumption.
Qed.
Lemma map_ole {A} (f g : xnod -> option A) ks ks' : Forall2 Al ks ks' -> (forall k k', In k ks -> Al k k' -> ole (f k) (g k')) -> ole (map_opt f ks) (map_opt g ks').
Proof.
  induction 1 as [|k k' l l' H _ IH]; intros HF; [reflexivity|]. cbn [map_opt]. pose proof (HF k k' (or_introl eq_refl) H) as H1. specialize (IH (fun a b Ha => HF a b (or_intror Ha))).
  by_ole H1. by_ole IH. reflexivity.
Qed.
Lemma each_ole {A} (f g : xnod -> option A) ks ks' : Als ks ks' -> (forall k k', In k ks -> Al k k' -> ole (f k) (g k')) -> ole (each f ks) (each g ks').
Proof. intros H HF. rewrite !each_filter. apply map_ole; [apply alike_filter; exact H|]. intros k k' Hk. apply HF. apply filter_In in Hk. apply Hk. Qed.
Lemma joined_ole {A} (op : A -> A -> A) l l' : ole l l' -> ole (joined op l) (joined op l').
Proof. destruct l as [l|]; intros H; [cbn [ole] in H; rewrite H; apply ole_refl | exact I]. Qed.
Lemma opt1_ole {A B} (f : A -> B) a b : ole a b -> ole (opt1 f a) (opt1 f b).
Proof. destruct a; intros H; [cbn in H; rewrite H; reflexivity | exact I]. Qed.
Lemma first_rest_ole {A B} (f f' : xnod -> option A) (g g' : xnod -> option B) ks ks' : Als ks ks' ->
  (forall k k', In k ks -> Al k k' -> ole (f k) (f' k')) -> (forall k k', In k ks -> Al k k' -> ole (g k) (g' k')) -> ole (first_rest f g ks) (first_rest f' g' ks').
Proof.
  intros H HF HG. rewrite !first_rest_filter. pose proof (alike_filter _ _ H) as H'. assert (Hi : forall k, In k (filter is_rng_el ks) -> In k ks) by (intros k Hk; apply filter_In in Hk; apply Hk).
  destruct H' as [|k k' l l' H1 H2]; [exact I|]. pose proof (HF k k' (Hi k (or_introl eq_refl)) H1) as H3.
  pose proof (map_ole g g' l l' H2 (fun a b Ha => HG a b (Hi a (or_intror Ha)))) as H4. by_ole H3. by_ole H4. reflexivity.
Qed.
Lemma alike_elt n n' : Al n n' -> exists nm a a' sc sc' k k', n = XElt (Some rng_uri) nm a sc k /\ n' = XElt (Some rng_uri) nm a' sc' k' /\ AttsAlike a a' /\ MorePrefixes sc sc' /\
  (In nm (map lit string_names) /\ k = k' \/ ~ In nm (map lit string_names) /\ Als k k').
Proof. intros [nm a a' sc sc' k k' ? ? ? ?|nm a a' sc sc' k ? ? ?]; [exists nm, a, a', sc, sc', k, k' | exists nm, a, a', sc, sc', k, k]; auto 9. Qed.
Lemma except_ole {A} (f g : list xatt -> xnod -> option A) op ks ks' : Als ks ks' ->
  (forall x a a' sc k, In x ks -> x = XElt (Some rng_uri) (lit "except") a sc k -> AttsAlike a a' -> forall y y', In y k -> Al y y' -> ole (f a y) (g a' y')) -> ole (except_child f op ks) (except_child g op ks').
Proof.
  intros H HF. rewrite !except_child_filter. pose proof (alike_filter _ _ H) as H'. assert (Hi : forall k, In k (filter is_rng_el ks) -> In k ks) by (intros k Hk; apply filter_In in Hk; apply Hk).
  destruct H' as [|x x' l l' H1 H2]; [reflexivity|]. destruct H2 as [|y y' l l' H2 H3]; [|destruct x; exact I].
  apply alike_elt in H1 as (nm & a & a' & sc & sc' & k & k' & -> & -> & HA & _ & HK). cbn [named]. change (is_rng (Some rng_uri)) with true.
  destruct (str_eqb nm (lit "except")) eqn:E; [|exact I]. apply str_eqb_eq in E. subst nm. assert (HK' : Als k k') by (destruct HK as [[HK _]|[_ HK]]; [exfalso; cbn in HK; intuition discriminate | exact HK]).
  pose proof (joined_ole op _ _ (each_ole (f a) (g a') k k' HK' (fun y y' Hy => HF _ a a' sc k (Hi _ (or_introl eq_refl)) eq_refl HA y y' Hy))) as H4. cbn [andb]. by_ole H4. reflexivity.
Qed.
Lemma prefix_ole sc sc' p : MorePrefixes sc sc' -> ole (prefix_uri sc p) (prefix_uri sc' p).
Proof.
  intros (H1 & H2 & H3). unfold prefix_uri. destruct (str_eqb p (lit "xml")); [reflexivity|]. destruct (scope_uri sc p) as [u|] eqn:E; [|exact I]. apply scope_uri_ok in E; [|exact H1]. apply scope_uri_ok; auto.
Qed.
Lemma qname_ole sc sc' up up' v : MorePrefixes sc sc' -> Forall2 AttsAlike up up' -> ole (qname_att sc up v) (qname_att sc' up' v).
Proof.
  intros H HU. unfold qname_att. rewrite (alike_inherited _ _ _ HU). destruct (find_colon v) as [[p l]|]; [|apply ole_refl]. pose proof (prefix_ole _ _ (trim p) H) as H1. by_ole H1. apply ole_refl.
Qed.
Lemma name_class_ole : forall N n n', (xsize n < N)%nat -> Al n n' -> forall up up' w, Forall2 AttsAlike up up' -> ole (name_class up w n) (name_class up' w n').
Proof.
  induction N as [|N IH]; [lia|]. intros n n' HN HA up up' w HU. apply alike_elt in HA as (nm & a & a' & sc & sc' & k & k' & -> & -> & HA & _ & HK). rewrite !name_class_eq.
  change (is_rng (Some rng_uri)) with true. cbn [andb]. assert (HU' : Forall2 AttsAlike (a :: up) (a' :: up')) by (constructor; assumption).
  destruct (str_eqb nm (lit "name")) eqn:E1.
  { apply str_eqb_eq in E1. subst nm. destruct HK as [[_ <-]|[HK _]]; [|exfalso; apply HK; left; reflexivity].
    unfold qname_el. rewrite (alike_inherited _ _ _ HU'). apply ole_refl. }
  assert (HI : forall y y' up1 up1' w, In y k -> Al y y' -> Forall2 AttsAlike up1 up1' -> ole (name_class up1 w y) (name_class up1' w y')).
  { intros y y' up1 up1' w' Hy HA' HU1. apply IH; [apply (kid_size (Some rng_uri) nm a sc) in Hy; lia | exact HA' | exact HU1]. }
  assert (HE : Als k k' -> ole (except_child (fun x => name_class (x :: a :: up) true) CAlt k) (except_child (fun x => name_class (x :: a' :: up') true) CAlt k')).
  { intros HK'. apply except_ole; [exact HK'|]. intros x xa xa' xs xk Hx -> HA' y y' Hy HY.
    apply IH; [|exact HY|constructor; assumption]. apply (kid_size (Some rng_uri) nm a sc) in Hx. apply (kid_size (Some rng_uri) (lit "except") xa xs) in Hy. lia. }
  assert (HK' : ~ In nm (map lit string_names) -> Als k k') by (intros Hn; destruct HK as [[HK _]|[_ HK]]; [contradiction | exact HK]).
  destruct (str_eqb nm (lit "anyName")) eqn:E2.
  { apply str_eqb_eq in E2. subst nm. destruct w; [exact I|]. specialize (HE (HK' ltac:(cbn; intuition discriminate))). by_ole HE. reflexivity. }
  destruct (str_eqb nm (lit "nsName")) eqn:E3.
  { apply str_eqb_eq in E3. subst nm. specialize (HE (HK' ltac:(cbn; intuition discriminate))). by_ole HE. rewrite (alike_inherited _ _ _ HU'). reflexivity. }
  destruct (str_eqb nm (lit "choice")) eqn:E4; [|exact I].
  apply str_eqb_eq in E4. subst nm. apply joined_ole, each_ole; [apply HK'; cbn; intuition discriminate|]. intros y y' Hy HA'. apply HI; assumption.
Qed.
Lemma param_ole n n' : Al n n' -> named n "param" = true -> named n' "param" = true /\ ole (param_el n) (param_el n').
Proof.
  intros H Hn. apply alike_elt in H as (nm & a & a' & sc & sc' & k & k' & -> & -> & HA & _ & HK). split; [exact Hn|]. cbn [named] in Hn. apply andb_true_iff in Hn as [_ Hn]. apply str_eqb_eq in Hn. subst nm.
  destruct HK as [[_ <-]|[HK _]]; [|exfalso; apply HK; right; right; left; reflexivity]. cbn [param_el]. rewrite (alike_att _ _ _ HA). apply ole_refl.
Qed.
Lemma data_ole (f g : list xatt -> xnod -> option spat) ks ks' : Als ks ks' ->
  (forall x a a' sc k, In x ks -> x = XElt (Some rng_uri) (lit "except") a sc k -> AttsAlike a a' -> forall y y', In y k -> Al y y' -> ole (f a y) (g a' y')) ->
  ole (data_children f ks) (data_children g ks').
Proof.
  induction 1 as [|k l l' H HL IH|k l l' H HL IH|k k' l l' H HL IH]; intros HF.
  - reflexivity.
  - cbn [data_children]. rewrite (extra_rng _ H). apply IH. intros. eapply HF; eauto. right; assumption.
  - cbn [data_children]. rewrite (extra_rng _ H). apply IH. intros. eapply HF; eauto.
  - cbn [data_children]. destruct (alike_rng _ _ H) as [-> ->]. destruct (named k "param") eqn:En.
    + destruct (param_ole _ _ H En) as [-> H1]. by_ole H1. assert (IH' := IH (fun x a a' sc kk Hx => HF x a a' sc kk (or_intror Hx))). by_ole IH'. apply ole_refl.
    + assert (En' : named k' "param" = false) by (apply alike_elt in H as (nm & a & a' & sc & sc' & kk & kk' & -> & -> & _); exact En). rewrite En'.
      assert (H1 : ole (except_child f SChoicePair (k :: l)) (except_child g SChoicePair (k' :: l'))) by (apply except_ole; [constructor; assumption | exact HF]).
      by_ole H1. reflexivity.
Qed.
Lemma children_same k k' : Als k k' -> no_rng_children k = no_rng_children k'.
Proof.
  intros H. unfold no_rng_children. f_equal. induction H as [|x l l' H _ IH|x l l' H _ IH|x y l l' H _ IH]; cbn [existsb]; [reflexivity | rewrite (extra_rng _ H); exact IH | rewrite (extra_rng _ H); exact IH|].
  destruct (alike_rng _ _ H) as [-> ->]. reflexivity.
Qed.
Definition Mono (N : nat) : Prop :=
  (forall n n' up up', (xsize n < N)%nat -> Al n n' -> Forall2 AttsAlike up up' -> ole (pattern U up n) (pattern U up' n')) /\
  (forall n n' up up', (xsize n < N)%nat -> Al n n' -> Forall2 AttsAlike up up' -> ole (grammar_content U up n) (grammar_content U up' n')) /\
  (forall n n' up up', (xsize n < N)%nat -> Al n n' -> Forall2 AttsAlike up up' -> ole (include_content U up n) (include_content U up' n')).
Lemma start_ole a a' l l' : AttsAlike a a' -> ole l l' -> ole (start_of_el a l) (start_of_el a' l').
Proof. intros HA HL. unfold start_of_el. rewrite (alike_combine _ _ HA). destruct (combine_of a') as [h|]; [|exact I]. by_ole HL. rewrite (alike_no_attrs _ _ _ HA). apply ole_refl. Qed.
Lemma define_ole a a' l l' : AttsAlike a a' -> ole l l' -> ole (define_of_el a l) (define_of_el a' l').
Proof. intros HA HL. unfold define_of_el. rewrite (alike_combine _ _ HA), (alike_name _ _ HA). destruct (combine_of a'); [|exact I]. destruct (the_name a'); [|exact I]. apply (joined_ole SListPair) in HL. by_ole HL. reflexivity. Qed.
Lemma mono_all : forall N, Mono N.
Proof.
  induction N as [|N (IHp & IHg & IHi)]; [split; [|split]; intros; lia|]. split; [|split]; intros n n' up up' HN HA HU;
    apply alike_elt in HA as (nm & a & a' & sc & sc' & k & k' & -> & -> & HA & HS & HK); (assert (HU' : Forall2 AttsAlike (a :: up) (a' :: up')) by (constructor; assumption));
    (assert (Hs : forall y, In y k -> (xsize y < N)%nat) by (intros y Hy; apply (kid_size (Some rng_uri) nm a sc) in Hy; lia));
    (assert (HK' : ~ In nm (map lit string_names) -> Als k k') by (intros Hn; destruct HK as [[HK _]|[_ HK]]; [contradiction | exact HK]));
    (assert (Ep : Als k k' -> ole (each (pattern U (a :: up)) k) (each (pattern U (a' :: up')) k')) by (intros HK1; apply each_ole; [exact HK1 | intros y y' Hy HY; apply IHp; auto])).
  - assert (Eg : Als k k' -> ole (each (grammar_content U (a :: up)) k) (each (grammar_content U (a' :: up')) k')) by (intros HK1; apply each_ole; [exact HK1 | intros y y' Hy HY; apply IHg; auto]).
    assert (Ef : Als k k' -> ole (first_rest (name_class (a :: up) false) (pattern U (a :: up)) k) (first_rest (name_class (a' :: up') false) (pattern U (a' :: up')) k')).
    { intros HK1. apply first_rest_ole; [exact HK1 | intros y y' Hy HY; eapply name_class_ole; eauto | intros y y' Hy HY; apply IHp; auto]. }
    assert (Ed : Als k k' -> ole (data_children (fun x => pattern U (x :: a :: up)) k) (data_children (fun x => pattern U (x :: a' :: up')) k')).
    { intros HK1. apply data_ole; [exact HK1|]. intros x xa xa' xs xk Hx -> HA' y y' Hy HY. apply IHp; [|exact HY|constructor; assumption].
      specialize (Hs _ Hx). apply (kid_size (Some rng_uri) (lit "except") xa xs) in Hy. lia. }
    cbn [pattern]. change (is_rng (Some rng_uri)) with true. rewrite <- (alike_std U _ _ HA). destruct (std_attrs U a); [|exact I]. cbn [andb].
    destruct (find_entry nm pattern_kinds) as [kd|] eqn:Ek; [|exact I]. apply find_entry_name' in Ek as (nk & Hk & ->). rewrite <- !(alike_no_attrs _ _ _ HA), <- !(alike_att _ _ _ HA), <- (alike_name _ _ HA).
    assert (Hx : ~ In (lit nk) (map lit string_names) \/ kd = KValue /\ nk = "value"%string).
    { cbn in Hk. repeat (destruct Hk as [Hk|Hk]; [injection Hk as <- <-; (right; split; reflexivity) || (left; cbn; intuition discriminate)|]). destruct Hk. }
    destruct Hx as [Hx|[-> ->]].
    2:{ destruct HK as [[_ <-]|[HK _]]; [|exfalso; apply HK; right; left; reflexivity]. unfold value_el. rewrite (alike_inherited _ _ _ HU'), (alike_att _ _ _ HA). apply ole_refl. }
    specialize (HK' Hx). specialize (Ep HK'). specialize (Eg HK'). specialize (Ef HK'). specialize (Ed HK'). pose proof (children_same _ _ HK') as Hc.
    cbn in Hk. repeat (destruct Hk as [Hk|Hk]; [injection Hk as <- <-|]); [..|destruct Hk].
    + destruct (no_attrs_except a _); [|exact I]. destruct (att "name" a) as [v|].
      * pose proof (qname_ole _ _ _ _ v HS HU') as H1. by_ole H1. apply (joined_ole SListPair) in Ep. by_ole Ep. reflexivity.
      * by_ole Ef. apply ole_refl.
    + destruct (no_attrs_except a _); [|exact I]. destruct (att "name" a) as [v|].
      * replace (attribute_name_ok (a' :: up') v) with (attribute_name_ok (a :: up) v) by (unfold attribute_name_ok; rewrite (alike_inherited _ _ _ HU'); reflexivity).
        destruct (attribute_name_ok (a :: up) v); [|exact I]. pose proof (qname_ole _ _ _ _ v HS HU') as H1. by_ole H1. by_ole Ep. apply ole_refl.
      * by_ole Ef. apply ole_refl.
    + apply opt1_ole, joined_ole, Ep.
    + apply joined_ole, Ep.
    + apply joined_ole, Ep.
    + apply opt1_ole, joined_ole, Ep.
    + apply opt1_ole, joined_ole, Ep.
    + apply opt1_ole, joined_ole, Ep.
    + apply opt1_ole, joined_ole, Ep.
    + apply opt1_ole, joined_ole, Ep.
    + rewrite Hc. apply ole_refl.
    + rewrite Hc. apply ole_refl.
    + rewrite Hc. apply ole_refl.
    + rewrite Hc. apply ole_refl.
    + exfalso. apply Hx. right. left. reflexivity.
    + destruct (att "type" a) as [v|]; [|exact I]. destruct (no_attrs_except a _); [|exact I].
      replace (data_type (a' :: up') v) with (data_type (a :: up) v) by (unfold data_type; rewrite (alike_inherited _ _ _ HU'); reflexivity). destruct (data_type (a :: up) v); [|exact I]. by_ole Ed. apply ole_refl.
    + rewrite Hc. apply ole_refl.
    + destruct (att "href" a) as [h|]; [|exact I]. rewrite (alike_rebase _ _ _ HU'). apply ole_refl.
    + apply opt1_ole, Eg.
  - change (ole (grammar_content U up (XElt (Some rng_uri) nm a sc k)) (grammar_content U up' (XElt (Some rng_uri) nm a' sc' k'))). cbn [grammar_content]. change (is_rng (Some rng_uri)) with true. cbn iota.
    destruct (find_entry nm content_kinds) as [kd|] eqn:Ek; [|exact I]. apply find_entry_name' in Ek as (nk & Hk & ->).
    assert (HK1 : Als k k') by (apply HK'; cbn in Hk; repeat (destruct Hk as [Hk|Hk]; [injection Hk as <- <-; cbn; intuition discriminate|]); destruct Hk). specialize (Ep HK1).
    cbn in Hk. repeat (destruct Hk as [Hk|Hk]; [injection Hk as <- <-|]); [..|destruct Hk].
    + apply opt1_ole, start_ole; assumption.
    + apply opt1_ole, define_ole; assumption.
    + apply opt1_ole, each_ole; [exact HK1|]. intros y y' Hy HY. apply IHg; auto.
    + rewrite <- (alike_att _ _ _ HA). destruct (att "href" a) as [h|]; [|exact I].
      assert (Ei : ole (each (include_content U (a :: up)) k) (each (include_content U (a' :: up')) k')) by (apply each_ole; [exact HK1 | intros y y' Hy HY; apply IHi; auto]).
      change (ole (match each (include_content U (a :: up)) k with Some l => Some (GInclude [rebase_path (a :: up) h] None (Some l)) | None => None end)
                  (match each (include_content U (a' :: up')) k' with Some l => Some (GInclude [rebase_path (a' :: up') h] None (Some l)) | None => None end)).
      by_ole Ei. rewrite (alike_rebase _ _ _ HU'). reflexivity.
  - cbn [include_content]. change (is_rng (Some rng_uri)) with true. cbn iota.
    destruct (find_entry nm content_kinds) as [kd|] eqn:Ek; [|exact I]. apply find_entry_name' in Ek as (nk & Hk & ->).
    assert (HK1 : Als k k') by (apply HK'; cbn in Hk; repeat (destruct Hk as [Hk|Hk]; [injection Hk as <- <-; cbn; intuition discriminate|]); destruct Hk). specialize (Ep HK1).
    cbn in Hk. repeat (destruct Hk as [Hk|Hk]; [injection Hk as <- <-|]); [..|destruct Hk].
    + apply opt1_ole, start_ole; assumption.
    + apply opt1_ole, define_ole; assumption.
    + apply opt1_ole, each_ole; [exact HK1|]. intros y y' Hy HY. apply IHi; auto.
    + exact I.
Qed.
Lemma parse_ole X Y : Al X Y -> ole (parse U X) (parse U Y).
Proof.
  intros H. destruct (mono_all (S (xsize X))) as (HP & HG & _). pose proof (HP X Y [] [] ltac:(lia) H (Forall2_nil _)) as H1.
  apply alike_elt in H as (nm & a & a' & sc & sc' & k & k' & -> & -> & HA & HS & HK). unfold parse. change (is_rng (Some rng_uri)) with true. cbn iota.
  destruct (str_eqb nm (lit "grammar")) eqn:E; [|by_ole H1; reflexivity]. apply str_eqb_eq in E. subst nm. destruct HK as [[HK _]|[_ HK]]; [exfalso; cbn in HK; intuition discriminate|].
  assert (Eg : ole (each (grammar_content U [a]) k) (each (grammar_content U [a']) k')).
  { apply each_ole; [exact HK|]. intros y y' Hy HY. apply HG; [apply (kid_size (Some rng_uri) (lit "grammar") a sc) in Hy; lia | exact HY | constructor; [exact HA | constructor]]. }
  by_ole Eg. reflexivity.
Qed.
End Proof.
Lemma annotations_kept U X Y s : Alike MorePrefixes X Y -> parse U X = Some s -> parse U Y = Some s.
Proof. intros H E. pose proof (parse_ole U X Y H) as H1. rewrite E in H1. exact H1. Qed.

Scheme Alike_ind2 := Induction for Alike Sort Prop with AlikeAll_ind2 := Induction for AlikeAll Sort Prop.
Lemma AttsAlike_sym a b : AttsAlike a b -> AttsAlike b a.
Proof. intros (H1 & H2 & H3). split; [exact H2 | split; [exact H1|]]. intros x Hx. symmetry. apply H3, Hx. Qed.
Lemma Alike_map (R R' : list (option str * str) -> list (option str * str) -> Prop) : (forall a b, R a b -> R' a b) -> forall X Y, Alike R X Y -> Alike R' X Y.
Proof. intros HR. apply (Alike_ind2 R (fun X Y _ => Alike R' X Y) (fun l l' _ => AlikeAll R' l l')); intros; [apply Al_element | apply Al_string | apply Aa_nil | apply Aa_left | apply Aa_right | apply Aa_both]; auto. Qed.
Lemma Alike_flip (R : list (option str * str) -> list (option str * str) -> Prop) : forall X Y, Alike R X Y -> Alike (fun a b => R b a) Y X.
Proof. apply (Alike_ind2 R (fun X Y _ => Alike (fun a b => R b a) Y X) (fun l l' _ => AlikeAll (fun a b => R b a) l' l)); intros; [apply Al_element | apply Al_string | apply Aa_nil | apply Aa_right | apply Aa_left | apply Aa_both]; auto using AttsAlike_sym. Qed.
Lemma annotations_same U X Y : Alike SamePrefixes X Y -> parse U X = parse U Y.
Proof.
  intros H. destruct (parse U X) as [s|] eqn:E.
  - symmetry. apply (annotations_kept U X Y s); [|exact E]. apply (Alike_map SamePrefixes); [intros a b [? ?]; assumption | exact H].
  - destruct (parse U Y) as [s|] eqn:E'; [|reflexivity]. assert (parse U X = Some s); [|congruence]. apply (annotations_kept U Y X s); [|exact E'].
    apply (Alike_map (fun a b => SamePrefixes b a)); [intros a b [? ?]; assumption | apply Alike_flip; exact H].
Qed.
