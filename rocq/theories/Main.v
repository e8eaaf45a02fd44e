(** * Main: the validator decides RELAX NG validity (up to weak match 3). *)
From Coq Require Import Permutation.
From Verif Require Import Base Datatype Store Deriv Events Lang LangFacts Wp Doc DocProof Accept Compile Schema CompileProof Final LangA Spec SpecFacts Sound Scope Infoset InfosetProof Split.
From Verif Require Tail.

(** ** Running the tool on a token stream: build the validator, then feed it. *)
Definition check (O : oracles) (defs : list mpat) (start : mpat) (toks : list token) (fuel : nat) : res (validator * option verror) :=
  rbind (new_validator defs fuel (Some start)) (fun v => run O fuel v toks).
(** [settles f r]: with enough recursion budget the computation gives [r]. *)
Definition settles {A} (f : nat -> res A) (r : res A) : Prop := exists n, forall m, n <= m -> f m = r.
Definition accepts O defs start toks : Prop := exists v, settles (check O defs start toks) (Ok (v, None)).
Definition rejects O defs start toks : Prop := exists v e, settles (check O defs start toks) (Ok (v, Some e)).
Definition overflows O defs start toks : Prop := settles (check O defs start toks) (Panic PTooManyPatterns).
Lemma settles_fun {A} (f : nat -> res A) r r' : settles f r -> settles f r' -> r = r'.
Proof. intros [n H] [n' H']. rewrite <- (H (n + n')), <- (H' (n + n')) by lia. reflexivity. Qed.

(** all strings of an item are free of Unicode white space that is not XML white space *)
Fixpoint plain_item (i : item) : Prop :=
  match i with
  | Txt s => plain s
  | Elm _ a k => Forall (fun x => plain (a_value x)) a /\
      (fix go (ks : list item) : Prop := match ks with [] => True | x :: ks' => plain_item x /\ go ks' end) k
  end.
Fixpoint plain_items (ks : list item) : Prop := match ks with [] => True | x :: ks' => plain_item x /\ plain_items ks' end.
Lemma plain_elm n a k : plain_item (Elm n a k) <-> Forall (fun x => plain (a_value x)) a /\ plain_items k.
Proof. reflexivity. Qed.

(** every child list of the tree is as the specification has it *)
Fixpoint tree_ok (i : item) : Prop :=
  match i with
  | Txt s => True
  | Elm _ a k => children_ok k /\ (fix go (ks : list item) : Prop := match ks with [] => True | x :: ks' => tree_ok x /\ go ks' end) k
  end.
Fixpoint trees_ok (ks : list item) : Prop := match ks with [] => True | x :: ks' => tree_ok x /\ trees_ok ks' end.
Lemma tree_elm n a k : tree_ok (Elm n a k) <-> children_ok k /\ trees_ok k.
Proof. reflexivity. Qed.
Lemma trees_app u v : trees_ok (u ++ v) <-> trees_ok u /\ trees_ok v.
Proof. induction u as [|x u IH]; cbn; [tauto | rewrite IH; tauto]. Qed.
Lemma trees_joined k : trees_ok k -> trees_ok (joined k).
Proof.
  induction k as [|[s|n a ks] k IH]; cbn [joined]; [auto| |].
  - intros [_ H]. specialize (IH H). destruct (joined k) as [|[s'|n' a' k'] r]; [destruct s; cbn; auto | cbn in *; tauto | destruct s; cbn in *; tauto].
  - intros [H1 H2]; split; auto.
Qed.
Lemma node_tree ents : (forall env x i, Node ents env x i -> trees_ok i) /\ (forall env ks is, Nodes ents env ks is -> trees_ok is).
Proof.
  apply Node_Nodes_ind; intros; cbn [trees_ok]; auto; try (cbn; auto; fail).
  - split; [|exact I]. apply tree_elm. split; [|apply trees_joined; assumption]. destruct (joined_ok ks) as [H3 H4]. split; assumption.
  - apply trees_app; split; assumption.
Qed.
Lemma fine_of i : tree_ok i -> plain_item i -> fine plain i.
Proof.
  revert i. fix IH 1. intros [s|n a k] HT HP; [exact HP|].
  apply (proj1 (tree_elm n a k)) in HT. apply (proj1 (plain_elm n a k)) in HP. apply (proj2 (fine_elm plain n a k)).
  destruct HT as [T1 T2], HP as [P1 P2]. split; [exact P1|]. split; [exact T1|]. clear T1 P1.
  induction k as [|x k IHk]; [exact I|]. destruct T2 as [T2 T3], P2 as [P2 P3]. split; [apply IH; assumption | apply IHk; assumption].
Qed.
Lemma fine_any i : tree_ok i -> fine (fun _ => True) i.
Proof.
  revert i. fix IH 1. intros [s|n a k] HT; [exact I|].
  apply (proj1 (tree_elm n a k)) in HT. apply (proj2 (fine_elm _ n a k)).
  destruct HT as [T1 T2]. split; [apply Forall_forall; auto|]. split; [exact T1|]. clear T1.
  induction k as [|x k IHk]; [exact I|]. destruct T2 as [T2 T3]. split; [apply IH; assumption | apply IHk; assumption].
Qed.
Lemma item_ok_elm tq n a k : item_ok tq (Elm n a k) <-> tsep (tq n) k /\ items_ok tq k.
Proof. reflexivity. Qed.
Lemma raw_item_ok tq i : (forall n, In n (pieces i) -> tq n <> TA) -> item_ok tq i.
Proof.
  revert i. fix IH 1. intros [s|n a k] HQ; [exact I|].
  apply (proj2 (item_ok_elm tq n a k)). split.
  - intros E. destruct (whole k) eqn:Ek; [apply whole_ok; exact Ek|]. destruct (HQ n); [|exact E]. cbn. rewrite Ek. left; reflexivity.
  - assert (HK : forall n0, In n0 (flat_map pieces k) -> tq n0 <> TA) by (intros n0 Hn; apply HQ; cbn; apply in_or_app; right; exact Hn).
    clear HQ. induction k as [|x k IHk]; [exact I|]. split.
    + apply IH. intros n0 Hn. apply HK. cbn. apply in_or_app; left; exact Hn.
    + apply IHk. intros n0 Hn. apply HK. cbn. apply in_or_app; right; exact Hn.
Qed.
(** joining *)
Lemma trees_map k : Forall tree_ok k -> trees_ok k.
Proof. induction 1; cbn; auto. Qed.
Lemma merged_tree i : tree_ok (merged i).
Proof.
  revert i. fix IH 1. intros [s|n a k]; [exact I|]. cbn [merged]. apply tree_elm. destruct (joined_ok (map merged k)) as [H1 H2]. split; [split; assumption|].
  apply trees_joined. clear H1 H2. induction k as [|x k IHk]; [exact I|]. split; [apply IH | exact IHk].
Qed.
Lemma plain_app s s' : plain (s ++ s') <-> plain s /\ plain s'.
Proof. apply Forall_app. Qed.
Lemma plain_joined k : plain_items (joined k) <-> plain_items k.
Proof.
  induction k as [|[s|n a b] k IH]; cbn [joined]; [reflexivity| |cbn [plain_items]; rewrite IH; reflexivity].
  cbn [plain_items plain_item]. rewrite <- IH. destruct (joined k) as [|[s'|n' a' k'] r]; cbn [plain_items plain_item].
  - destruct s; cbn [plain_items plain_item]; [|tauto]. split; [intros _; split; [constructor | exact I] | auto].
  - rewrite plain_app. tauto.
  - destruct s; cbn [plain_items plain_item]; [|tauto]. split; [intros H; split; [constructor | exact H] | tauto].
Qed.
Lemma plain_merged i : plain_item (merged i) <-> plain_item i.
Proof.
  revert i. fix IH 1. intros [s|n a k]; [reflexivity|]. cbn [merged]. rewrite !plain_elm, plain_joined.
  assert (H : plain_items (map merged k) <-> plain_items k); [|rewrite H; reflexivity].
  induction k as [|x k IHk]; [reflexivity|]. cbn [map plain_items]. rewrite IHk, (IH x). reflexivity.
Qed.
Lemma whole_merged_id i : pieces i = [] -> merged i = i.
Proof.
  revert i. fix IH 1. intros [s|n a k] H; [reflexivity|]. cbn [pieces] in H. apply app_eq_nil in H. destruct H as [H1 H2]. cbn [merged].
  assert (E : map merged k = k).
  { clear H1. induction k as [|x k IHk]; [reflexivity|]. cbn in H2. apply app_eq_nil in H2. destruct H2 as [H2 H3]. cbn [map]. rewrite (IH x H2), (IHk H3). reflexivity. }
  rewrite E. destruct (whole k) eqn:Ek; [|discriminate H1]. apply whole_ok in Ek. rewrite joined_whole; [reflexivity | exact Ek].
Qed.
Lemma tree_pieces i : tree_ok i -> pieces i = [].
Proof.
  revert i. fix IH 1. intros [s|n a k] H; [reflexivity|]. apply (proj1 (tree_elm n a k)) in H. destruct H as [H1 H2]. apply whole_ok in H1. cbn [pieces]. rewrite H1. cbn [app].
  clear H1. induction k as [|x k IHk]; [reflexivity|]. destruct H2 as [H2 H3]. cbn [flat_map]. rewrite (IH x H2), (IHk H3). reflexivity.
Qed.
Lemma Document_elem d root : Document d root -> tree_ok root.
Proof. intros H. apply (proj1 (node_tree _)) in H. apply H. Qed.

(** Documents in scope of a schema: read as XML prescribes, and where character data comes in
    several pieces the schema has no data, value or list. *)
Record doc_fits (defs : list mpat) (start : mpat) (d : xdoc) : Prop := {
  df_reads : doc_reads d;
  df_split : forall q, SplitIn initial_env (d_root d) q -> no_data defs start q
}.
Lemma scope_fits defs start d : doc_scope d -> doc_fits defs start d.
Proof.
  intros H. constructor; [apply scope_reads; exact H|]. intros q Hq. destruct (clean_split _ _ (ds_clean d H) _ _ Hq).
Qed.

(** ** Schemas without list patterns.  Only lists split text at (Unicode) white space. *)
Fixpoint has_list (X : mpat) : bool :=
  match X with
  | MList _ => true
  | MChoice l | MInterleave l | MGroup l => existsb has_list l
  | MMixed p | MOptional p | MZeroOrMore p | MOneOrMore p | MAttribute _ p | MElement _ p => has_list p
  | MData _ (Some e) => has_list e
  | MData _ None | MValue _ | MEmpty | MText | MNotAllowed | MRef _ => false
  end.
Definition uses_lists (defs : list mpat) (start : mpat) : bool := has_list start || existsb has_list defs.
(** if the schema uses list patterns, then the document has no white space outside XML's *)
Definition plain_for (defs : list mpat) (start : mpat) (root : item) : Prop := uses_lists defs start = true -> plain_item root.
Lemma plain_plain_for defs start root : plain_item root -> plain_for defs start root.
Proof. intros H _; exact H. Qed.
Lemma plain_for_merged defs start i : plain_for defs start (merged i) <-> plain_for defs start i.
Proof. unfold plain_for. rewrite plain_merged. reflexivity. Qed.
Section NoLists.
Variable O : oracles.
Variable defs : list mpat.
Variable w3 : bool.
Variables sp sp' : N -> bool.
Hypothesis Hd : existsb has_list defs = false.
Lemma existsb_false {A} (f : A -> bool) l x : existsb f l = false -> In x l -> f x = false.
Proof. intros H Hin. destruct (f x) eqn:E; [|reflexivity]. rewrite <- H. symmetry. apply existsb_exists. eauto. Qed.
Lemma no_lists_same : (forall a m X, Mg sp O defs w3 a m X -> has_list X = false -> Mg sp' O defs w3 a m X) /\
  (forall a m X, Wg sp O defs w3 a m X -> has_list X = false -> Wg sp' O defs w3 a m X).
Proof.
  apply MW_ind.
  - intros x l a m Hin Hx IH H. eapply M_choice; [exact Hin|]. apply IH. cbn in H. eapply existsb_false; eassumption.
  - intros x a m Hx IH H. apply M_group_one, IH. cbn in H. rewrite orb_false_r in H. exact H.
  - intros x y l a1 a2 a m1 m2 HP Hx IHx Hl IHl H. cbn [has_list existsb] in H. apply orb_false_iff in H. destruct H as [H1 H2].
    eapply M_group; [exact HP | apply IHx; exact H1 | apply IHl; exact H2].
  - intros x a m Hx IH H. apply M_inter_one, IH. cbn in H. rewrite orb_false_r in H. exact H.
  - intros x y l a1 a2 a m1 m2 m HP Hm Hx IHx Hl IHl H. cbn [has_list existsb] in H. apply orb_false_iff in H. destruct H as [H1 H2].
    eapply M_inter; [exact HP | exact Hm | apply IHx; exact H1 | apply IHl; exact H2].
  - intros p a m Hp IH H. apply M_mixed, IH. cbn in *. rewrite H. reflexivity.
  - intros p a m Hp IH H. apply M_optional, IH. cbn in *. rewrite H. reflexivity.
  - intros p a m Hp IH H. apply M_zero, IH. cbn in *. rewrite H. reflexivity.
  - intros p a m Hp IH H. apply M_one, IH, H.
  - intros p a1 a2 a m1 m2 HP Hp IHp Hq IHq H. eapply M_more; [exact HP | apply IHp; exact H | apply IHq; exact H].
  - intros; constructor.
  - intros; apply M_text; assumption.
  - intros nc p x Hc Hw IH H. apply M_attribute; [exact Hc | apply IH; exact H].
  - intros nc p nm a k ws1 ws2 Hc Hk Hw IH H1 H2 H. apply M_element; auto.
  - intros r X a m Hb HX IH _. eapply M_ref; [exact Hb | apply IH]. eapply existsb_false; [exact Hd | eapply nth_error_In; exact Hb].
  - intros; apply M_data; assumption.
  - intros; apply M_except; assumption.
  - intros; apply M_value; assumption.
  - intros p s Hp IH H. discriminate H.
  - intros a m p Hm IH H. apply W_1; auto.
  - intros a s p Hb Hm IH H. apply W_2; auto.
  - intros a p E Hm IH H. apply W_3; auto.
Qed.
End NoLists.
Lemma lists_same sp sp' O defs w3 a m X : uses_lists defs X = false -> (Mg sp O defs w3 a m X <-> Mg sp' O defs w3 a m X).
Proof. intros H. apply orb_false_iff in H. destruct H as [H1 H2]. split; intros HM; (eapply (proj1 (no_lists_same O defs w3 _ _ H2)); [exact HM | exact H1]). Qed.

(** ** The main theorem *)
Section Main.
Variable O : oracles.
Variable defs : list mpat.
Variable start : mpat.
Hypothesis Hrng : rng_schema defs start.
Hypothesis Hlim : in_limits defs start.

(** the verdict, from what the validator reads: character data in several pieces (or empty ones)
    only inside elements the schema gives no data content *)
Definition qname_dec (q q' : qname) : {q = q'} + {q <> q'}.
Proof. repeat decide equality. Defined.
Definition qname_is (q q' : qname) : bool := if qname_dec q q' then true else false.
Lemma qname_is_eq q q' : qname_is q q' = true <-> q = q'.
Proof. unfold qname_is. destruct (qname_dec q q'); split; congruence. Qed.
Theorem raw_decides_sp sp (ok : str -> Prop) d n a k : (forall s, ok s -> split_whitespace s = split_on sp [] s) ->
  (forall s t, ok s -> In t (split_whitespace s) -> ok t) ->
  doc_wf d -> cview (ents_after initial_entities (d_prolog d)) [] (d_root d) = Some [Elm n a k] ->
  fine ok (merged (Elm n a k)) -> (forall q, In q (pieces (Elm n a k)) -> no_data defs start q) ->
  accepts O defs start (doc_tokens d) /\ Mg sp O defs false [] [merged (Elm n a k)] start \/
  rejects O defs start (doc_tokens d) /\ ~ Mg sp O defs false [] [merged (Elm n a k)] start \/
  overflows O defs start (doc_tokens d).
Proof.
  intros Hsp Htk Hwf Hcv Hpl Hnd. set (raw := Elm n a k) in *. set (Q := pieces raw) in *.
  set (T := fun nc : nameclass => if existsb (contains nc) Q then TN else TA).
  set (tq := fun nm : qname => if existsb (qname_is nm) Q then TN else TA).
  assert (HE : forall X, restr defs X -> (forall q, In q Q -> all_elems (fun nc p => in_class nc q -> CT defs TN p) X) ->
    all_elems (fun nc p => (forall q, In q Q -> in_class nc q -> CT defs TN p) /\ CT defs (T nc) p) X).
  { intros X HX HQ.
    assert (H1 : all_elems (fun nc p => forall q, In q Q -> in_class nc q -> CT defs TN p) X).
    { clear -HQ. induction Q as [|q0 Q' IH].
      - eapply all_elems_imp; [|exact (all_elems_true X)]. intros nc p _ q [].
      - eapply all_elems_imp; [|exact (all_elems_and _ _ X (HQ q0 (or_introl eq_refl)) (IH (fun q Hq => HQ q (or_intror Hq))))].
        intros nc p [H1 H2] q [<-|Hq] Hc; [exact (H1 Hc) | exact (H2 q Hq Hc)]. }
    eapply all_elems_imp; [|exact (all_elems_and _ _ X H1 (restr_elems defs X HX))].
    intros nc p [H2 H3]. split; [exact H2|]. unfold T. destruct (existsb (contains nc) Q) eqn:Ex; [|exact H3].
    apply existsb_exists in Ex. destruct Ex as (q & Hq & Hc). apply (H2 q Hq). apply contains_in_class; exact Hc. }
  assert (HS : schema_elems defs (fun nc p => (forall q, In q Q -> in_class nc q -> CT defs TN p) /\ CT defs (T nc) p) start).
  { split; [apply HE; [exact (rs_start _ _ Hrng) | intros q Hq; exact (proj1 (Hnd q Hq))]|].
    intros r X Hb. apply HE; [eapply (rs_defs _ _ Hrng); exact Hb | intros q Hq; exact (proj2 (Hnd q Hq) r X Hb)]. }
  assert (HS2 : schema_elems defs (fun nc p => CT defs (T nc) p) start).
  { destruct HS as [HS1 HS2]. split; [eapply all_elems_imp; [|exact HS1]; intros nc p [_ H]; exact H|].
    intros r X Hb. eapply all_elems_imp; [|exact (HS2 r X Hb)]. intros nc p [_ H]; exact H. }
  pose proof (scope_ok_T defs O T start Hrng Hlim HS2) as Hok.
  destruct (new_validator_ok O lim defs T start Hok) as (n1 & r & Hn & Hr).
  destruct Hr as [->|(st & id & -> & HI & HR & HSE & HG & HK)].
  { right; right. exists n1. intros m Hm. unfold check. rewrite (Hn m Hm). reflexivity. }
  assert (Htq : forall nc nm, contains nc nm = true -> tle (T nc) (tq nm)).
  { intros nc nm Hc. unfold T, tq. destruct (existsb (qname_is nm) Q) eqn:Ex; [|apply tle_TA].
    apply existsb_exists in Ex. destruct Ex as (q & Hq & Eq). apply qname_is_eq in Eq. subst q.
    replace (existsb (contains nc) Q) with true; [apply tle_refl|]. symmetry. apply existsb_exists. exists nm. auto. }
  assert (Hit : item_ok tq raw).
  { apply raw_item_ok. intros q Hq. unfold tq. replace (existsb (qname_is q) Q) with true; [discriminate|].
    symmetry. apply existsb_exists. exists q. split; [exact Hq | apply qname_is_eq; reflexivity]. }
  destruct (accept_store O lim T eq_refl tq st id 0 TN initial_entities d raw Htq HG HK HSE Hwf Hcv Hit) as (n2 & r & Hn2 & Hr).
  assert (Hset : settles (check O defs start (doc_tokens d)) r).
  { exists (n1 + n2). intros m Hm. unfold check. rewrite (Hn m) by lia. cbn [rbind]. apply Hn2. lia. }
  assert (HL : L O st id [] [raw] <-> Mg sp O defs false [] [merged raw] start).
  { rewrite (Repr_L O lim defs T (so_defs _ _ _ _ _ Hok) st HI _ 0 TN start (START_TYP defs start (rs_root _ _ Hrng)) (so_start _ _ _ _ _ Hok) true id HR [] [raw] (le_n _)).
    assert (Hd : forall r X, deref defs r = Some X -> all_elems (fun nc p => forall q, In q Q -> in_class nc q -> CT defs TN p) X).
    { intros r0 X Hb. eapply all_elems_imp; [|exact (proj2 HS r0 X Hb)]. intros nc p [H _]; exact H. }
    assert (Hs : all_elems (fun nc p => forall q, In q Q -> in_class nc q -> CT defs TN p) start).
    { eapply all_elems_imp; [|exact (proj1 HS)]. intros nc p [H _]; exact H. }
    rewrite (LA_merged O defs Q Hd [] [raw] start Hs (Forall_cons raw (incl_refl _) (Forall_nil _))). cbn [map].
    assert (Hfs : fines ok [merged raw]) by (split; [exact Hpl | exact I]). split.
    - intros H.
      exact (sound_all sp ok Hsp O defs false (rs_defs _ _ Hrng) (esizes [merged raw]) TN start (START_CT defs start (rs_root _ _ Hrng)) (rs_start _ _ Hrng) [] [merged raw] (le_n _) (Forall_nil _) Hfs H).
    - intros H. apply (proj1 (complete_all sp ok Hsp Htk O defs false (rs_defs _ _ Hrng) eq_refl)); [exact H | exact (rs_start _ _ Hrng) | constructor | exact Hfs]. }
  destruct r as [[v [e|]]|p|]; [| | |contradiction].
  - right; left. split; [exists v, e; exact Hset | rewrite <- HL; exact Hr].
  - left. split; [exists v; exact Hset | rewrite <- HL; exact Hr].
  - right; right. cbn in Hr. unfold lim in Hr. subst p. exact Hset.
Qed.
(** whatever the white space: lists are split at Unicode white space *)
Theorem raw_decides_uni d n a k : doc_wf d -> cview (ents_after initial_entities (d_prolog d)) [] (d_root d) = Some [Elm n a k] ->
  (forall q, In q (pieces (Elm n a k)) -> no_data defs start q) ->
  accepts O defs start (doc_tokens d) /\ Mg is_uni_ws O defs false [] [merged (Elm n a k)] start \/
  rejects O defs start (doc_tokens d) /\ ~ Mg is_uni_ws O defs false [] [merged (Elm n a k)] start \/
  overflows O defs start (doc_tokens d).
Proof.
  intros Hwf Hcv Hnd. apply (raw_decides_sp is_uni_ws (fun _ => True)); auto.
  apply fine_any, merged_tree.
Qed.
Theorem main_decides_uni d root : doc_fits defs start d -> Document d root ->
  accepts O defs start (doc_tokens d) /\ Mg is_uni_ws O defs false [] [root] start \/
  rejects O defs start (doc_tokens d) /\ ~ Mg is_uni_ws O defs false [] [root] start \/
  overflows O defs start (doc_tokens d).
Proof.
  intros [Hr Hs] Hdoc. destruct (document_raw d root Hr Hdoc) as (raw & Hcv & Hm & Hq). subst root. destruct raw as [s|n a k].
  - exfalso. destruct (dr_wf d Hr) as (_ & _ & Hroot). destruct (d_root d) as [| | | |p l a0 sc kids]; try contradiction. rewrite cview_elem in Hcv. cbv zeta in Hcv.
    destruct (try_lookup_ns _ p); [|discriminate]. destruct (resolve_attrs _ _); [|discriminate]. destruct (cviews _ _ _); discriminate.
  - apply raw_decides_uni; [exact (dr_wf d Hr) | exact Hcv |]. intros q Hin. apply Hs, Hq; exact Hin.
Qed.
Lemma plain_decides_sp d n a k : doc_wf d -> cview (ents_after initial_entities (d_prolog d)) [] (d_root d) = Some [Elm n a k] ->
  plain_item (Elm n a k) -> (forall q, In q (pieces (Elm n a k)) -> no_data defs start q) ->
  accepts O defs start (doc_tokens d) /\ M O defs false [] [merged (Elm n a k)] start \/
  rejects O defs start (doc_tokens d) /\ ~ M O defs false [] [merged (Elm n a k)] start \/
  overflows O defs start (doc_tokens d).
Proof.
  intros Hwf Hcv Hpl Hnd. apply (raw_decides_sp is_xml_ws plain); auto.
  - intros s Hs. apply plain_split; exact Hs.
  - exact plain_token.
  - apply fine_of; [apply merged_tree | apply plain_merged; exact Hpl].
Qed.
Theorem raw_decides d n a k : doc_wf d -> cview (ents_after initial_entities (d_prolog d)) [] (d_root d) = Some [Elm n a k] ->
  plain_for defs start (Elm n a k) -> (forall q, In q (pieces (Elm n a k)) -> no_data defs start q) ->
  accepts O defs start (doc_tokens d) /\ M O defs false [] [merged (Elm n a k)] start \/
  rejects O defs start (doc_tokens d) /\ ~ M O defs false [] [merged (Elm n a k)] start \/
  overflows O defs start (doc_tokens d).
Proof.
  intros Hwf Hcv Hpl Hnd. destruct (uses_lists defs start) eqn:E.
  - apply plain_decides_sp; auto.
  - rewrite !(lists_same is_xml_ws is_uni_ws O defs false [] [merged (Elm n a k)] start E). apply raw_decides_uni; assumption.
Qed.
Theorem main_decides d root : doc_fits defs start d -> Document d root -> plain_for defs start root ->
  accepts O defs start (doc_tokens d) /\ M O defs false [] [root] start \/
  rejects O defs start (doc_tokens d) /\ ~ M O defs false [] [root] start \/
  overflows O defs start (doc_tokens d).
Proof.
  intros [Hr Hs] Hdoc Hpl. destruct (document_raw d root Hr Hdoc) as (raw & Hcv & Hm & Hq). subst root. destruct raw as [s|n a k].
  - exfalso. destruct (dr_wf d Hr) as (_ & _ & Hroot). destruct (d_root d) as [| | | |p l a0 sc kids]; try contradiction. rewrite cview_elem in Hcv. cbv zeta in Hcv.
    destruct (try_lookup_ns _ p); [|discriminate]. destruct (resolve_attrs _ _); [|discriminate]. destruct (cviews _ _ _); discriminate.
  - apply raw_decides; [exact (dr_wf d Hr) | exact Hcv | apply plain_for_merged; exact Hpl|]. intros q Hin. apply Hs, Hq; exact Hin.
Qed.
End Main.

(** ** Weak match 3 *)
Section Weak3.
Variable sp : N -> bool.
Variable O : oracles.
Variable defs : list mpat.
Notation Mt := (Mg sp O defs true). Notation Mf := (Mg sp O defs false).
Notation Wt := (Wg sp O defs true). Notation Wf := (Wg sp O defs false).

Theorem M_false_true : (forall a m X, Mf a m X -> Mt a m X) /\ (forall a m X, Wf a m X -> Wt a m X).
Proof. apply MW_ind; intros; try discriminate; try (econstructor; eauto; fail). Qed.

(** elements without children occurring in an item *)
Fixpoint childless (i : item) (a : list attr) : Prop :=
  match i with
  | Txt _ => False
  | Elm _ b k => (k = [] /\ a = b) \/ (fix go (ks : list item) : Prop := match ks with [] => False | x :: ks' => childless x a \/ go ks' end) k
  end.
Fixpoint childless_in (ks : list item) (a : list attr) : Prop := match ks with [] => False | x :: ks' => childless x a \/ childless_in ks' a end.
Lemma childless_elm n b k a : childless (Elm n b k) a <-> (k = [] /\ a = b) \/ childless_in k a.
Proof.
  cbn [childless]. match goal with |- (_ \/ ?f k) <-> _ => assert (H : forall l, f l <-> childless_in l a) end.
  { induction l as [|x l IH]; cbn; [tauto|]. rewrite IH. tauto. }
  rewrite H. reflexivity.
Qed.
Lemma childless_app u v a : childless_in (u ++ v) a <-> childless_in u a \/ childless_in v a.
Proof. induction u as [|x u IH]; cbn; [tauto | rewrite IH; tauto]. Qed.
Lemma childless_merge u v w a : merge u v w -> childless_in u a \/ childless_in v a -> childless_in w a.
Proof. induction 1 as [|x u v w H IH|x u v w H IH]; cbn; tauto. Qed.
Lemma no_elm_childless k a : Forall (fun i => exists s, i = Txt s) k -> ~ childless_in k a.
Proof. induction 1 as [|x k [s ->] _ IH]; cbn; tauto. Qed.

(** content patterns of the element patterns of the schema *)
Inductive sub : mpat -> mpat -> Prop :=
| sub_refl X : sub X X
| sub_ch x l Y : In x l -> sub x Y -> sub (MChoice l) Y
| sub_gr x l Y : In x l -> sub x Y -> sub (MGroup l) Y
| sub_in x l Y : In x l -> sub x Y -> sub (MInterleave l) Y
| sub_mixed p Y : sub p Y -> sub (MMixed p) Y
| sub_opt p Y : sub p Y -> sub (MOptional p) Y
| sub_zero p Y : sub p Y -> sub (MZeroOrMore p) Y
| sub_one p Y : sub p Y -> sub (MOneOrMore p) Y
| sub_attr nc p Y : sub p Y -> sub (MAttribute nc p) Y
| sub_elem nc p Y : sub p Y -> sub (MElement nc p) Y
| sub_list p Y : sub p Y -> sub (MList p) Y
| sub_ref r X Y : deref defs r = Some X -> sub X Y -> sub (MRef r) Y.

(** [harmless_sp root start]: no empty element of the document relies on rule weak match 3, i.e. no
    content pattern matches its attributes with the empty string but not with nothing. *)
Definition harmless_sp (ms : list item) (start : mpat) : Prop :=
  forall a nc p, childless_in ms a -> sub start (MElement nc p) -> Mt a [Txt []] p -> Mt a [] p.

Lemma M_noelem : (forall a m X, Mt a m X -> Forall (fun i => exists s, i = Txt s) m -> Mf a m X) /\
  (forall a m X, Wt a m X -> Forall (fun i => exists s, i = Txt s) m -> m <> [] -> Wf a m X).
Proof.
  apply MW_ind.
  - intros x l a m Hin Hx IH HF. eapply M_choice; eauto.
  - intros; apply M_group_one; auto.
  - intros x y l a1 a2 a m1 m2 HP Hx IHx Hl IHl HF. apply Forall_app in HF; destruct HF. eapply M_group; eauto.
  - intros; apply M_inter_one; auto.
  - intros x y l a1 a2 a m1 m2 m HP Hm Hx IHx Hl IHl HF.
    assert (HF1 : Forall (fun i => exists s, i = Txt s) m1 /\ Forall (fun i => exists s, i = Txt s) m2).
    { clear -Hm HF. induction Hm as [|? ? ? ? ? IH|? ? ? ? ? IH]; [split; constructor| |]; inversion HF; subst; destruct (IH ltac:(assumption)); split; try constructor; assumption. }
    destruct HF1. eapply M_inter; eauto.
  - intros; apply M_mixed; auto.
  - intros; apply M_optional; auto.
  - intros; apply M_zero; auto.
  - intros; apply M_one; auto.
  - intros p a1 a2 a m1 m2 HP Hp IHp Hq IHq HF. apply Forall_app in HF; destruct HF. eapply M_more; eauto.
  - intros; constructor.
  - intros; apply M_text; assumption.
  - intros nc p x Hc Hw IH _. apply M_attribute; [exact Hc|]. apply IH; [constructor; [eauto | constructor] | discriminate].
  - intros nc p nm a k ws1 ws2 Hc Hk Hw IH H1 H2 HF. exfalso. apply Forall_app in HF; destruct HF as [_ HF]. inversion HF as [|? ? [s E] _]; subst. discriminate E.
  - intros; eapply M_ref; eauto.
  - intros; apply M_data; assumption.
  - intros; apply M_except; assumption.
  - intros; apply M_value; assumption.
  - intros p s Hp IH _. apply M_list, IH. apply Forall_forall. intros x Hx. apply in_map_iff in Hx. destruct Hx as (t & <- & _); eauto.
  - intros a m p Hm IH HF Hne. apply W_1; auto.
  - intros a s p Hb Hm IH HF Hne. apply W_2; auto.
  - intros a p _ Hm IH HF Hne. congruence.
Qed.

Theorem M_true_false : (forall a m X, Mt a m X -> forall start, sub start X -> forall ms, harmless_sp ms start -> (forall b, childless_in m b -> childless_in ms b) -> Mf a m X) /\
  (forall a m X, Wt a m X -> forall start nc, sub start (MElement nc X) \/ (m <> [] /\ sub start X) -> forall ms, harmless_sp ms start -> (forall b, childless_in m b -> childless_in ms b) ->
    (m = [] -> childless_in ms a) -> Wf a m X).
Proof.
  assert (Htr : forall X Y Z, sub X Y -> sub Y Z -> sub X Z).
  { intros X Y Z H; revert Z. induction H; intros Z HZ; auto; econstructor; eauto. }
  apply MW_ind.
  - intros x l a m Hin Hx IH s Hs ms Hh Hc. eapply M_choice; [exact Hin|]. eapply IH; eauto. eapply Htr; [exact Hs|]. eapply sub_ch; [exact Hin | apply sub_refl].
  - intros x a m Hx IH s Hs ms Hh Hc. apply M_group_one. eapply IH; eauto. eapply Htr; [exact Hs|]. eapply sub_gr; [left; reflexivity | apply sub_refl].
  - intros x y l a1 a2 a m1 m2 HP Hx IHx Hl IHl s Hs ms Hh Hc.
    eapply M_group; [exact HP| |].
    + eapply IHx; eauto; [eapply Htr; [exact Hs|]; eapply sub_gr; [left; reflexivity | apply sub_refl] | intros b Hb; apply Hc, childless_app; auto].
    + clear IHx. (* the tail is not a syntactic subpattern; use any member *)
      assert (Htail : exists s', sub s' (MGroup (y :: l)) /\ harmless_sp ms s').
      { exists (MGroup (y :: l)). split; [apply sub_refl|]. intros b nc p Hb Hsub HM. eapply Hh; eauto.
        inversion Hsub as [| |x0 l0 Y0 Hin Hx0| | | | | | | | |]; subst. eapply Htr; [exact Hs|]. eapply sub_gr; [right; exact Hin | exact Hx0]. }
      destruct Htail as (s' & Hs' & Hh'). eapply IHl; eauto. intros b Hb; apply Hc, childless_app; auto.
  - intros x a m Hx IH s Hs ms Hh Hc. apply M_inter_one. eapply IH; eauto. eapply Htr; [exact Hs|]. eapply sub_in; [left; reflexivity | apply sub_refl].
  - intros x y l a1 a2 a m1 m2 m HP Hm Hx IHx Hl IHl s Hs ms Hh Hc.
    eapply M_inter; [exact HP | exact Hm | |].
    + eapply IHx; eauto; [eapply Htr; [exact Hs|]; eapply sub_in; [left; reflexivity | apply sub_refl] | intros b Hb; apply Hc; eapply childless_merge; [exact Hm | auto]].
    + clear IHx.
      assert (Htail : exists s', sub s' (MInterleave (y :: l)) /\ harmless_sp ms s').
      { exists (MInterleave (y :: l)). split; [apply sub_refl|]. intros b nc p Hb Hsub HM. eapply Hh; eauto.
        inversion Hsub as [| | |x0 l0 Y0 Hin Hx0| | | | | | | |]; subst. eapply Htr; [exact Hs|]. eapply sub_in; [right; exact Hin | exact Hx0]. }
      destruct Htail as (s' & Hs' & Hh'). eapply IHl; eauto. intros b Hb; apply Hc; eapply childless_merge; [exact Hm | auto].
  - intros p a m Hp IH s Hs ms Hh Hc. apply M_mixed. eapply IH with (start := MInterleave [p; MText]); eauto; [apply sub_refl|].
    intros b nc q Hb Hsub HM. eapply Hh; eauto. inversion Hsub as [| | |x0 l0 Y0 Hin Hx0| | | | | | | |]; subst.
    destruct Hin as [<-|[<-|[]]]; [|inversion Hx0]. eapply Htr; [exact Hs|]. apply sub_mixed; exact Hx0.
  - intros p a m Hp IH s Hs ms Hh Hc. apply M_optional. eapply IH with (start := MChoice [p; MEmpty]); eauto; [apply sub_refl|].
    intros b nc q Hb Hsub HM. eapply Hh; eauto. inversion Hsub as [|x0 l0 Y0 Hin Hx0| | | | | | | | | |]; subst.
    destruct Hin as [<-|[<-|[]]]; [|inversion Hx0]. eapply Htr; [exact Hs|]. apply sub_opt; exact Hx0.
  - intros p a m Hp IH s Hs ms Hh Hc. apply M_zero. eapply IH with (start := MChoice [MOneOrMore p; MEmpty]); eauto; [apply sub_refl|].
    intros b nc q Hb Hsub HM. eapply Hh; eauto. inversion Hsub as [|x0 l0 Y0 Hin Hx0| | | | | | | | | |]; subst.
    destruct Hin as [<-|[<-|[]]]; [|inversion Hx0]. inversion Hx0 as [| | | | | | |p0 Y0 Hp0| | | |]; subst. eapply Htr; [exact Hs|]. apply sub_zero. exact Hp0.
  - intros p a m Hp IH s Hs ms Hh Hc. apply M_one. eapply IH; eauto. eapply Htr; [exact Hs|]. apply sub_one, sub_refl.
  - intros p a1 a2 a m1 m2 HP Hp IHp Hq IHq s Hs ms Hh Hc. eapply M_more; [exact HP| |].
    + eapply IHp; eauto; [eapply Htr; [exact Hs|]; apply sub_one, sub_refl | intros b Hb; apply Hc, childless_app; auto].
    + eapply IHq; eauto. intros b Hb; apply Hc, childless_app; auto.
  - intros; constructor.
  - intros; apply M_text; assumption.
  - intros nc p x Hc Hw IH s Hs ms Hh Hch. apply M_attribute; [exact Hc|]. eapply IH with (start := s) (nc := nc); eauto.
    + right. split; [discriminate|]. eapply Htr; [exact Hs|]. apply sub_attr, sub_refl.
    + intros b [[]|[]].
    + discriminate.
  - intros nc p nm a k ws1 ws2 Hc Hk Hw IH H1 H2 s Hs ms Hh Hch. apply M_element; auto. eapply IH with (start := s) (nc := nc); eauto.
    + intros b Hb. apply Hch. apply childless_app. right. cbn [childless_in]. left. apply childless_elm. right; exact Hb.
    + intros ->. apply Hch. apply childless_app. right. cbn [childless_in]. left. apply childless_elm. left; auto.
  - intros r X a m Hb HX IH s Hs ms Hh Hc. eapply M_ref; [exact Hb|]. eapply IH; eauto. eapply Htr; [exact Hs|]. eapply sub_ref; [exact Hb | apply sub_refl].
  - intros; apply M_data; assumption.
  - intros; apply M_except; assumption.
  - intros; apply M_value; assumption.
  - intros p s Hp _ s0 Hs ms Hh Hc. apply M_list. apply (proj1 M_noelem); [exact Hp|]. apply Forall_forall. intros x Hx. apply in_map_iff in Hx. destruct Hx as (t & <- & _); eauto.
  - intros a m p Hm IH s nc Hs ms Hh Hc He. apply W_1. eapply IH; eauto. destruct Hs as [Hs|[_ Hs]]; [|exact Hs]. eapply Htr; [exact Hs|]. apply sub_elem, sub_refl.
  - intros a t p Hb Hm _ s nc Hs ms Hh Hc He. apply W_2; [exact Hb|]. apply (proj1 M_noelem); [exact Hm | constructor].
  - intros a p _ Hm _ s nc Hs ms Hh Hc He. destruct Hs as [Hs|[Hne _]]; [|congruence].
    apply W_1. apply (proj1 M_noelem); [|constructor]. eapply Hh; [apply He; reflexivity | exact Hs | exact Hm].
Qed.
Corollary weak3_harmless root start : harmless_sp [root] start -> Mt [] [root] start -> Mf [] [root] start.
Proof. intros Hh H. eapply (proj1 M_true_false); [exact H | apply sub_refl | exact Hh | auto]. Qed.
End Weak3.
Arguments M_false_true {sp}. Arguments M_noelem {sp}. Arguments M_true_false {sp}. Arguments weak3_harmless {sp}.
Notation harmless := (harmless_sp is_xml_ws).
