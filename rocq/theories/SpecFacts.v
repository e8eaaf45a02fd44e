(** * SpecFacts: facts about the specification and the schema-level code language. *)
From Coq Require Import Permutation.
From Verif Require Import Base Datatype Store Deriv Events Lang LangFacts Wp Compile Schema LangA Spec.

(** ** Names *)
Lemma str_nil_eqb (ns : str) : (match ns with [] => true | _ => false end) = str_eqb [] ns.
Proof. destruct ns; reflexivity. Qed.
Lemma ns_match_uri ns t : is_ns_match ns t = true <-> (match t with Some u => u | None => [] end) = ns.
Proof. destruct t as [u|]; cbn; [apply str_eqb_eq|]. rewrite str_nil_eqb. apply str_eqb_eq. Qed.
Lemma contains_in_class nc q : contains nc q = true <-> in_class nc q.
Proof.
  revert nc; fix IH 1; intros [ns name|ns [e|]|[e|]|a b].
  - cbn. unfold uri. destruct (q_ns q) as [u|]; [|rewrite str_nil_eqb]; rewrite andb_true_iff, !str_eqb_eq; reflexivity.
  - cbn. pose proof (ns_match_uri ns (q_ns q)) as Hm. fold (uri q) in Hm. destruct (is_ns_match ns (q_ns q)).
    + rewrite negb_true_iff, <- not_true_iff_false, (IH e). tauto.
    + split; [discriminate | intros [H _]; apply Hm in H; discriminate H].
  - cbn. pose proof (ns_match_uri ns (q_ns q)) as Hm. fold (uri q) in Hm. destruct (is_ns_match ns (q_ns q)); [tauto | exact Hm].
  - cbn. rewrite negb_true_iff, <- not_true_iff_false, (IH e). reflexivity.
  - cbn. tauto.
  - cbn. rewrite orb_true_iff, (IH a), (IH b). reflexivity.
Qed.

(** ** Strings *)
Lemma blank_ws s : blank s <-> is_whitespace_str s = true.
Proof. unfold blank, is_whitespace_str. rewrite forallb_forall, Forall_forall. reflexivity. Qed.
(** Unicode white space in [s] is XML white space *)
Definition plain (s : str) : Prop := Forall (fun c => is_uni_ws c = true -> is_xml_ws c = true) s.
Lemma plain_ws c : (is_uni_ws c = true -> is_xml_ws c = true) -> is_uni_ws c = is_xml_ws c.
Proof.
  intros H; destruct (is_xml_ws c) eqn:E; [apply xml_ws_uni; exact E|]. destruct (is_uni_ws c); [symmetry; apply H; reflexivity | reflexivity].
Qed.
Lemma plain_split s : plain s -> split_whitespace s = xml_split s.
Proof.
  unfold split_whitespace, xml_split. generalize (@nil N). induction s as [|c s IH]; intros cur H; [reflexivity|].
  inversion H; subst. cbn. rewrite (plain_ws c) by assumption. rewrite !IH by assumption. reflexivity.
Qed.
Lemma plain_token s t : plain s -> In t (split_whitespace s) -> plain t.
Proof.
  intros _ Ht. destruct (split_on_tokens s [] t (Forall_nil _) Ht) as [_ Hall].
  apply Forall_forall. intros c Hcx Hu. exfalso. rewrite Forall_forall in Hall. specialize (Hall c Hcx). congruence.
Qed.
Lemma plain_okc s : plain s -> okc s.
Proof.
  intros H E. unfold okc. unfold is_whitespace_str. rewrite forallb_forall. intros c Hc.
  assert (Hu : is_uni_ws c = true).
  { clear H. unfold split_whitespace in E. assert (Hg : forall cur s, split_on is_uni_ws cur s = [] -> cur = [] /\ forall c, In c s -> is_uni_ws c = true).
    { clear. intros cur s; revert cur; induction s as [|c s IH]; intros cur H; cbn in H.
      - destruct cur; [split; [reflexivity | intros c []] | discriminate H].
      - destruct (is_uni_ws c) eqn:Ec.
        + destruct cur; [|discriminate H]. destruct (IH _ H) as [_ Hs]. split; [reflexivity|]. intros d [<-|Hd]; auto.
        + destruct (IH _ H) as [Hx _]; discriminate Hx. }
    destruct (Hg _ _ E) as [_ Hs]; auto. }
  unfold plain in H. rewrite Forall_forall in H. auto.
Qed.

(** ** merge and permutations *)
Lemma merge_perm {A} (a b c : list A) : merge a b c -> Permutation c (a ++ b).
Proof.
  induction 1; cbn; [constructor | constructor; assumption|].
  etransitivity; [constructor; eassumption | apply Permutation_middle].
Qed.
Lemma merge_perm_inv {A} (c c' : list A) : Permutation c c' -> forall a b, merge a b c ->
  exists a' b', merge a' b' c' /\ Permutation a a' /\ Permutation b b'.
Proof.
  induction 1 as [|x l l' HP IH|x y l|l l' l'' H1 IH1 H2 IH2]; intros a b Hm.
  - apply merge_nil_inv in Hm; destruct Hm as [-> ->]. exists [], []; repeat split; constructor.
  - apply merge_cons_inv in Hm. destruct Hm as [(a' & -> & Hm)|(b' & -> & Hm)]; destruct (IH _ _ Hm) as (p & q & Hpq & Hp & Hq).
    + exists (x :: p), q; repeat split; [constructor; exact Hpq | constructor; exact Hp | exact Hq].
    + exists p, (x :: q); repeat split; [constructor; exact Hpq | exact Hp | constructor; exact Hq].
  - apply merge_cons_inv in Hm. destruct Hm as [(a' & -> & Hm)|(b' & -> & Hm)]; apply merge_cons_inv in Hm; destruct Hm as [(a2 & -> & Hm)|(b2 & -> & Hm)].
    + exists (x :: y :: a2), b; repeat split; [repeat constructor; exact Hm | apply perm_swap | reflexivity].
    + exists (y :: a'), (x :: b2); repeat split; [repeat constructor; exact Hm | reflexivity | reflexivity].
    + exists (x :: a2), (y :: b'); repeat split; [repeat constructor; exact Hm | reflexivity | reflexivity].
    + exists a, (x :: y :: b2); repeat split; [repeat constructor; exact Hm | reflexivity | apply perm_swap].
  - destruct (IH1 _ _ Hm) as (p & q & Hpq & Hp & Hq). destruct (IH2 _ _ Hpq) as (p' & q' & Hpq' & Hp' & Hq').
    exists p', q'; repeat split; [exact Hpq' | etransitivity; eassumption | etransitivity; eassumption].
Qed.

Section Facts.
Variable O : oracles.
Variable defs : list mpat.
Notation LA := (LA O defs).
Notation CT := (CT defs).

Lemma SMA_XM e s b : SMA O defs e s b <-> XM O defs e s b.
Proof. split; induction 1; econstructor; eassumption. Qed.

(** ** blanks may be inserted anywhere *)
Lemma LA_ws_insert X a w : LA a w X -> forall c1 c2 t, w = c1 ++ c2 -> is_whitespace_str t = true ->
  LA a (c1 ++ Txt t :: c2) X.
Proof.
  induction 1 as [x l a w Hin Hx IH|x a w Hx IH|x y l a1 a2 a u1 u2 Hm Hx IHx Hl IHl|x a w Hx IH|x y l a1 a2 a u1 u2 w Hm Hmw Hx IHx Hl IHl
    |p a u1 u2 w Hp IH Ht Hmw|p a w Hp IH|p w Hw|p a w Hp IH|p w Hw|p a w Hp IH|p u1 u2 Hp IHp Hq IHq|p x a1 a2 a u1 u2 Hp IHp Hq IHq Hm
    |w Hw|w Hw|nc p x w Hc Hv Hw|nc p nm a k u1 u2 Hc Hk IH H1 H2|r X a w Hb HX IH|d s0 u1 u2 Hd H1 H2|v s0 u1 u2 Hd H1 H2|d e s0 u1 u2 Hd He H1 H2
    |p ss Hne Hp IH]; intros c1 c2 t Ew Hs.
  - eapply A_ch; [exact Hin | apply IH; assumption].
  - constructor; auto.
  - destruct (app_split_insert (Txt t) _ _ _ _ Ew) as [(d & E1 & E2)|(d & E1 & E2)]; rewrite E2; eapply A_gr; eauto.
  - constructor; auto.
  - subst w. destruct (merge_insert (Txt t) _ _ _ _ Hmw) as (v1 & v2 & -> & Hw'). eapply A_in; eauto.
  - subst w. destruct (merge_insert (Txt t) _ _ _ _ Hmw) as (v1 & v2 & -> & Hw'). eapply A_mixed; [apply IH; [reflexivity | exact Hs] | exact Ht | exact Hw'].
  - apply A_opt1; auto.
  - subst; apply A_opt0, all_ws_insert; assumption.
  - apply A_zero1; auto.
  - subst; apply A_zero0, all_ws_insert; assumption.
  - apply A_one; auto.
  - destruct (app_split_insert (Txt t) _ _ _ _ Ew) as [(d & E1 & E2)|(d & E1 & E2)]; rewrite E2; eapply A_more_nil; eauto.
  - destruct (app_split_insert (Txt t) _ _ _ _ Ew) as [(d & E1 & E2)|(d & E1 & E2)]; rewrite E2; eapply A_more_cons; eauto.
  - subst; apply A_empty, all_ws_insert; assumption.
  - subst; apply A_text. rewrite all_txt_app in *; cbn; exact Hw.
  - subst; apply A_attr; auto using all_ws_insert.
  - symmetry in Ew. destruct (middle_insert (Txt t) _ _ _ _ _ Ew Hs H1 H2) as (v1 & v2 & E' & Hv1 & Hv2).
    rewrite E'; eapply A_elem; eauto.
  - eapply A_ref; eauto.
  - symmetry in Ew. destruct (middle_insert (Txt t) _ _ _ _ _ Ew Hs H1 H2) as (v1 & v2 & E' & Hv1 & Hv2). rewrite E'; eapply A_data; eauto.
  - symmetry in Ew. destruct (middle_insert (Txt t) _ _ _ _ _ Ew Hs H1 H2) as (v1 & v2 & E' & Hv1 & Hv2). rewrite E'; eapply A_value; eauto.
  - symmetry in Ew. destruct (middle_insert (Txt t) _ _ _ _ _ Ew Hs H1 H2) as (v1 & v2 & E' & Hv1 & Hv2). rewrite E'; eapply A_except; eauto.
  - apply map_app_inv in Ew; destruct Ew as (l1 & l2 & -> & <- & <-).
    replace (map Txt l1 ++ Txt t :: map Txt l2) with (map Txt (l1 ++ t :: l2)) by (rewrite map_app; reflexivity).
    apply A_list; [destruct l1; discriminate|].
    rewrite flat_map_app in *; cbn. rewrite (ws_no_tokens _ Hs); exact Hp.
Qed.
Lemma LA_ws_app_l X a u w : all_ws u = true -> LA a w X -> LA a (u ++ w) X.
Proof.
  induction u as [|i u IH]; cbn; intros Hu H; [exact H|].
  apply andb_true_iff in Hu; destruct Hu as [Hi Hu]. destruct i as [s|]; [|discriminate].
  apply (LA_ws_insert X a (u ++ w) (IH Hu H) [] (u ++ w) s eq_refl Hi).
Qed.
Lemma LA_ws_app_r X a u w : all_ws u = true -> LA a w X -> LA a (w ++ u) X.
Proof.
  revert w; induction u as [|i u IH]; cbn; intros w Hu H; [rewrite app_nil_r; exact H|].
  apply andb_true_iff in Hu; destruct Hu as [Hi Hu]. destruct i as [s|]; [|discriminate].
  change (Txt s :: u) with ([Txt s] ++ u). rewrite app_assoc. apply IH; [exact Hu|].
  apply (LA_ws_insert X a w H w [] s); [rewrite app_nil_r; reflexivity | exact Hi].
Qed.
Lemma LA_ws_merge X a u v w : all_ws u = true -> merge u v w -> LA a v X -> LA a w X.
Proof.
  intros Hu Hm. revert Hu. assert (Gen : forall u v w, merge u v w -> all_ws u = true -> forall p, LA a (p ++ v) X -> LA a (p ++ w) X).
  { clear. intros u v w Hm; induction Hm as [|x u v w Hm IH|x u v w Hm IH]; intros Hu p H.
    - exact H.
    - cbn in Hu; apply andb_true_iff in Hu; destruct Hu as [Hx Hu]. destruct x as [s|]; [|discriminate].
      eapply LA_ws_insert; [apply (IH Hu p H) | reflexivity | exact Hx].
    - specialize (IH Hu (p ++ [x])). rewrite <- !app_assoc in IH; cbn in IH. apply IH; exact H. }
  intros Hu H; apply (Gen u v w Hm Hu [] H).
Qed.

(** ** no attributes *)
Lemma noatt_nil X : noatt defs X -> forall a w, LA a w X -> a = [].
Proof.
  induction 1 as [|x l Hx IHx Hl IHl| |x l Hx IHx Hl IHl| |x l Hx IHx Hl IHl|p Hp IH| | | |p Hp IH|p Hp IH|p Hp IH|nc p|r X Hb HX IH|v|d e|p];
    intros a w H; try (inversion H; subst; try reflexivity; fail).
  - rewrite LA_ch0 in H; destruct H.
  - rewrite LA_ch_inv in H; destruct H; eauto.
  - destruct l as [|y l]; [rewrite LA_gr1_inv in H; eauto|]. rewrite LA_gr_inv in H. destruct H as (a1 & a2 & w1 & w2 & _ & Hm & H1 & H2).
    rewrite (IHx _ _ H1), (IHl _ _ H2) in Hm. inversion Hm; reflexivity.
  - destruct l as [|y l]; [rewrite LA_in1_inv in H; eauto|]. rewrite LA_in_inv in H. destruct H as (a1 & a2 & w1 & w2 & _ & Hm & H1 & H2).
    rewrite (IHx _ _ H1), (IHl _ _ H2) in Hm. inversion Hm; reflexivity.
  - rewrite LA_mixed_inv in H. destruct H as (w1 & w2 & _ & H & _); eauto.
  - rewrite LA_opt_inv in H; destruct H as [H|[-> _]]; eauto.
  - rewrite LA_zero_inv in H; destruct H as [H|[-> _]]; [|reflexivity]. rewrite LA_more_inv in H.
    induction H as [a w HR|w1 w2 HR HM IHM|x a1 a2 a w1 w2 HR HM IHM Hm]; eauto. apply IH in HR; discriminate HR.
  - rewrite LA_more_inv in H. induction H as [a w HR|w1 w2 HR HM IHM|x a1 a2 a w1 w2 HR HM IHM Hm]; eauto. apply IH in HR; discriminate HR.
  - apply (LA_ref_inv O defs r X a w Hb) in H; eauto.
Qed.

(** ** one-or-more with single attributes *)
Definition unit_atts (R : list attr -> list item -> Prop) : Prop :=
  forall a w, R a w -> (forall x, In x a -> R [x] []) /\ (a = [] \/ all_ws w = true \/ More R [] w).
Lemma More_mono (R S : list attr -> list item -> Prop) a w : (forall a w, R a w -> S a w) -> More R a w -> More S a w.
Proof. intros H; induction 1; [apply More_one | apply More_nil | eapply More_cons]; eauto. Qed.
Lemma More_join (R : list attr -> list item -> Prop) : forall a w, More (More R) a w -> a = [] -> More R [] w.
Proof.
  assert (App : forall w1, forall a, More R a w1 -> a = [] -> forall w2, More R [] w2 -> More R [] (w1 ++ w2)).
  { intros w1 a H; induction H as [a w HR|u1 u2 HR HM IHM|x a1 a2 a u1 u2 HR HM IHM Hm]; intros Ea v2 H2.
    - subst a; apply More_nil; assumption.
    - rewrite <- app_assoc. apply More_nil; [exact HR | apply IHM; [reflexivity | exact H2]].
    - discriminate Ea. }
  intros a w H; induction H as [a w HR|w1 w2 HR HM IHM|x a1 a2 a w1 w2 HR HM IHM Hm]; intros Ea; [subst; exact HR | | discriminate Ea].
  eapply App; [exact HR | reflexivity | apply IHM; reflexivity].
Qed.
Lemma merge_in {A} (x : A) a b c : merge a b c -> In x c -> In x a \/ In x b.
Proof. induction 1; cbn; [tauto|intros [->|H']; [auto | destruct (IHmerge H'); auto]|intros [->|H']; [auto | destruct (IHmerge H'); auto]]. Qed.
Definition ws_closed (R : list attr -> list item -> Prop) : Prop :=
  forall a u w, R a w -> all_ws u = true -> R a (u ++ w) /\ R a (w ++ u).
Lemma More_ws_l R u w : ws_closed R -> all_ws u = true -> More R [] w -> More R [] (u ++ w).
Proof.
  intros HC Hu H. remember [] as a eqn:Ea. destruct H as [a w HR|w1 w2 HR HM|x a1 a2 a w1 w2 HR HM Hm]; [subst| |discriminate Ea].
  - apply More_one. exact (proj1 (HC _ u w HR Hu)).
  - rewrite app_assoc. apply More_nil; [exact (proj1 (HC _ u w1 HR Hu)) | exact HM].
Qed.
Lemma More_ws_r R u : ws_closed R -> all_ws u = true -> forall a w, More R a w -> More R a (w ++ u).
Proof.
  intros HC Hu a w H. induction H as [a w HR|w1 w2 HR HM IH|x a1 a2 a w1 w2 HR HM IH Hm].
  - apply More_one. exact (proj2 (HC a u w HR Hu)).
  - rewrite <- app_assoc. apply More_nil; assumption.
  - rewrite <- app_assoc. eapply More_cons; eassumption.
Qed.
Lemma More_app_nil R w1 w2 : More R [] w1 -> More R [] w2 -> More R [] (w1 ++ w2).
Proof.
  intros H H2. remember [] as a eqn:Ea in H. induction H as [a w HR|u1 u2 HR HM IHM|x a1 a2 a u1 u2 HR HM IHM Hm]; [subst | | discriminate Ea].
  - apply More_nil; assumption.
  - rewrite <- app_assoc. apply More_nil; auto.
Qed.
(** tail of a repetition: blanks, or more matches without attributes *)
Definition rest_ok (R : list attr -> list item -> Prop) (w : list item) : Prop := all_ws w = true \/ More R [] w.
Lemma rest_app R w1 w2 : ws_closed R -> rest_ok R w1 -> rest_ok R w2 -> rest_ok R (w1 ++ w2).
Proof.
  intros HC [H1|H1] [H2|H2].
  - left; rewrite all_ws_app, H1, H2; reflexivity.
  - right; apply More_ws_l; assumption.
  - right; apply More_ws_r; assumption.
  - right; apply More_app_nil; assumption.
Qed.
Lemma More_units R a w : unit_atts R -> ws_closed R -> More R a w -> a <> [] ->
  (forall x, In x a -> R [x] []) /\ rest_ok R w.
Proof.
  intros HU HC H Hne.
  assert (Hall : (forall x, In x a -> R [x] []) /\ rest_ok R w).
  { clear Hne; induction H as [a w HR|w1 w2 HR HM IH|x a1 a2 a w1 w2 HR HM IH Hm].
    - destruct (HU _ _ HR) as [H1 H2]. split; [exact H1|]. destruct H2 as [->|[H2|H2]]; [right; apply More_one; exact HR | left; exact H2 | right; exact H2].
    - destruct IH as [_ IH]. split; [intros y []|]. apply rest_app; [exact HC | right; apply More_one; exact HR | exact IH].
    - destruct (HU _ _ HR) as [H1 H2]. destruct IH as [IH1 IH2]. split.
      + intros y [<-|Hy]; [apply H1; left; reflexivity|]. destruct (merge_in _ _ _ _ Hm Hy) as [Hy'|Hy']; [apply H1; right; exact Hy' | auto].
      + apply rest_app; [exact HC | | exact IH2]. destruct H2 as [E|[H2|H2]]; [discriminate E | left; exact H2 | right; exact H2]. }
  exact Hall.
Qed.
Lemma units_More R a w : ws_closed R -> a <> [] -> (forall x, In x a -> R [x] []) -> rest_ok R w -> More R a w.
Proof.
  intros HC. revert w; induction a as [|x a IH]; intros w Hne Hx Hr; [congruence|]. destruct a as [|y a].
  - destruct Hr as [Hr|Hr].
    + apply More_one. change w with ([] ++ w). refine (proj2 (HC _ w [] _ Hr)). apply Hx; left; reflexivity.
    + change w with ([] ++ w). eapply More_cons; [apply Hx; left; reflexivity | exact Hr | constructor].
  - change w with ([] ++ w). eapply More_cons; [apply Hx; left; reflexivity | | apply merge_nil_l].
    apply IH; [discriminate | intros z Hz; apply Hx; right; exact Hz | exact Hr].
Qed.
Lemma LA_ws_closed X : ws_closed (fun a w => LA a w X).
Proof. intros a u w H Hu; split; [apply LA_ws_app_l | apply LA_ws_app_r]; assumption. Qed.
Lemma unit_sub (R S : list attr -> list item -> Prop) a w : unit_atts R -> (forall a w, R a w -> S a w) -> R a w ->
  (forall x, In x a -> S [x] []) /\ (a = [] \/ all_ws w = true \/ More S [] w).
Proof.
  intros HU HS HR. destruct (HU _ _ HR) as [H1 H2]. split; [auto|]. destruct H2 as [H2|[H2|H2]]; auto. right; right; eapply More_mono; [exact HS | exact H2].
Qed.
Lemma single_units p : single_atts defs p -> unit_atts (fun a w => LA a w p).
Proof.
  induction 1 as [p Hp|nc p| |x l Hx IHx Hl IHl|x Hx IHx|x Hx IHx|p Hp IH|p Hp IH|p Hp IH|r X Hb HX IH]; intros a w H.
  - pose proof (noatt_nil _ Hp _ _ H) as ->. split; [intros x [] | auto].
  - rewrite LA_attr_inv in H. destruct H as (x & -> & H1 & H2 & H3). split; [|auto]. intros y [<-|[]]. apply A_attr; auto.
  - rewrite LA_ch0 in H; destruct H.
  - rewrite LA_ch_inv in H; destruct H as [H|H].
    + apply (unit_sub _ (fun a w => LA a w (MChoice (x :: l))) a w IHx); [|exact H]. intros b v Hv; rewrite LA_ch_inv; auto.
    + apply (unit_sub _ (fun a w => LA a w (MChoice (x :: l))) a w IHl); [|exact H]. intros b v Hv; rewrite LA_ch_inv; auto.
  - rewrite LA_gr1_inv in H. apply (unit_sub _ (fun a w => LA a w (MGroup [x])) a w IHx); [|exact H]. intros b v Hv; rewrite LA_gr1_inv; auto.
  - rewrite LA_in1_inv in H. apply (unit_sub _ (fun a w => LA a w (MInterleave [x])) a w IHx); [|exact H]. intros b v Hv; rewrite LA_in1_inv; auto.
  - rewrite LA_opt_inv in H; destruct H as [H|[-> H]].
    + apply (unit_sub _ (fun a w => LA a w (MOptional p)) a w IH); [|exact H]. intros b v Hv; rewrite LA_opt_inv; auto.
    + split; [intros x [] | auto].
  - rewrite LA_zero_inv in H; destruct H as [H|[-> H]].
    + rewrite LA_more_inv in H. destruct a as [|x0 a0]; [split; [intros x [] | auto]|].
      destruct (More_units _ _ _ IH (LA_ws_closed p) H ltac:(discriminate)) as [H1 H2]. split.
      * intros x Hx. rewrite LA_zero_inv; left. rewrite LA_more_inv. apply More_one. apply H1; exact Hx.
      * right. destruct H2 as [H2|H2]; [left; exact H2 | right]. eapply More_mono; [|exact H2]. intros b v Hv. rewrite LA_zero_inv; left. rewrite LA_more_inv; apply More_one; exact Hv.
    + split; [intros x [] | auto].
  - rewrite LA_more_inv in H. destruct a as [|x0 a0]; [split; [intros x [] | auto]|].
    destruct (More_units _ _ _ IH (LA_ws_closed p) H ltac:(discriminate)) as [H1 H2]. split.
    + intros x Hx. rewrite LA_more_inv. apply More_one. apply H1; exact Hx.
    + right. destruct H2 as [H2|H2]; [left; exact H2 | right]. eapply More_mono; [|exact H2]. intros b v Hv. rewrite LA_more_inv; apply More_one; exact Hv.
  - apply (LA_ref_inv O defs r X a w Hb) in H. apply (unit_sub _ (fun a w => LA a w (MRef r)) a w IH); [|exact H]. intros b v Hv; apply (LA_ref_inv O defs r X b v Hb); auto.
Qed.

(** bag union under one-or-more *)
Lemma more_perm p a a' w : single_atts defs p -> LA a w (MOneOrMore p) -> Permutation a a' -> LA a' w (MOneOrMore p).
Proof.
  intros Hs H HP. destruct a as [|x a]; [apply Permutation_nil in HP; subst; exact H|].
  rewrite LA_more_inv in H. destruct (More_units _ _ _ (single_units p Hs) (LA_ws_closed p) H ltac:(discriminate)) as [H1 H2].
  rewrite LA_more_inv; apply units_More; [apply LA_ws_closed | | | exact H2].
  - intros ->. apply Permutation_sym, Permutation_nil in HP; discriminate HP.
  - intros y Hy. apply H1. eapply Permutation_in; [symmetry; exact HP | exact Hy].
Qed.
Lemma more_union p a1 a2 w1 w2 : single_atts defs p -> LA a1 w1 p -> LA a2 w2 (MOneOrMore p) -> LA (a1 ++ a2) (w1 ++ w2) (MOneOrMore p).
Proof.
  intros Hs H1 H2. pose proof (single_units p Hs) as HU. pose proof (LA_ws_closed p) as HC.
  destruct (a1 ++ a2) as [|x a] eqn:E.
  - apply app_eq_nil in E; destruct E as [-> ->]. apply A_more_nil; assumption.
  - rewrite <- E. rewrite LA_more_inv in H2. rewrite LA_more_inv; apply units_More; [exact HC | rewrite E; discriminate | |].
    + intros y Hy. apply in_app_or in Hy; destruct Hy as [Hy|Hy]; [exact (proj1 (HU _ _ H1) y Hy)|].
      destruct a2 as [|z a2]; [destruct Hy|]. apply (More_units _ _ _ HU HC H2 ltac:(discriminate)); exact Hy.
    + apply rest_app; [exact HC | |].
      * destruct (HU _ _ H1) as [_ [->|[H|H]]]; [right; apply More_one; exact H1 | left; exact H | right; exact H].
      * destruct a2 as [|z a2]; [right; exact H2|]. apply (More_units _ _ _ HU HC H2 ltac:(discriminate)).
Qed.

(** ** attribute order does not matter *)
Hypothesis Hrestr : forall r X, deref defs r = Some X -> restr defs X.
Lemma restr_mkl_in l x : (fix go (l : list mpat) : Prop := match l with [] => True | x :: l' => restr defs x /\ go l' end) l -> In x l -> restr defs x.
Proof. induction l as [|y l IH]; intros H Hin; [destruct Hin|]. destruct Hin as [<-|Hin]; [apply H | apply IH; [apply H | exact Hin]]. Qed.
Theorem LA_perm X a w : LA a w X -> restr defs X -> forall a', Permutation a a' -> LA a' w X.
Proof.
  induction 1 as [x l a w Hin Hx IH|x a w Hx IH|x y l a1 a2 a u1 u2 Hm Hx IHx Hl IHl|x a w Hx IH|x y l a1 a2 a u1 u2 w Hm Hmw Hx IHx Hl IHl
    |p a u1 u2 w Hp IH Ht Hmw|p a w Hp IH|p w Hw|p a w Hp IH|p w Hw|p a w Hp IH|p u1 u2 Hp IHp Hq IHq|p x a1 a2 a u1 u2 Hp IHp Hq IHq Hm
    |w Hw|w Hw|nc p x w Hc Hv Hw|nc p nm a k u1 u2 Hc Hk IH H1 H2|r X a w Hb HX IH|d s0 u1 u2 Hd H1 H2|v s0 u1 u2 Hd H1 H2|d e s0 u1 u2 Hd He H1 H2
    |p ss Hne Hp IH]; intros HS a' HP;
    try (apply Permutation_nil in HP; subst a'; econstructor; eassumption).
  - econstructor; [exact Hin | apply IH; [eapply restr_mkl_in; [apply HS | exact Hin] | exact HP]].
  - constructor. apply IH; [apply HS | exact HP].
  - destruct (merge_perm_inv _ _ HP _ _ Hm) as (b1 & b2 & Hm' & P1 & P2). eapply A_gr; [exact Hm' | apply IHx; [apply HS | exact P1]|].
    apply IHl; [split; [discriminate | apply HS] | exact P2].
  - constructor. apply IH; [apply HS | exact HP].
  - destruct (merge_perm_inv _ _ HP _ _ Hm) as (b1 & b2 & Hm' & P1 & P2). eapply A_in; [exact Hm' | exact Hmw | apply IHx; [apply HS | exact P1]|].
    apply IHl; [split; [discriminate | apply HS] | exact P2].
  - eapply A_mixed; [apply IH; [exact HS | exact HP] | exact Ht | exact Hmw].
  - apply A_opt1, IH; assumption.
  - apply A_zero1, IH; assumption.
  - apply A_one. apply IH; [apply HS | exact HP].
  - eapply more_perm; [apply HS | eapply A_more_cons; eassumption | exact HP].
  - apply Permutation_length_1_inv in HP; subst a'. apply A_attr; assumption.
  - eapply A_ref; [exact Hb | apply IH; [eapply Hrestr; exact Hb | exact HP]].
Qed.
End Facts.
