(** * Split: character data in several pieces.

    The tokenizer delivers character data in pieces: text, CDATA sections and text after a comment
    are separate tokens.  In content without data, value or list the pieces match as their
    concatenation does. *)
From Coq Require Import Permutation.
From Verif Require Import Base Datatype Store Deriv Events Lang LangFacts Wp Compile Schema LangA Spec SpecFacts Sound Scope Infoset InfosetProof.

Lemma ws_app s s' : is_whitespace_str (s ++ s') = is_whitespace_str s && is_whitespace_str s'.
Proof. unfold is_whitespace_str. apply forallb_app. Qed.
Lemma merge_split_l {A} (w1 w2 u v : list A) x : merge w1 w2 (u ++ x :: v) ->
  (exists u1 v1 u2 v2, w1 = u1 ++ x :: v1 /\ w2 = u2 ++ v2 /\ merge u1 u2 u /\ merge v1 v2 v) \/
  (exists u1 v1 u2 v2, w1 = u1 ++ v1 /\ w2 = u2 ++ x :: v2 /\ merge u1 u2 u /\ merge v1 v2 v).
Proof.
  revert w1 w2. induction u as [|y u IH]; intros w1 w2 H; cbn in H.
  - inversion H as [|x' a b c Hm|x' a b c Hm]; subst.
    + left. exists [], a, [], w2. repeat split; [constructor | exact Hm].
    + right. exists [], w1, [], b. repeat split; [constructor | exact Hm].
  - inversion H as [|x' a b c Hm|x' a b c Hm]; subst; destruct (IH _ _ Hm) as [(u1 & v1 & u2 & v2 & -> & -> & H1 & H2)|(u1 & v1 & u2 & v2 & -> & -> & H1 & H2)].
    + left. exists (y :: u1), v1, u2, v2. repeat split; [constructor; exact H1 | exact H2].
    + right. exists (y :: u1), v1, u2, v2. repeat split; [constructor; exact H1 | exact H2].
    + left. exists u1, v1, (y :: u2), v2. repeat split; [constructor; exact H1 | exact H2].
    + right. exists u1, v1, (y :: u2), v2. repeat split; [constructor; exact H1 | exact H2].
Qed.
Lemma merge_app2 {A} (a b c a' b' c' : list A) : merge a b c -> merge a' b' c' -> merge (a ++ a') (b ++ b') (c ++ c').
Proof. induction 1; cbn; intros; [assumption | constructor; auto | constructor; auto]. Qed.
Lemma merge_all_l {A} (l : list A) : merge l [] l.
Proof. induction l; constructor; assumption. Qed.
Lemma merge_all_r {A} (l : list A) : merge [] l l.
Proof. induction l; constructor; assumption. Qed.
Lemma app_elt {A} (w1 w2 u v : list A) x : w1 ++ w2 = u ++ x :: v ->
  (exists v1, w1 = u ++ x :: v1 /\ v = v1 ++ w2) \/ (exists u2, w2 = u2 ++ x :: v /\ u = w1 ++ u2).
Proof.
  revert u. induction w1 as [|y w1 IH]; intros u E; cbn in E.
  - right. exists u. auto.
  - destruct u as [|z u]; cbn in E; injection E as <- E.
    + left. exists w1. subst; auto.
    + destruct (IH _ E) as [(v1 & -> & ->)|(u2 & -> & ->)]; [left; exists v1; auto | right; exists u2; auto].
Qed.
Lemma all_txt_map l : all_txt (map Txt l) = true.
Proof. induction l; cbn; auto. Qed.

Section Split.
Variable O : oracles.
Variable defs : list mpat.
Notation LA := (LA O defs).
Notation CT := (CT defs).

(** one piece of text replaced by others: by blanks if it may be a blank itself *)
Definition swap (s : str) (l : list str) : Prop := is_whitespace_str s = false \/ all_ws (map Txt l) = true.
Definition swappable (R : list attr -> list item -> Prop) : Prop :=
  forall a u s v l, R a (u ++ Txt s :: v) -> swap s l -> R a (u ++ map Txt l ++ v).
Lemma swap_ws u s v l : all_ws (u ++ Txt s :: v) = true -> swap s l -> all_ws (u ++ map Txt l ++ v) = true.
Proof.
  rewrite !all_ws_app. change (all_ws (Txt s :: v)) with (is_whitespace_str s && all_ws v). intros H Hs.
  apply andb_true_iff in H; destruct H as [H1 H]. apply andb_true_iff in H; destruct H as [H2 H3].
  destruct Hs as [Hs|Hs]; [congruence|]. rewrite H1, Hs, H3. reflexivity.
Qed.
Lemma swap_txt u s v l : all_txt (u ++ Txt s :: v) = true -> all_txt (u ++ map Txt l ++ v) = true.
Proof. rewrite !all_txt_app, all_txt_map. cbn [all_txt forallb txt_item]. cbn. auto. Qed.
Lemma swappable_app (R S Q : list attr -> list item -> Prop) : swappable R -> swappable S -> 
  forall a1 a2 w1 w2 u s v l, R a1 w1 -> S a2 w2 -> w1 ++ w2 = u ++ Txt s :: v -> swap s l ->
  exists w1' w2', u ++ map Txt l ++ v = w1' ++ w2' /\ R a1 w1' /\ S a2 w2'.
Proof.
  intros HR HS a1 a2 w1 w2 u s v l H1 H2 E Hs. destruct (app_elt _ _ _ _ _ E) as [(v1 & -> & ->)|(u2 & -> & ->)].
  - exists (u ++ map Txt l ++ v1), w2. rewrite <- !app_assoc. split; [reflexivity|]. split; [eapply HR; eassumption | exact H2].
  - exists w1, (u2 ++ map Txt l ++ v). rewrite <- !app_assoc. split; [reflexivity|]. split; [exact H1 | eapply HS; eassumption].
Qed.
Lemma swappable_merge (R S : list attr -> list item -> Prop) : swappable R -> swappable S -> 
  forall a1 a2 w1 w2 u s v l, R a1 w1 -> S a2 w2 -> merge w1 w2 (u ++ Txt s :: v) -> swap s l ->
  exists w1' w2', merge w1' w2' (u ++ map Txt l ++ v) /\ R a1 w1' /\ S a2 w2'.
Proof.
  intros HR HS a1 a2 w1 w2 u s v l H1 H2 E Hs.
  destruct (merge_split_l _ _ _ _ _ E) as [(u1 & v1 & u2 & v2 & -> & -> & M1 & M2)|(u1 & v1 & u2 & v2 & -> & -> & M1 & M2)].
  - exists (u1 ++ map Txt l ++ v1), (u2 ++ v2). split; [|split; [eapply HR; eassumption | exact H2]].
    apply merge_app2; [exact M1|]. change v2 with ([] ++ v2). apply merge_app2; [apply merge_all_l | exact M2].
  - exists (u1 ++ v1), (u2 ++ map Txt l ++ v2). split; [|split; [exact H1 | eapply HS; eassumption]].
    apply merge_app2; [exact M1|]. change v1 with ([] ++ v1). apply merge_app2; [apply merge_all_r | exact M2].
Qed.
Lemma swappable_more R : swappable R -> swappable (More R).
Proof.
  intros HR a u s v l H Hs. remember (u ++ Txt s :: v) as w eqn:E. revert u v E.
  induction H as [a w H|w1 w2 H1 H2 IH|x a1 a2 a w1 w2 H1 H2 IH Hm]; intros u v E.
  - apply More_one. subst w. eapply HR; eassumption.
  - destruct (app_elt _ _ _ _ _ E) as [(v1 & -> & ->)|(u2 & -> & ->)].
    + replace (u ++ map Txt l ++ v1 ++ w2) with ((u ++ map Txt l ++ v1) ++ w2) by (rewrite <- !app_assoc; reflexivity).
      apply More_nil; [eapply HR; eassumption | exact H2].
    + rewrite <- app_assoc. apply More_nil; [exact H1 | apply IH; reflexivity].
  - destruct (app_elt _ _ _ _ _ E) as [(v1 & -> & ->)|(u2 & -> & ->)].
    + replace (u ++ map Txt l ++ v1 ++ w2) with ((u ++ map Txt l ++ v1) ++ w2) by (rewrite <- !app_assoc; reflexivity).
      eapply More_cons; [eapply HR; eassumption | exact H2 | exact Hm].
    + rewrite <- app_assoc. eapply More_cons; [exact H1 | apply IH; reflexivity | exact Hm].
Qed.

Lemma LA_swap t X : CT t X -> t <> TA -> swappable (fun a w => LA a w X).
Proof.
  induction 1 as [X HX IH|X HX IH|t x Hx IH|t x y l Hx IHx Hl IHl|t x Hx IH|t x y l Ht Hx IHx Hl IHl|x y l Hx IHx Hl IHl|x y l Hx IHx Hl IHl
    |t x Hx IH|t x y l Ht Hx IHx Hl IHl|x y l Hx IHx Hl IHl|x y l Hx IHx Hl IHl|p Hp IH| | | |t p Hp IH|t p Ht Hp IH|t p Ht Hp IH|nc p Hp IH|nc p|t r X Hb HX IH
    |v|d e|p Hp]; intros Et; try congruence; intros a u s w l' H Hs.
  - exact (IH ltac:(discriminate) a u s w l' H Hs).
  - rewrite LA_ch_inv, LA_ch0 in *. destruct H as [H|[]]. left. exact (IH Et a u s w l' H Hs).
  - rewrite LA_ch_inv in *. destruct H as [H|H]; [left; exact (IHx Et a u s w l' H Hs) | right; exact (IHl Et a u s w l' H Hs)].
  - rewrite LA_gr1_inv in *. exact (IH Et a u s w l' H Hs).
  - rewrite LA_gr_inv in *. destruct H as (a1 & a2 & w1 & w2 & E & Hm & H1 & H2).
    destruct (swappable_app _ _ (fun _ _ => True) (IHx Et) (IHl Et) _ _ _ _ _ _ _ _ H1 H2 (eq_sym E) Hs) as (w1' & w2' & E' & H1' & H2').
    exists a1, a2, w1', w2'. auto.
  - rewrite LA_in1_inv in *. exact (IH Et a u s w l' H Hs).
  - rewrite LA_in_inv in *. destruct H as (a1 & a2 & w1 & w2 & E & Hm & H1 & H2).
    destruct (swappable_merge _ _ (IHx Et) (IHl Et) _ _ _ _ _ _ _ _ H1 H2 E Hs) as (w1' & w2' & E' & H1' & H2').
    exists a1, a2, w1', w2'. auto.
  - rewrite LA_mixed_inv in *. destruct H as (w1 & w2 & E & H1 & H2).
    assert (HT : swappable (fun (_ : list attr) w => all_txt w = true)) by (intros a0 u0 s0 v0 l0 H0 _; eapply swap_txt; exact H0).
    destruct (swappable_merge _ _ (IH Et) HT a [] _ _ _ _ _ _ H1 H2 E Hs) as (w1' & w2' & E' & H1' & H2'). exists w1', w2'. auto.
  - rewrite LA_empty_inv in *. destruct H as [-> H]. split; [reflexivity | eapply swap_ws; eassumption].
  - rewrite LA_na_inv in H. destruct H.
  - rewrite LA_text_inv in *. destruct H as [-> H]. split; [reflexivity | eapply swap_txt; eassumption].
  - rewrite LA_opt_inv in *. destruct H as [H|[-> H]]; [left; exact (IH Et a u s w l' H Hs) | right; split; [reflexivity | eapply swap_ws; eassumption]].
  - rewrite LA_zero_inv, LA_more_inv in *. destruct H as [H|[-> H]]; [left | right; split; [reflexivity | eapply swap_ws; eassumption]].
    exact (swappable_more _ (IH Et) a u s w l' H Hs).
  - rewrite LA_more_inv in *. exact (swappable_more _ (IH Et) a u s w l' H Hs).
  - rewrite LA_attr_inv in *. destruct H as (x & -> & H1 & H2 & H3). exists x. split; [reflexivity|]. split; [exact H1|]. split; [eapply swap_ws; eassumption | exact H3].
  - rewrite LA_elem_inv in *. destruct H as (-> & nm & b & k & w1 & w2 & E & Hc & H1 & Hw1 & Hw2). split; [reflexivity|].
    destruct (app_elt _ _ _ _ _ (eq_sym E)) as [(v1 & -> & ->)|(u2 & E2 & ->)].
    + exists nm, b, k, (u ++ map Txt l' ++ v1), w2. rewrite <- !app_assoc. split; [reflexivity|]. split; [exact Hc|]. split; [exact H1|]. split; [eapply swap_ws; eassumption | exact Hw2].
    + destruct u2 as [|i u2]; cbn in E2; [discriminate E2|]. injection E2 as <- ->.
      exists nm, b, k, w1, (u2 ++ map Txt l' ++ w). rewrite <- !app_assoc. split; [reflexivity|]. split; [exact Hc|]. split; [exact H1|]. split; [exact Hw1 | eapply swap_ws; eassumption].
  - apply (LA_ref_inv O defs r X _ _ Hb). apply (LA_ref_inv O defs r X _ _ Hb) in H. exact (IH Et a u s w l' H Hs).
Qed.

(** joining *)
Section Join.
Variable R : list attr -> list item -> Prop.
Hypothesis HR : swappable R.
Hypothesis HI : forall a u v s, R a (u ++ v) -> is_whitespace_str s = true -> R a (u ++ Txt s :: v).
Lemma drop_txt a u s v : R a (u ++ Txt s :: v) -> R a (u ++ v).
Proof. intros H. apply (HR a u s v [] H). right; reflexivity. Qed.
Lemma join_two a u s s' v : R a (u ++ Txt s :: Txt s' :: v) <-> R a (u ++ Txt (s ++ s') :: v).
Proof.
  split; intros H.
  - destruct (is_whitespace_str s) eqn:E1.
    + apply drop_txt in H. destruct (is_whitespace_str s') eqn:E2.
      * apply drop_txt in H. apply HI; [exact H | rewrite ws_app, E1, E2; reflexivity].
      * apply (HR a u s' v [s ++ s'] H). left; exact E2.
    + replace (u ++ Txt s :: Txt s' :: v) with ((u ++ [Txt s]) ++ Txt s' :: v) in H by (rewrite <- app_assoc; reflexivity).
      apply drop_txt in H. rewrite <- app_assoc in H. apply (HR a u s v [s ++ s'] H). left; exact E1.
  - destruct (is_whitespace_str (s ++ s')) eqn:E.
    + rewrite ws_app in E. apply andb_true_iff in E; destruct E as [E1 E2]. apply drop_txt in H. apply HI; [|exact E1]. apply HI; [exact H | exact E2].
    + apply (HR a u (s ++ s') v [s; s'] H). left; exact E.
Qed.
Lemma joined_iff w : forall a u, R a (u ++ w) <-> R a (u ++ joined w).
Proof.
  induction w as [|[s|n b k] w IH]; intros a u; [reflexivity| |].
  - replace (u ++ Txt s :: w) with ((u ++ [Txt s]) ++ w) by (rewrite <- app_assoc; reflexivity). rewrite IH, <- app_assoc. cbn [joined app].
    destruct (joined w) as [|[s'|n' b' k'] r].
    + destruct s; [|reflexivity]. split; [apply drop_txt | intros H; apply HI; [exact H | reflexivity]].
    + apply join_two.
    + destruct s; [|reflexivity]. split; [apply drop_txt | intros H; apply HI; [exact H | reflexivity]].
  - replace (u ++ Elm n b k :: w) with ((u ++ [Elm n b k]) ++ w) by (rewrite <- app_assoc; reflexivity). rewrite IH, <- app_assoc. reflexivity.
Qed.
End Join.
Lemma LA_joined t X a w : CT t X -> t <> TA -> (LA a w X <-> LA a (joined w) X).
Proof.
  intros HC Ht. apply (joined_iff _ (LA_swap t X HC Ht)) with (u := []).
  intros a0 u v s H Hs. eapply LA_ws_insert; [exact H | reflexivity | exact Hs].
Qed.

(** ** whole trees *)
Lemma whole_ok k : whole k = true <-> children_ok k.
Proof. rewrite whole_iff. unfold children_ok. tauto. Qed.
Lemma joined_whole k : children_ok k -> joined k = k.
Proof. 
  intros [H1 H2]. induction k as [|[s|n a b] k IH]; cbn [joined]; [reflexivity| |].
  - destruct k as [|[s'|] k]; [destruct s; [destruct H1; left; reflexivity | reflexivity] | destruct H2|].
    rewrite IH; [|intros H; apply H1; right; exact H | exact H2]. destruct s; [destruct H1; left; reflexivity | reflexivity].
  - rewrite IH; [reflexivity | intros H; apply H1; right; exact H | exact H2].
Qed.

Variable Q : list qname.
Definition split_here (i : item) : Prop := incl (pieces i) Q.
Hypothesis Hdefs : forall r X, deref defs r = Some X -> all_elems (fun nc p => forall q, In q Q -> in_class nc q -> CT TN p) X.
Notation ok X := (all_elems (fun nc p => forall q, In q Q -> in_class nc q -> CT TN p) X).

Lemma merged_merge_inv w1 w2 w : merge w1 w2 (map merged w) -> exists u1 u2, merge u1 u2 w /\ w1 = map merged u1 /\ w2 = map merged u2.
Proof.
  revert w1 w2. induction w as [|x w IH]; cbn; intros w1 w2 H; inversion H as [|x' a b c Hm|x' a b c Hm]; subst.
  - exists [], []. repeat split; constructor.
  - destruct (IH _ _ Hm) as (u1 & u2 & M1 & -> & ->). exists (x :: u1), u2. repeat split; constructor; exact M1.
  - destruct (IH _ _ Hm) as (u1 & u2 & M1 & -> & ->). exists u1, (x :: u2). repeat split; constructor; exact M1.
Qed.
Lemma merged_merge u1 u2 w : merge u1 u2 w -> merge (map merged u1) (map merged u2) (map merged w).
Proof. induction 1; cbn; constructor; assumption. Qed.
Lemma merged_ws w : all_ws (map merged w) = all_ws w.
Proof. unfold all_ws. induction w as [|[s|] w IH]; cbn; [reflexivity | rewrite <- IH; reflexivity | reflexivity]. Qed.
Lemma merged_txt w : all_txt (map merged w) = all_txt w.
Proof. unfold all_txt. induction w as [|[s|] w IH]; cbn; [reflexivity | rewrite <- IH; reflexivity | reflexivity]. Qed.
Lemma map_app_inv {A B} (f : A -> B) w w1 w2 : map f w = w1 ++ w2 -> exists u1 u2, w = u1 ++ u2 /\ w1 = map f u1 /\ w2 = map f u2.
Proof.
  revert w1. induction w as [|x w IH]; intros w1 E; cbn in E.
  - symmetry in E. apply app_eq_nil in E. destruct E as [-> ->]. exists [], []. auto.
  - destruct w1 as [|y w1]; cbn in E.
    + subst w2. exists [], (x :: w). auto.
    + injection E as <- E. destruct (IH _ E) as (u1 & u2 & -> & -> & ->). exists (x :: u1), u2. auto.
Qed.
Lemma map_elt_inv w w1 x w2 : map merged w = w1 ++ x :: w2 -> exists u1 i u2, w = u1 ++ i :: u2 /\ w1 = map merged u1 /\ x = merged i /\ w2 = map merged u2.
Proof.
  intros E. destruct (map_app_inv _ _ _ _ E) as (u1 & u2 & -> & -> & E2). destruct u2 as [|i u2]; [discriminate E2|]. cbn in E2. injection E2 as -> ->.
  exists u1, i, u2. auto.
Qed.
Lemma all_elems_in P l x : (fix go (l : list mpat) : Prop := match l with [] => True | x :: l' => all_elems P x /\ go l' end) l -> In x l -> all_elems P x.
Proof. induction l as [|y l IH]; intros H Hin; [destruct Hin|]. destruct H as [H1 H2], Hin as [->|Hin]; auto. Qed.
Lemma pieces_elm n a k : incl (pieces (Elm n a k)) Q -> (whole k = false -> In n Q) /\ Forall split_here k.
Proof.
  intros H. cbn in H. split.
  - intros E. rewrite E in H. apply H. left; reflexivity.
  - apply Forall_forall. intros i Hi q Hq. apply H. apply in_or_app. right. apply in_flat_map. exists i. auto.
Qed.
Lemma joined_content p n nc a k (w : list item) : ok (MElement nc p) -> contains nc n = true -> (whole k = false -> In n Q) ->
  (LA a (map merged k) p <-> LA a (joined (map merged k)) p).
Proof.
  intros [Ho _] Hc Hw. destruct (whole k) eqn:E.
  - rewrite joined_whole; [reflexivity|]. apply whole_ok. rewrite whole_merged. exact E.
  - apply (LA_joined TN); [|discriminate]. apply (Ho n); [apply Hw; reflexivity | apply contains_in_class; exact Hc].
Qed.
Lemma Forall_merge {A} (P : A -> Prop) u v w : merge u v w -> Forall P w -> Forall P u /\ Forall P v.
Proof.
  induction 1 as [|x a b c H IH|x a b c H IH]; intros HS; [split; constructor| |]; inversion HS; subst; destruct (IH ltac:(assumption)) as [I1 I2]; split; try assumption; constructor; assumption.
Qed.

Lemma LA_merged_to a w X : LA a w X -> ok X -> Forall split_here w -> LA a (map merged w) X.
Proof.
  induction 1 as [x l a w Hin Hx IH|x a w Hx IH|x y l a1 a2 a u1 u2 Hm Hx IHx Hl IHl|x a w Hx IH|x y l a1 a2 a u1 u2 w Hm Hmw Hx IHx Hl IHl
    |p a w1 w2 w Hp IH H2 Hmw|p a w Hp IH|p w Hw|p a w Hp IH|p w Hw|p a w Hp IH|p w1 w2 H1 IH1 H2 IH2|p x a1 a2 a w1 w2 H1 IH1 H2 IH2 Hm
    |w Hw|w Hw|nc p x w Hc Hv Hw|nc p nm a k w1 w2 Hc Hk IHk Hw1 Hw2|r X a w Hb HX IH|d s w1 w2 Hd Hw1 Hw2|v s w1 w2 Hd Hw1 Hw2|d e s w1 w2 Hd He Hw1 Hw2|p ss Hne Hp IH];
    intros HO HF.
  - eapply A_ch; [exact Hin|]. apply IH; [eapply all_elems_in; [exact HO | exact Hin] | exact HF].
  - apply A_gr1, IH; [apply HO | exact HF].
  - rewrite map_app. apply Forall_app in HF; destruct HF. eapply A_gr; [exact Hm | apply IHx; [apply HO | assumption] | apply IHl; [apply HO | assumption]].
  - apply A_in1, IH; [apply HO | exact HF].
  - destruct (Forall_merge _ _ _ _ Hmw HF). eapply A_in; [exact Hm | apply merged_merge; exact Hmw | apply IHx; [apply HO | assumption] | apply IHl; [apply HO | assumption]].
  - destruct (Forall_merge _ _ _ _ Hmw HF). eapply A_mixed; [apply IH; [apply HO | assumption] | rewrite merged_txt; exact H2 | apply merged_merge; exact Hmw].
  - apply A_opt1, IH; assumption.
  - apply A_opt0. rewrite merged_ws; exact Hw.
  - apply A_zero1, IH; assumption.
  - apply A_zero0. rewrite merged_ws; exact Hw.
  - apply A_one, IH; assumption.
  - rewrite map_app. apply Forall_app in HF; destruct HF. apply A_more_nil; auto.
  - rewrite map_app. apply Forall_app in HF; destruct HF. eapply A_more_cons; [apply IH1; assumption | apply IH2; assumption | exact Hm].
  - apply A_empty. rewrite merged_ws; exact Hw.
  - apply A_text. rewrite merged_txt; exact Hw.
  - apply A_attr; [exact Hc | exact Hv | rewrite merged_ws; exact Hw].
  - rewrite map_app. cbn [map merged]. apply Forall_app in HF; destruct HF as [_ HF]. inversion HF as [|? ? Hi _]; subst. destruct (pieces_elm _ _ _ Hi) as [P1 P2].
    apply A_elem; [exact Hc | | rewrite merged_ws; exact Hw1 | rewrite merged_ws; exact Hw2].
    apply (joined_content p nm nc a k w1 HO Hc P1). apply IHk; [apply HO | exact P2].
  - eapply A_ref; [exact Hb | apply IH; [eapply Hdefs; exact Hb | exact HF]].
  - rewrite map_app. apply A_data; [exact Hd | rewrite merged_ws; exact Hw1 | rewrite merged_ws; exact Hw2].
  - rewrite map_app. apply A_value; [exact Hd | rewrite merged_ws; exact Hw1 | rewrite merged_ws; exact Hw2].
  - rewrite map_app. apply A_except; [exact Hd | exact He | rewrite merged_ws; exact Hw1 | rewrite merged_ws; exact Hw2].
  - rewrite map_map. change (fun x : str => merged (Txt x)) with Txt. apply A_list; assumption.
Qed.

Lemma txt_merged w ss : map merged w = map Txt ss -> w = map Txt ss.
Proof.
  revert ss. induction w as [|[s|] w IH]; intros [|s' ss] E; cbn in E; try discriminate E; [reflexivity|]. injection E as -> E. cbn. rewrite (IH _ E). reflexivity.
Qed.
Lemma merged_txt_inv i s : Txt s = merged i -> i = Txt s.
Proof. destruct i; cbn; [congruence | discriminate]. Qed.

Lemma LA_merged_from n : forall a w' X, LA a w' X -> forall w, w' = map merged w -> esizes w <= n -> ok X -> Forall split_here w -> LA a w X.
Proof.
  induction n as [n IHn] using lt_wf_ind.
  induction 1 as [x l a w Hin Hx IH|x a w Hx IH|x y l a1 a2 a u1 u2 Hm Hx IHx Hl IHl|x a w Hx IH|x y l a1 a2 a u1 u2 w Hm Hmw Hx IHx Hl IHl
    |p a w1 w2 w Hp IH H2 Hmw|p a w Hp IH|p w Hw|p a w Hp IH|p w Hw|p a w Hp IH|p w1 w2 H1 IH1 H2 IH2|p x a1 a2 a w1 w2 H1 IH1 H2 IH2 Hm
    |w Hw|w Hw|nc p x w Hc Hv Hw|nc p nm a k w1 w2 Hc Hk IHk Hw1 Hw2|r X a w Hb HX IH|d s w1 w2 Hd Hw1 Hw2|v s w1 w2 Hd Hw1 Hw2|d e s w1 w2 Hd He Hw1 Hw2|p ss Hne Hp IH];
    intros w0 E Hn HO HF.
  - eapply A_ch; [exact Hin|]. apply IH; [exact E | exact Hn | eapply all_elems_in; [exact HO | exact Hin] | exact HF].
  - apply A_gr1, IH; [exact E | exact Hn | apply HO | exact HF].
  - symmetry in E. destruct (map_app_inv _ _ _ _ E) as (v1 & v2 & -> & -> & ->). apply Forall_app in HF; destruct HF. rewrite esizes_app in Hn.
    eapply A_gr; [exact Hm | apply IHx; [reflexivity | lia | apply HO | assumption] | apply IHl; [reflexivity | lia | apply HO | assumption]].
  - apply A_in1, IH; [exact E | exact Hn | apply HO | exact HF].
  - subst w. destruct (merged_merge_inv _ _ _ Hmw) as (v1 & v2 & Hv & -> & ->). destruct (Forall_merge _ _ _ _ Hv HF). rewrite (esizes_merge _ _ _ Hv) in Hn.
    eapply A_in; [exact Hm | exact Hv | apply IHx; [reflexivity | lia | apply HO | assumption] | apply IHl; [reflexivity | lia | apply HO | assumption]].
  - subst w. destruct (merged_merge_inv _ _ _ Hmw) as (v1 & v2 & Hv & -> & ->). destruct (Forall_merge _ _ _ _ Hv HF). rewrite (esizes_merge _ _ _ Hv) in Hn.
    rewrite merged_txt in H2. eapply A_mixed; [apply IH; [reflexivity | lia | apply HO | assumption] | exact H2 | exact Hv].
  - apply A_opt1, IH; assumption.
  - apply A_opt0. subst w. rewrite merged_ws in Hw; exact Hw.
  - apply A_zero1, IH; assumption.
  - apply A_zero0. subst w. rewrite merged_ws in Hw; exact Hw.
  - apply A_one, IH; assumption.
  - symmetry in E. destruct (map_app_inv _ _ _ _ E) as (v1 & v2 & -> & -> & ->). apply Forall_app in HF; destruct HF. rewrite esizes_app in Hn.
    apply A_more_nil; [apply IH1; [reflexivity | lia | exact HO | assumption] | apply IH2; [reflexivity | lia | exact HO | assumption]].
  - symmetry in E. destruct (map_app_inv _ _ _ _ E) as (v1 & v2 & -> & -> & ->). apply Forall_app in HF; destruct HF. rewrite esizes_app in Hn.
    eapply A_more_cons; [apply IH1; [reflexivity | lia | exact HO | assumption] | apply IH2; [reflexivity | lia | exact HO | assumption] | exact Hm].
  - apply A_empty. subst w. rewrite merged_ws in Hw; exact Hw.
  - apply A_text. subst w. rewrite merged_txt in Hw; exact Hw.
  - apply A_attr; [exact Hc | exact Hv | subst w; rewrite merged_ws in Hw; exact Hw].
  - symmetry in E. destruct (map_elt_inv _ _ _ _ E) as (v1 & i & v2 & -> & -> & Ei & ->). destruct i as [s|nm' a' k0]; [discriminate Ei|]. cbn in Ei. injection Ei as -> -> ->.
    apply Forall_app in HF; destruct HF as [_ HF]. inversion HF as [|? ? Hi _]; subst. destruct (pieces_elm _ _ _ Hi) as [P1 P2].
    rewrite merged_ws in Hw1, Hw2. rewrite esizes_app in Hn. cbn [esizes] in Hn. rewrite esize_elm in Hn.
    apply A_elem; [exact Hc | | exact Hw1 | exact Hw2].
    apply (joined_content p nm' nc a' k0 v1 HO Hc P1) in Hk.
    apply (IHn (esizes k0) ltac:(lia) a' (map merged k0) p Hk k0 eq_refl (le_n _)); [apply HO | exact P2].
  - eapply A_ref; [exact Hb | apply IH; [exact E | exact Hn | eapply Hdefs; exact Hb | exact HF]].
  - symmetry in E. destruct (map_elt_inv _ _ _ _ E) as (v1 & i & v2 & -> & -> & Ei & ->). apply merged_txt_inv in Ei; subst i. rewrite merged_ws in Hw1, Hw2. apply A_data; assumption.
  - symmetry in E. destruct (map_elt_inv _ _ _ _ E) as (v1 & i & v2 & -> & -> & Ei & ->). apply merged_txt_inv in Ei; subst i. rewrite merged_ws in Hw1, Hw2. apply A_value; assumption.
  - symmetry in E. destruct (map_elt_inv _ _ _ _ E) as (v1 & i & v2 & -> & -> & Ei & ->). apply merged_txt_inv in Ei; subst i. rewrite merged_ws in Hw1, Hw2. apply A_except; assumption.
  - symmetry in E. apply txt_merged in E. subst w0. apply A_list; assumption.
Qed.
Theorem LA_merged a w X : ok X -> Forall split_here w -> (LA a w X <-> LA a (map merged w) X).
Proof.
  intros HO HF. split; [intros H; apply LA_merged_to; assumption|].
  intros H. eapply LA_merged_from; [exact H | reflexivity | apply le_n | exact HO | exact HF].
Qed.
End Split.
