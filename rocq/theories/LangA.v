(** * LangA: the language of [Lang.L] read off the schema instead of the store, and the proof that
    compilation preserves it. *)
From Verif Require Import Base Datatype Store Deriv Events Lang LangFacts Wp Compile Schema CompileProof Final.

(** the closure used by one-or-more *)
Inductive More (R : list attr -> list item -> Prop) : list attr -> list item -> Prop :=
| More_one a w : R a w -> More R a w
| More_nil w1 w2 : R [] w1 -> More R [] w2 -> More R [] (w1 ++ w2)
| More_cons x a1 a2 a w1 w2 : R (x :: a1) w1 -> More R a2 w2 -> merge a1 a2 a -> More R (x :: a) (w1 ++ w2).

Section LA.
Variable O : oracles.
Variable defs : list mpat.
Notation body := (body defs).

Inductive SMA : mpat -> str -> bool -> Prop :=
| SMA_na s : SMA MNotAllowed s false
| SMA_ch1 x s b : SMA x s b -> SMA (MChoice [x]) s b
| SMA_ch x y l s b1 b2 : SMA x s b1 -> SMA (MChoice (y :: l)) s b2 -> SMA (MChoice (x :: y :: l)) s (b1 || b2)
| SMA_data d s b : dt_valid O d s = Ok b -> SMA (MData d None) s b
| SMA_value v s b : dt_value_valid v s = Ok b -> SMA (MValue v) s b
| SMA_except d e s b1 b2 : dt_valid O d s = Ok b1 -> SMA e s b2 -> SMA (MData d (Some e)) s (b1 && negb b2)
| SMA_ref r X s b : body r = Some X -> SMA X s b -> SMA (MRef r) s b.

Inductive LA : list attr -> list item -> mpat -> Prop :=
| A_ch x l a w : In x l -> LA a w x -> LA a w (MChoice l)
| A_gr1 x a w : LA a w x -> LA a w (MGroup [x])
| A_gr x y l a1 a2 a w1 w2 : merge a1 a2 a -> LA a1 w1 x -> LA a2 w2 (MGroup (y :: l)) ->
    LA a (w1 ++ w2) (MGroup (x :: y :: l))
| A_in1 x a w : LA a w x -> LA a w (MInterleave [x])
| A_in x y l a1 a2 a w1 w2 w : merge a1 a2 a -> merge w1 w2 w -> LA a1 w1 x -> LA a2 w2 (MInterleave (y :: l)) ->
    LA a w (MInterleave (x :: y :: l))
| A_mixed p a w1 w2 w : LA a w1 p -> all_txt w2 = true -> merge w1 w2 w -> LA a w (MMixed p)
| A_opt1 p a w : LA a w p -> LA a w (MOptional p)
| A_opt0 p w : all_ws w = true -> LA [] w (MOptional p)
| A_zero1 p a w : LA a w (MOneOrMore p) -> LA a w (MZeroOrMore p)
| A_zero0 p w : all_ws w = true -> LA [] w (MZeroOrMore p)
| A_one p a w : LA a w p -> LA a w (MOneOrMore p)
| A_more_nil p w1 w2 : LA [] w1 p -> LA [] w2 (MOneOrMore p) -> LA [] (w1 ++ w2) (MOneOrMore p)
| A_more_cons p x a1 a2 a w1 w2 : LA (x :: a1) w1 p -> LA a2 w2 (MOneOrMore p) -> merge a1 a2 a ->
    LA (x :: a) (w1 ++ w2) (MOneOrMore p)
| A_empty w : all_ws w = true -> LA [] w MEmpty
| A_text w : all_txt w = true -> LA [] w MText
| A_attr nc p x w : contains nc (a_name x) = true ->
    LA [] [Txt (a_value x)] p \/ is_whitespace_str (a_value x) = true /\ LA [] [] p ->
    all_ws w = true -> LA [x] w (MAttribute nc p)
| A_elem nc p nm a k w1 w2 : contains nc nm = true -> LA a k p -> all_ws w1 = true -> all_ws w2 = true ->
    LA [] (w1 ++ Elm nm a k :: w2) (MElement nc p)
| A_ref r X a w : body r = Some X -> LA a w X -> LA a w (MRef r)
| A_data d s w1 w2 : dt_valid O d s = Ok true -> all_ws w1 = true -> all_ws w2 = true ->
    LA [] (w1 ++ Txt s :: w2) (MData d None)
| A_value v s w1 w2 : dt_value_valid v s = Ok true -> all_ws w1 = true -> all_ws w2 = true ->
    LA [] (w1 ++ Txt s :: w2) (MValue v)
| A_except d e s w1 w2 : dt_valid O d s = Ok true -> SMA e s false -> all_ws w1 = true -> all_ws w2 = true ->
    LA [] (w1 ++ Txt s :: w2) (MData d (Some e))
| A_list p ss : ss <> [] -> LA [] (map Txt (flat_map split_whitespace ss)) p ->
    LA [] (map Txt ss) (MList p).

(** ** inversion *)
Lemma LA_ch_inv x l a w : LA a w (MChoice (x :: l)) <-> LA a w x \/ LA a w (MChoice l).
Proof.
  split.
  - intros H; inversion H as [y l' a' w' Hin Hy| | | | | | | | | | | | | | | | | | | | |]; subst.
    destruct Hin as [<-|Hin]; [left; exact Hy | right; econstructor; eassumption].
  - intros [H|H]; [apply A_ch with x; [left; reflexivity | exact H]|].
    inversion H; subst. econstructor; [right; eassumption | assumption].
Qed.
Lemma LA_ch0 a w : LA a w (MChoice []) <-> False.
Proof. split; [intros H; inversion H; subst; auto | tauto]. Qed.
Lemma LA_gr1_inv x a w : LA a w (MGroup [x]) <-> LA a w x.
Proof. split; [intros H; inversion H; subst; assumption | apply A_gr1]. Qed.
Lemma LA_gr_inv x y l a w : LA a w (MGroup (x :: y :: l)) <->
  exists a1 a2 w1 w2, w = w1 ++ w2 /\ merge a1 a2 a /\ LA a1 w1 x /\ LA a2 w2 (MGroup (y :: l)).
Proof.
  split; [intros H; inversion H; subst; do 4 eexists; repeat split; eassumption|].
  intros (a1 & a2 & w1 & w2 & -> & Hm & H1 & H2); eapply A_gr; eassumption.
Qed.
Lemma LA_in1_inv x a w : LA a w (MInterleave [x]) <-> LA a w x.
Proof. split; [intros H; inversion H; subst; assumption | apply A_in1]. Qed.
Lemma LA_in_inv x y l a w : LA a w (MInterleave (x :: y :: l)) <->
  exists a1 a2 w1 w2, merge w1 w2 w /\ merge a1 a2 a /\ LA a1 w1 x /\ LA a2 w2 (MInterleave (y :: l)).
Proof.
  split; [intros H; inversion H; subst; do 4 eexists; repeat split; eassumption|].
  intros (a1 & a2 & w1 & w2 & Hw & Hm & H1 & H2); eapply A_in; eassumption.
Qed.
Lemma LA_mixed_inv p a w : LA a w (MMixed p) <-> exists w1 w2, merge w1 w2 w /\ LA a w1 p /\ all_txt w2 = true.
Proof.
  split; [intros H; inversion H; subst; do 2 eexists; repeat split; eassumption|].
  intros (w1 & w2 & Hw & H1 & H2); eapply A_mixed; eassumption.
Qed.
Lemma LA_opt_inv p a w : LA a w (MOptional p) <-> LA a w p \/ a = [] /\ all_ws w = true.
Proof.
  split; [intros H; inversion H; subst; auto|]. intros [H|[-> H]]; [apply A_opt1 | apply A_opt0]; exact H.
Qed.
Lemma LA_zero_inv p a w : LA a w (MZeroOrMore p) <-> LA a w (MOneOrMore p) \/ a = [] /\ all_ws w = true.
Proof.
  split; [intros H; inversion H; subst; auto|]. intros [H|[-> H]]; [apply A_zero1 | apply A_zero0]; exact H.
Qed.
Lemma LA_more_inv p a w : LA a w (MOneOrMore p) <-> More (fun a w => LA a w p) a w.
Proof.
  split.
  - remember (MOneOrMore p) as X eqn:E; intros H; revert p E; induction H; intros p0 E; try discriminate E; injection E as <-.
    + apply More_one; assumption.
    + apply More_nil; auto.
    + eapply More_cons; eauto.
  - induction 1; [apply A_one | apply A_more_nil | eapply A_more_cons]; eassumption.
Qed.
Lemma LA_empty_inv a w : LA a w MEmpty <-> a = [] /\ all_ws w = true.
Proof. split; [intros H; inversion H; subst; auto | intros [-> H]; apply A_empty; exact H]. Qed.
Lemma LA_text_inv a w : LA a w MText <-> a = [] /\ all_txt w = true.
Proof. split; [intros H; inversion H; subst; auto | intros [-> H]; apply A_text; exact H]. Qed.
Lemma LA_na_inv a w : LA a w MNotAllowed <-> False.
Proof. split; [intros H; inversion H | tauto]. Qed.
Lemma LA_attr_inv nc p a w : LA a w (MAttribute nc p) <-> exists x, a = [x] /\ contains nc (a_name x) = true /\ all_ws w = true /\
  (LA [] [Txt (a_value x)] p \/ is_whitespace_str (a_value x) = true /\ LA [] [] p).
Proof.
  split; [intros H; inversion H; subst; eauto 8|]. intros (x & -> & H1 & H2 & H3). apply A_attr; assumption.
Qed.
Lemma LA_elem_inv nc p a w : LA a w (MElement nc p) <-> a = [] /\ exists nm b k w1 w2, w = w1 ++ Elm nm b k :: w2 /\
  contains nc nm = true /\ LA b k p /\ all_ws w1 = true /\ all_ws w2 = true.
Proof.
  split; [intros H; inversion H; subst; split; [reflexivity|]; do 5 eexists; repeat split; eassumption|].
  intros (-> & nm & b & k & w1 & w2 & -> & H1 & H2 & H3 & H4). apply A_elem; assumption.
Qed.
Lemma LA_ref_inv r X a w : body r = Some X -> (LA a w (MRef r) <-> LA a w X).
Proof.
  intros Hb; split; [intros H; inversion H; subst; congruence | intros H; eapply A_ref; eassumption].
Qed.
Lemma LA_data_inv d a w : LA a w (MData d None) <-> a = [] /\ exists s w1 w2, w = w1 ++ Txt s :: w2 /\ dt_valid O d s = Ok true /\
  all_ws w1 = true /\ all_ws w2 = true.
Proof.
  split; [intros H; inversion H; subst; split; [reflexivity|]; do 3 eexists; repeat split; eassumption|].
  intros (-> & s & w1 & w2 & -> & H1 & H2 & H3). apply A_data; assumption.
Qed.
Lemma LA_value_inv v a w : LA a w (MValue v) <-> a = [] /\ exists s w1 w2, w = w1 ++ Txt s :: w2 /\ dt_value_valid v s = Ok true /\
  all_ws w1 = true /\ all_ws w2 = true.
Proof.
  split; [intros H; inversion H; subst; split; [reflexivity|]; do 3 eexists; repeat split; eassumption|].
  intros (-> & s & w1 & w2 & -> & H1 & H2 & H3). apply A_value; assumption.
Qed.
Lemma LA_except_inv d e a w : LA a w (MData d (Some e)) <-> a = [] /\ exists s w1 w2, w = w1 ++ Txt s :: w2 /\ dt_valid O d s = Ok true /\
  SMA e s false /\ all_ws w1 = true /\ all_ws w2 = true.
Proof.
  split; [intros H; inversion H; subst; split; [reflexivity|]; do 3 eexists; repeat split; eassumption|].
  intros (-> & s & w1 & w2 & -> & H1 & H2 & H3 & H4). apply A_except; assumption.
Qed.
Lemma LA_list_inv p a w : LA a w (MList p) <-> a = [] /\ exists ss, w = map Txt ss /\ ss <> [] /\
  LA [] (map Txt (flat_map split_whitespace ss)) p.
Proof.
  split; [intros H; inversion H; subst; split; [reflexivity|]; eexists; repeat split; eassumption|].
  intros (-> & ss & -> & H1 & H2). apply A_list; assumption.
Qed.
End LA.

(** ** number of elements *)
Fixpoint esize (i : item) : nat :=
  match i with
  | Txt _ => 0
  | Elm _ _ k => S ((fix go (l : list item) : nat := match l with [] => 0 | x :: l' => esize x + go l' end) k)
  end.
Fixpoint esizes (w : list item) : nat := match w with [] => 0 | x :: w' => esize x + esizes w' end.
Lemma esize_elm nm a k : esize (Elm nm a k) = S (esizes k).
Proof. reflexivity. Qed.
Lemma esizes_app u v : esizes (u ++ v) = esizes u + esizes v.
Proof. induction u as [|x u IH]; cbn; [reflexivity | rewrite IH; lia]. Qed.
Lemma esizes_merge u v w : merge u v w -> esizes w = esizes u + esizes v.
Proof. induction 1; cbn; lia. Qed.
Lemma esizes_txt ss : esizes (map Txt ss) = 0.
Proof. induction ss; cbn; auto. Qed.

Lemma More_iff (R S : list attr -> list item -> Prop) n a w : (forall a w, esizes w <= n -> (R a w <-> S a w)) ->
  esizes w <= n -> (More R a w <-> More S a w).
Proof.
  intros H Hn; split; intros HM; revert Hn; induction HM as [a w HR|w1 w2 HR HM IH|x a1 a2 a w1 w2 HR HM IH Hm]; intros Hn;
    rewrite ?esizes_app in Hn.
  - apply More_one, H; assumption.
  - apply More_nil; [apply H; [lia | exact HR] | apply IH; lia].
  - eapply More_cons; [apply H; [lia | exact HR] | apply IH; lia | exact Hm].
  - apply More_one, H; assumption.
  - apply More_nil; [apply H; [lia | exact HR] | apply IH; lia].
  - eapply More_cons; [apply H; [lia | exact HR] | apply IH; lia | exact Hm].
Qed.

Section Agree.
Variable O : oracles.
Variable allowed : panic -> Prop.
Variable defs : list mpat.
Variable T : nameclass -> ctype.
Notation body := (body defs).
Notation SOK := (SOK O allowed defs T).
Notation TYP := (TYP defs).
Notation Repr := (Repr defs).
Notation LA := (LA O defs).
Hypothesis Hdefs : forall r X, body r = Some X -> SOK X.
Variable st : store.
Hypothesis HI : Inv O allowed defs T st [].
Notation L := (L O st).
Notation at_ i p := (nth_error (pats st) i = Some p) (only parsing).

Lemma L_more_More id p n a w : at_ id (POneOrMore p n) -> (L id a w <-> More (L p) a w).
Proof.
  intros E; split.
  - intros H; induction H; try congruence; rewrite E in *;
      match goal with H : Some _ = Some _ |- _ => injection H as -> -> end.
    + apply More_one; assumption.
    + apply More_nil; auto.
    + eapply More_cons; eauto.
  - induction 1; [eapply L_one | eapply L_more_nil | eapply L_more_cons]; eassumption.
Qed.
Lemma L_copy i k q a w : at_ i q -> at_ k q -> (L i a w <-> L k a w).
Proof.
  assert (Hcp : forall i k q, at_ i q -> at_ k q -> forall a w, L i a w -> L k a w).
  { clear i k q a w; intros i k q Hi Hk a w H; revert Hi. remember i as i0 eqn:Ei.
    induction H; intros Hi; subst; rewrite Hi in *;
      match goal with H : Some _ = Some _ |- _ => injection H as -> end.
    - eapply L_choice_l; eassumption.
    - eapply L_choice_r; eassumption.
    - eapply L_group; eassumption.
    - eapply L_interleave; eassumption.
    - eapply L_one; eassumption.
    - eapply L_more_nil; eauto.
    - eapply L_more_cons; eauto.
    - eapply L_empty; eassumption.
    - eapply L_text; eassumption.
    - eapply L_attr_val; eassumption.
    - eapply L_attr_blank; eassumption.
    - eapply L_element; eassumption.
    - eapply L_data; eassumption.
    - eapply L_value; eassumption.
    - eapply L_except; eassumption.
    - eapply L_list; eassumption. }
  intros Hi Hk; split; eapply Hcp; eassumption.
Qed.
Lemma SM_copy i k q s b : at_ i q -> at_ k q -> (SM O st i s b <-> SM O st k s b).
Proof.
  assert (Hcp : forall i k q, at_ i q -> at_ k q -> SM O st i s b -> SM O st k s b).
  { clear i k q; intros i k q Hi Hk H; inversion H; subst; rewrite Hi in *;
      match goal with H : Some _ = Some _ |- _ => injection H as -> end.
    - eapply SM_na; eassumption.
    - eapply SM_choice; eassumption.
    - eapply SM_data; eassumption.
    - eapply SM_value; eassumption.
    - eapply SM_except; eassumption. }
  intros Hi Hk; split; eapply Hcp; eassumption.
Qed.
Lemma SM_choice_inv id l r n s b : at_ id (PChoice l r n) ->
  (SM O st id s b <-> exists b1 b2, b = b1 || b2 /\ SM O st l s b1 /\ SM O st r s b2).
Proof.
  intros E; split.
  - intros H; inversion H; subst; try congruence. rewrite E in *; match goal with H : Some _ = Some _ |- _ => injection H as -> -> -> end; eauto.
  - intros (b1 & b2 & -> & H1 & H2). eapply SM_choice; eassumption.
Qed.
Lemma SM_na_inv id s b : at_ id PNotAllowed -> (SM O st id s b <-> b = false).
Proof. intros E; split; [intros H; inversion H; subst; congruence | intros ->; apply SM_na; exact E]. Qed.

(** boolean functionality of except patterns *)
Lemma SM_fun id s b b' : SM O st id s b -> SM O st id s b' -> b = b'.
Proof.
  intros H; revert b'; induction H; intros b' H'; inversion H'; subst; try congruence; rewrite H in *;
    match goal with E : Some _ = Some _ |- _ => injection E; intros; subst end; try congruence.
  - f_equal; auto.
  - f_equal; [congruence | f_equal; auto].
Qed.
Definition SM_tot (id : pid) (s : str) : Prop := exists b, SM O st id s b.

Lemma opC_SM e N id a b s v : opC st e N OpC id a b ->
  (SM O st id s v <-> exists b1 b2, v = b1 || b2 /\ SM O st a s b1 /\ SM O st b s b2).
Proof.
  intros [(n & Hn & _)|[[H ->]|[[H ->]|[-> ->]]]].
  - apply (SM_choice_inv _ _ _ _ _ _ Hn).
  - split; [intros Hs; exists false, v; split; [reflexivity|]; split; [apply SM_na; exact H | exact Hs]|].
    intros (b1 & b2 & -> & H1 & H2). apply (SM_na_inv _ _ _ H) in H1; subst; exact H2.
  - split; [intros Hs; exists v, false; split; [rewrite orb_false_r; reflexivity|]; split; [exact Hs | apply SM_na; exact H]|].
    intros (b1 & b2 & -> & H1 & H2). apply (SM_na_inv _ _ _ H) in H2; subst; rewrite orb_false_r; exact H1.
  - split; [intros Hs; exists v, v; split; [rewrite orb_diag; reflexivity | auto]|].
    intros (b1 & b2 & -> & H1 & H2). rewrite (SM_fun _ _ _ _ H1 H2), orb_diag. exact H2.
Qed.
Lemma Repr_SM X : EXC defs X -> forall id s b, Repr st false X id -> (SM O st id s b <-> SMA O defs X s b).
Proof.
  induction 1 as [|x Hx IHx|x l Hx IHx Hl IHl|d|d e He IHe|v|r X Hb HX IHX]; intros id s b HR.
  - rewrite (SM_na_inv _ _ _ HR). split; [intros ->; constructor | intros H; inversion H; reflexivity].
  - change (MChoice [x]) with (mkl OpC [x]) in HR. rewrite Repr_1 in HR. rewrite (IHx id s b HR).
    split; [apply SMA_ch1 | intros H; inversion H; subst; assumption].
  - destruct l as [|y l].
    + change (MChoice [x]) with (mkl OpC [x]) in HR. rewrite Repr_1 in HR. rewrite (IHx id s b HR).
      split; [apply SMA_ch1 | intros H; inversion H; subst; assumption].
    + change (MChoice (x :: y :: l)) with (mkl OpC (x :: y :: l)) in HR. rewrite Repr_2 in HR. destruct HR as (p & q & Hp & Hq & Ho).
      rewrite (opC_SM _ _ _ _ _ _ _ Ho). split.
      * intros (b1 & b2 & -> & H1 & H2). apply SMA_ch; [apply (IHx p s b1 Hp), H1 | apply (IHl q s b2 Hq), H2].
      * intros H; inversion H; subst. exists b1, b2; split; [reflexivity|]. split; [apply (IHx p s b1 Hp); assumption | apply (IHl q s b2 Hq); assumption].
  - split.
    + intros H; inversion H; subst; cbn in HR; rewrite HR in *; try discriminate.
      match goal with E : Some _ = Some _ |- _ => injection E as -> end. apply SMA_data; assumption.
    + intros H; inversion H; subst. eapply SM_data; eassumption.
  - destruct HR as (a & Ha & Hid). split.
    + intros H; inversion H; subst; rewrite Hid in *; try discriminate.
      match goal with E : Some _ = Some _ |- _ => injection E as -> -> end. apply SMA_except; [assumption | apply (IHe _ _ _ Ha); assumption].
    + intros H; inversion H; subst. eapply SM_except; [exact Hid | assumption | apply (IHe _ _ _ Ha); assumption].
  - split.
    + intros H; inversion H; subst; cbn in HR; rewrite HR in *; try discriminate.
      match goal with E : Some _ = Some _ |- _ => injection E as -> end. apply SMA_value; assumption.
    + intros H; inversion H; subst. eapply SM_value; eassumption.
  - destruct (fin_ref O allowed defs T st HI r id HR) as (k & Y & q & Hb' & (A1 & _) & Hk & Hi). assert (Y = X) as -> by congruence.
    rewrite <- (SM_copy k id q s b Hk Hi), (IHX k s b A1).
    split; [intros H; econstructor; eassumption | intros H; inversion H; subst; congruence].
Qed.

Lemma opC_choice_L e N id a b at' w : opC st e N OpC id a b -> (L id at' w <-> L a at' w \/ L b at' w).
Proof.
  intros [(n & Hn & _)|[[H ->]|[[H ->]|[-> ->]]]].
  - apply (L_choice_inv _ _ _ _ _ _ _ _ Hn).
  - rewrite (L_na_inv _ _ _ _ _ H). tauto.
  - rewrite (L_na_inv _ _ _ _ _ H). tauto.
  - tauto.
Qed.
Lemma opC_group_L e N id a b at' w : opC st e N OpG id a b ->
  (L id at' w <-> exists a1 a2 w1 w2, w = w1 ++ w2 /\ merge a1 a2 at' /\ L a a1 w1 /\ L b a2 w2).
Proof.
  intros [(n & Hn & _)|[[[H|H] H']|[[H ->]|[H ->]]]].
  - apply (L_group_inv _ _ _ _ _ _ _ _ Hn).
  - rewrite (L_na_inv _ _ _ _ _ H'). split; [tauto|]. intros (a1 & a2 & w1 & w2 & _ & _ & H1 & _). apply (L_na_inv _ _ _ _ _ H) in H1; exact H1.
  - rewrite (L_na_inv _ _ _ _ _ H'). split; [tauto|]. intros (a1 & a2 & w1 & w2 & _ & _ & _ & H1). apply (L_na_inv _ _ _ _ _ H) in H1; exact H1.
  - apply L_group_empty_l; exact H.
  - apply L_group_empty_r; exact H.
Qed.
Lemma opC_inter_L e N id a b at' w : opC st e N OpI id a b ->
  (L id at' w <-> exists a1 a2 w1 w2, merge w1 w2 w /\ merge a1 a2 at' /\ L a a1 w1 /\ L b a2 w2).
Proof.
  intros [(n & Hn & _)|[[[H|H] H']|[[H ->]|[H ->]]]].
  - apply (L_interleave_inv _ _ _ _ _ _ _ _ Hn).
  - rewrite (L_na_inv _ _ _ _ _ H'). split; [tauto|]. intros (a1 & a2 & w1 & w2 & _ & _ & H1 & _). apply (L_na_inv _ _ _ _ _ H) in H1; exact H1.
  - rewrite (L_na_inv _ _ _ _ _ H'). split; [tauto|]. intros (a1 & a2 & w1 & w2 & _ & _ & _ & H1). apply (L_na_inv _ _ _ _ _ H) in H1; exact H1.
  - apply L_inter_empty_l; exact H.
  - apply L_inter_empty_r; exact H.
Qed.

Definition agree (n : nat) (X : mpat) : Prop :=
  forall e id, Repr st e X id -> forall a w, esizes w <= n -> (L id a w <-> LA a w X).

Lemma agree_ch n x l : agree n x -> (l <> [] -> agree n (MChoice l)) -> agree n (MChoice (x :: l)).
Proof.
  intros Hx Hl e id HR a w Hw. rewrite (LA_ch_inv O defs). change (MChoice (x :: l)) with (mkl OpC (x :: l)) in HR. destruct l as [|y l].
  - rewrite Repr_1 in HR. rewrite (Hx _ _ HR a w Hw), (LA_ch0 O defs). tauto.
  - rewrite Repr_2 in HR. destruct HR as (p & q & Hp & Hq & Ho). rewrite (opC_choice_L _ _ _ _ _ _ _ Ho).
    rewrite (Hx _ _ Hp a w Hw). rewrite (Hl ltac:(discriminate) _ _ Hq a w Hw). reflexivity.
Qed.
Lemma agree_gr n x l : agree n x -> (l <> [] -> agree n (MGroup l)) -> agree n (MGroup (x :: l)).
Proof.
  intros Hx Hl e id HR a w Hw. change (MGroup (x :: l)) with (mkl OpG (x :: l)) in HR. destruct l as [|y l].
  - rewrite (LA_gr1_inv O defs). rewrite Repr_1 in HR. exact (Hx _ _ HR a w Hw).
  - rewrite (LA_gr_inv O defs). rewrite Repr_2 in HR. destruct HR as (p & q & Hp & Hq & Ho). rewrite (opC_group_L _ _ _ _ _ _ _ Ho).
    specialize (Hl ltac:(discriminate)).
    split; intros (a1 & a2 & w1 & w2 & -> & Hm & H1 & H2); rewrite esizes_app in Hw; exists a1, a2, w1, w2; (split; [reflexivity|]); (split; [exact Hm|]);
      (split; [apply (Hx _ _ Hp a1 w1); [lia | exact H1] | apply (Hl _ _ Hq a2 w2); [lia | exact H2]]).
Qed.
Lemma agree_in n x l : agree n x -> (l <> [] -> agree n (MInterleave l)) -> agree n (MInterleave (x :: l)).
Proof.
  intros Hx Hl e id HR a w Hw. change (MInterleave (x :: l)) with (mkl OpI (x :: l)) in HR. destruct l as [|y l].
  - rewrite (LA_in1_inv O defs). rewrite Repr_1 in HR. exact (Hx _ _ HR a w Hw).
  - rewrite (LA_in_inv O defs). rewrite Repr_2 in HR. destruct HR as (p & q & Hp & Hq & Ho). rewrite (opC_inter_L _ _ _ _ _ _ _ Ho).
    specialize (Hl ltac:(discriminate)).
    split; intros (a1 & a2 & w1 & w2 & Hmw & Hm & H1 & H2); rewrite (esizes_merge _ _ _ Hmw) in Hw; exists a1, a2, w1, w2; (split; [exact Hmw|]); (split; [exact Hm|]);
      (split; [apply (Hx _ _ Hp a1 w1); [lia | exact H1] | apply (Hl _ _ Hq a2 w2); [lia | exact H2]]).
Qed.

Lemma L_or_empty id o t e a w : at_ t PEmpty -> opC st e True OpC id o t ->
  (L id a w <-> L o a w \/ a = [] /\ all_ws w = true).
Proof. intros Ht Ho. rewrite (opC_choice_L _ _ _ _ _ _ _ Ho), (L_empty_inv _ _ _ _ _ Ht). reflexivity. Qed.
Lemma agree_more n p a id o nn w at' : agree n p -> Repr st true p a -> at_ o (POneOrMore a nn) -> id = o -> esizes w <= n ->
  (L id at' w <-> LA at' w (MOneOrMore p)).
Proof.
  intros Hp Ha Ho -> Hw. rewrite (L_more_More _ _ _ _ _ Ho), (LA_more_inv O defs). eapply More_iff; [|exact Hw].
  intros b v Hv. apply (Hp true a Ha b v Hv).
Qed.

Theorem Repr_L n : forall j t X, TYP j t X -> SOK X -> agree n X.
Proof.
  induction n as [n IHn] using lt_wf_ind. intros j t X HT.
  induction HT as [j j' t t' X HT IH Hj Ht
    |j t x HT IH|j t x l HT IH HTl IHl|j t x HT IH|j t x l HT IH HTl IHl|j t x HT IH
    |j t x l Hta HT IH HTl IHl|j x l HT IH HTl IHl|j x l HT IH HTl IHl
    |j p HT IH|j t|j|j t|j t p HT IH|j t p HT IH|j t p HT IH|j j' t nc p HT IH|j nc p|j t r X Hb HT IH|j v|j d ex|j p HT IH]; intros HS.
  - auto.
  - apply agree_ch; [apply IH; apply HS | congruence].
  - apply agree_ch; [apply IH; apply HS|]. intros Hl; apply IHl. destruct l; [congruence|]. eapply (SOK_mkl_tl O allowed defs T OpC); exact HS.
  - apply agree_gr; [apply IH; apply HS | congruence].
  - apply agree_gr; [apply IH; apply HS|]. intros Hl; apply IHl. destruct l; [congruence|]. eapply (SOK_mkl_tl O allowed defs T OpG); exact HS.
  - apply agree_in; [apply IH; apply HS | congruence].
  - apply agree_in; [apply IH; apply HS|]. intros Hl; apply IHl. destruct l; [congruence|]. eapply (SOK_mkl_tl O allowed defs T OpI); exact HS.
  - apply agree_in; [apply IH; apply HS|]. intros Hl; apply IHl. destruct l; [congruence|]. eapply (SOK_mkl_tl O allowed defs T OpI); exact HS.
  - apply agree_in; [apply IH; apply HS|]. intros Hl; apply IHl. destruct l; [congruence|]. eapply (SOK_mkl_tl O allowed defs T OpI); exact HS.
  - specialize (IH HS). intros e id (a & b & Ha & Hb & Ho) at' w Hw. rewrite (opC_inter_L _ _ _ _ _ _ _ Ho), (LA_mixed_inv O defs). split.
    + intros (a1 & a2 & w1 & w2 & Hmw & Hm & H1 & H2). rewrite (esizes_merge _ _ _ Hmw) in Hw. apply (L_text_inv _ _ _ _ _ Hb) in H2. destruct H2 as [-> H2].
      apply merge_nil_r_inv in Hm; subst a1. exists w1, w2. split; [exact Hmw|]. split; [apply (IH _ _ Ha); [lia | exact H1] | exact H2].
    + intros (w1 & w2 & Hmw & H1 & H2). rewrite (esizes_merge _ _ _ Hmw) in Hw. exists at', [], w1, w2. split; [exact Hmw|]. split; [apply merge_nil_r|].
      split; [apply (IH _ _ Ha); [lia | exact H1] | apply (L_text_inv _ _ _ _ _ Hb); auto].
  - intros e id HR a w _. rewrite (L_empty_inv _ _ _ _ _ HR), (LA_empty_inv O defs). reflexivity.
  - intros e id HR a w _. rewrite (L_text_inv _ _ _ _ _ HR), (LA_text_inv O defs). reflexivity.
  - intros e id HR a w _. rewrite (L_na_inv _ _ _ _ _ HR), (LA_na_inv O defs). reflexivity.
  - specialize (IH HS). intros e id (a & b & Ha & Hb & Ho) at' w Hw. rewrite (L_or_empty _ _ _ _ _ _ Hb Ho), (LA_opt_inv O defs), (IH _ _ Ha at' w Hw). reflexivity.
  - cbn in HS; destruct HS as [HS _]; specialize (IH HS). intros e id (a & o & nn & b & Ha & Hn & Hf & Hb & Ho) at' w Hw.
    rewrite (L_or_empty _ _ _ _ _ _ Hb Ho), (LA_zero_inv O defs), (agree_more n p a o o nn w at' IH Ha Hn eq_refl Hw). reflexivity.
  - cbn in HS; destruct HS as [HS _]; specialize (IH HS). intros e id (a & nn & Ha & Hn & Hf) at' w Hw.
    exact (agree_more n p a id id nn w at' IH Ha Hn eq_refl Hw).
  - cbn in HS; destruct HS as [HS _]; specialize (IH HS). intros e id (a & Ha & Hid) at' w Hw. rewrite (L_attr_inv _ _ _ _ _ _ _ Hid), (LA_attr_inv O defs).
    assert (E1 : forall s, L a [] [Txt s] <-> LA [] [Txt s] p) by (intros s; apply (IH _ _ Ha); cbn; lia).
    assert (E2 : L a [] [] <-> LA [] [] p) by (apply (IH _ _ Ha); cbn; lia).
    split; intros (x & -> & H1 & H2 & H3); exists x; rewrite E1, E2 in *; auto.
  - cbn in HS; destruct HS as [HS (j' & HTp)]. intros e id (a & Ha & Hid) at' w Hw. rewrite (L_element_inv _ _ _ _ _ _ _ Hid), (LA_elem_inv O defs).
    split; intros (-> & nm & b & k & w1 & w2 & -> & H1 & H2 & H3 & H4); (split; [reflexivity|]); exists nm, b, k, w1, w2;
      rewrite esizes_app in Hw; cbn [esizes] in Hw; rewrite esize_elm in Hw;
      (split; [reflexivity|]); (split; [exact H1|]); (split; [|auto]);
      apply (IHn (esizes k) ltac:(lia) j' (T nc) p HTp HS false a Ha b k (le_n _)); exact H2.
  - intros e id HR at' w Hw. destruct (fin_ref O allowed defs T st HI r id HR) as (k & Y & q & Hb' & (A1 & _) & Hk & Hi). assert (Y = X) as -> by congruence.
    rewrite <- (L_copy k id q at' w Hk Hi), (LA_ref_inv O defs r X at' w Hb). apply (IH (Hdefs _ _ Hb) _ _ A1); exact Hw.
  - intros e id HR a w _. rewrite (L_value_inv _ _ _ _ _ _ HR), (LA_value_inv O defs). reflexivity.
  - destruct ex as [x|].
    + intros e id (a & Ha & Hid) at' w _. cbn in HS; destruct HS as (_ & _ & Hex). rewrite (L_except_inv _ _ _ _ _ _ _ Hid), (LA_except_inv O defs).
      split; intros (-> & s & w1 & w2 & -> & H1 & H2 & H3 & H4); (split; [reflexivity|]); exists s, w1, w2;
        (split; [reflexivity|]); (split; [exact H1|]); (split; [apply (Repr_SM x Hex a s false Ha); exact H2|]); auto.
    + intros e id HR a w _. rewrite (L_data_inv _ _ _ _ _ _ HR), (LA_data_inv O defs). reflexivity.
  - cbn in HS; destruct HS as [HS _]; specialize (IH HS). intros e id (a & Ha & Hid) at' w Hw. rewrite (L_list_inv _ _ _ _ _ _ Hid), (LA_list_inv O defs).
    split; intros (-> & ss & -> & H1 & H3); (split; [reflexivity|]); exists ss; (split; [reflexivity|]); (split; [exact H1|]);
      apply (IH _ _ Ha); try exact H3; rewrite esizes_txt; lia.
Qed.
End Agree.
