(** * Sound: content the code's language accepts is valid, and conversely. *)
From Coq Require Import Permutation.
From Verif Require Import Base Datatype Store Deriv Events Lang LangFacts Wp Compile Schema LangA Spec SpecFacts.

(** Content as it occurs in documents: children as the specification has them, and all strings
    as [ok] says. *)
Section Fine.
Variable ok : str -> Prop.
Fixpoint fine (i : item) : Prop :=
  match i with
  | Txt s => ok s
  | Elm _ atts kids =>
      Forall (fun x => ok (a_value x)) atts /\ children_ok kids /\
      (fix go (ks : list item) : Prop := match ks with [] => True | k :: ks' => fine k /\ go ks' end) kids
  end.
Fixpoint fines (ks : list item) : Prop := match ks with [] => True | k :: ks' => fine k /\ fines ks' end.
Lemma fine_elm nm a k : fine (Elm nm a k) <-> Forall (fun x => ok (a_value x)) a /\ children_ok k /\ fines k.
Proof. reflexivity. Qed.
Lemma fines_app u v : fines (u ++ v) <-> fines u /\ fines v.
Proof. induction u as [|x u IH]; cbn; [tauto | rewrite IH; tauto]. Qed.
Lemma fines_merge u v w : merge u v w -> fines w -> fines u /\ fines v.
Proof. induction 1; cbn; tauto. Qed.
End Fine.

(** ** stripping blanks *)
Definition strip (w : list item) : list item := filter (fun i => negb (ws_item i)) w.
Definition no_blank (w : list item) : Prop := all_ws w = false \/ w = [].
Lemma strip_app u v : strip (u ++ v) = strip u ++ strip v.
Proof. apply filter_app. Qed.
Lemma strip_ws w : all_ws w = true -> strip w = [].
Proof. induction w as [|x w IH]; cbn; [reflexivity|]. intros H; apply andb_true_iff in H; destruct H as [-> H]; cbn; auto. Qed.
Lemma strip_merge u v w : merge u v w -> merge (strip u) (strip v) (strip w).
Proof. induction 1; cbn; [constructor| |]; destruct (negb (ws_item x)); try constructor; assumption. Qed.
Lemma strip_txt w : all_txt w = true -> Forall (fun i => exists s, i = Txt s) (strip w).
Proof.
  induction w as [|x w IH]; cbn; intros H; [constructor|]. apply andb_true_iff in H; destruct H as [H1 H2].
  destruct (negb (ws_item x)); [constructor; [destruct x; [eauto | discriminate H1] | auto] | auto].
Qed.
Definition solid (w : list item) : Prop := Forall (fun i => ws_item i = false) w.
Lemma strip_solid w : solid (strip w).
Proof. apply Forall_forall. intros x Hx. apply filter_In in Hx. destruct Hx as [_ Hx]. apply negb_true_iff in Hx; exact Hx. Qed.
Lemma solid_ws w : solid w -> ws w -> w = [].
Proof. intros H [->|(s & -> & Hb)]; [reflexivity|]. inversion H as [|? ? Hx _]; subst. cbn in Hx. apply blank_ws in Hb. congruence. Qed.
Lemma solid_app u v : solid (u ++ v) <-> solid u /\ solid v.
Proof. apply Forall_app. Qed.
Lemma solid_merge u v w : merge u v w -> solid w -> solid u /\ solid v.
Proof.
  induction 1 as [|x a b c H IH|x a b c H IH]; intros HS; [split; constructor| |]; inversion HS; subst; destruct (IH ltac:(assumption)) as [I1 I2]; split; try assumption; constructor; assumption.
Qed.

(** [Dec v w]: [w] is [v] with blanks put next to elements *)
Inductive Dec : list item -> list item -> Prop :=
| Dec_nil : Dec [] []
| Dec_txt s v w : Dec v w -> Dec (Txt s :: v) (Txt s :: w)
| Dec_elm nm a k v w u1 u2 : ws u1 -> ws u2 -> Dec v w -> Dec (Elm nm a k :: v) (u1 ++ Elm nm a k :: u2 ++ w).
Lemma Dec_app_inv v1 : forall v2 w, Dec (v1 ++ v2) w -> exists w1 w2, w = w1 ++ w2 /\ Dec v1 w1 /\ Dec v2 w2.
Proof.
  induction v1 as [|x v1 IH]; intros v2 w H; cbn in H.
  - exists [], w. repeat split; [constructor | exact H].
  - inversion H as [|s v0 w0 H0|nm a k v0 w0 u1 u2 H1 H2 H0]; subst; destruct (IH _ _ H0) as (w1 & w2 & -> & D1 & D2).
    + exists (Txt s :: w1), w2. repeat split; [constructor; exact D1 | exact D2].
    + exists (u1 ++ Elm nm a k :: u2 ++ w1), w2. rewrite <- app_assoc; cbn. rewrite <- app_assoc. repeat split; [constructor; assumption | exact D2].
Qed.
Lemma merge_front {A} (u a b c : list A) : merge a b c -> merge (u ++ a) b (u ++ c).
Proof. intros H; induction u; cbn; [exact H | constructor; assumption]. Qed.
Lemma merge_front_r {A} (u a b c : list A) : merge a b c -> merge a (u ++ b) (u ++ c).
Proof. intros H; induction u; cbn; [exact H | constructor; assumption]. Qed.
Lemma Dec_merge_inv v1 v2 v : merge v1 v2 v -> forall w, Dec v w -> exists w1 w2, merge w1 w2 w /\ Dec v1 w1 /\ Dec v2 w2.
Proof.
  induction 1 as [|x v1 v2 v Hm IH|x v1 v2 v Hm IH]; intros w H.
  - inversion H; subst. exists [], []. repeat split; constructor.
  - inversion H as [|s v0 w0 H0|nm a k v0 w0 u1 u2 H1 H2 H0]; subst; destruct (IH _ H0) as (w1 & w2 & Hw & D1 & D2).
    + exists (Txt s :: w1), w2. repeat split; [constructor; exact Hw | constructor; exact D1 | exact D2].
    + exists (u1 ++ Elm nm a k :: u2 ++ w1), w2. repeat split; [|constructor; assumption | exact D2].
      apply merge_front. constructor. apply merge_front; exact Hw.
  - inversion H as [|s v0 w0 H0|nm a k v0 w0 u1 u2 H1 H2 H0]; subst; destruct (IH _ H0) as (w1 & w2 & Hw & D1 & D2).
    + exists w1, (Txt s :: w2). repeat split; [constructor; exact Hw | exact D1 | constructor; exact D2].
    + exists w1, (u1 ++ Elm nm a k :: u2 ++ w2). repeat split; [|exact D1 | constructor; assumption].
      apply merge_front_r. constructor. apply merge_front_r; exact Hw.
Qed.
Lemma Dec_text v w : Dec v w -> Forall (fun i => exists s, i = Txt s) v -> w = v.
Proof.
  induction 1 as [|s v w D IH|nm a k v w u1 u2 H1 H2 D IH]; intros HF; [reflexivity| |]; inversion HF as [|? ? Hx HF']; subst.
  - rewrite (IH HF'); reflexivity.
  - destruct Hx as [s E]; discriminate E.
Qed.

Lemma sep_Dec n : forall w, length w <= n -> sep w -> (exists s, w = [Txt s] /\ blank s) \/ Dec (strip w) w.
Proof.
  induction n as [|n IH]; intros w Hn Hs; [destruct w; [right; constructor | cbn in Hn; lia]|].
  destruct w as [|[s|nm a k] w]; [right; constructor| |].
  - destruct (is_whitespace_str s) eqn:Eb.
    + destruct w as [|[s'|nm a k] w].
      * left; exists s; split; [reflexivity | apply blank_ws; exact Eb].
      * destruct Hs.
      * right. cbn [strip filter ws_item]. rewrite Eb; cbn [negb].
        destruct (IH (Elm nm a k :: w)) as [(s' & E & _)|D]; [cbn in *; lia | exact Hs | discriminate E|].
        cbn [filter strip ws_item negb] in D. fold (strip w) in *. inversion D as [| |nm' a' k' v' w' u1 u2 H1 H2 D' E1 E2]; subst.
        assert (u1 = []) as -> by (destruct H1 as [->|(s1 & -> & _)]; [reflexivity | discriminate E2]).
        cbn in E2; injection E2 as <-.
        refine (Dec_elm nm a k (strip (u2 ++ w')) w' [Txt s] u2 _ H2 D').
        right; exists s; split; [reflexivity | apply blank_ws; exact Eb].
    + right. cbn [strip filter ws_item]. rewrite Eb; cbn [negb]. constructor. fold (strip w).
      destruct (IH w) as [(s' & -> & _)|D]; [cbn in Hn; lia | eapply sep_tail; exact Hs | destruct Hs | exact D].
  - right. cbn [strip filter ws_item negb]. fold (strip w).
    destruct w as [|[s|nm' a' k'] w].
    + apply (Dec_elm nm a k [] [] [] []); [left; reflexivity | left; reflexivity | constructor].
    + destruct (is_whitespace_str s) eqn:Eb.
      * cbn [strip filter ws_item]. rewrite Eb; cbn [negb]. fold (strip w).
        change (Elm nm a k :: Txt s :: w) with ([] ++ Elm nm a k :: [Txt s] ++ w).
        apply Dec_elm; [left; reflexivity | right; exists s; split; [reflexivity | apply blank_ws; exact Eb]|].
        destruct (IH w) as [(s' & -> & _)|D]; [cbn in Hn; lia | eapply sep_tail, sep_tail; exact Hs | cbn in Hs; destruct Hs | exact D].
      * change (Elm nm a k :: Txt s :: w) with ([] ++ Elm nm a k :: [] ++ Txt s :: w).
        apply Dec_elm; [left; reflexivity | left; reflexivity|].
        destruct (IH (Txt s :: w)) as [(s' & E & Hb)|D]; [cbn in *; lia | exact Hs | injection E as -> _; apply blank_ws in Hb; congruence | exact D].
    + change (Elm nm a k :: Elm nm' a' k' :: w) with ([] ++ Elm nm a k :: [] ++ Elm nm' a' k' :: w).
      apply Dec_elm; [left; reflexivity | left; reflexivity|].
      destruct (IH (Elm nm' a' k' :: w)) as [(s' & E & Hb)|D]; [cbn in *; lia | exact Hs | discriminate E | exact D].
Qed.

Lemma sep_mid s w1 w2 : sep (w1 ++ Txt s :: w2) -> all_ws w1 = true -> all_ws w2 = true -> w1 = [] /\ w2 = [].
Proof.
  intros Hs H1 H2. destruct (sep_all_txt _ Hs) as [E|(s' & E)].
  - rewrite all_txt_app. change (all_txt (Txt s :: w2)) with (all_txt w2). rewrite (all_ws_txt _ H1), (all_ws_txt _ H2). reflexivity.
  - destruct w1; discriminate E.
  - destruct w1 as [|x w1]; [injection E as _ ->; auto|]. injection E as _ E. destruct w1; discriminate E.
Qed.
Lemma sep_map ss : sep (map Txt ss) -> ss <> [] -> exists s, ss = [s].
Proof. destruct ss as [|s [|s' ss]]; intros H Hne; [congruence | eauto | destruct H]. Qed.

Section Sound.
Variable sp : N -> bool.      (* separators of list tokens *)
Variable ok : str -> Prop.    (* strings the code splits there *)
Hypothesis ok_split : forall s, ok s -> split_whitespace s = split_on sp [] s.
Hypothesis ok_token : forall s t, ok s -> In t (split_whitespace s) -> ok t.
Notation fines := (fines ok).
Variable O : oracles.
Variable defs : list mpat.
Variable w3 : bool.
Notation LA := (LA O defs).
Notation CT := (CT defs).
Notation M := (Mg sp O defs w3).
Notation W := (Wg sp O defs w3).
Notation restr := (restr defs).
Hypothesis Hrestr : forall r X, deref defs r = Some X -> restr X.

Lemma M_dec a v X : M a v X -> solid v -> forall w, Dec v w -> M a w X.
Proof.
  induction 1 as [x l a m Hin Hx IH|x a m Hx IH|x y l a1 a2 a m1 m2 HP Hx IHx Hl IHl|x a m Hx IH|x y l a1 a2 a m1 m2 m HP Hm Hx IHx Hl IHl
    |p a m Hp IH|p a m Hp IH|p a m Hp IH|p a m Hp IH|p a1 a2 a m1 m2 HP Hp IHp Hq IHq| |m Hm|nc p x Hc Hw|nc p nm a k ws1 ws2 Hc Hk Hw H1 H2|r X a m Hb HX IH
    |d s Hd|d e s Hd He|v0 s Hd|p s Hp IH]; intros HS w D.
  - eapply M_choice; eauto.
  - apply M_group_one; auto.
  - apply solid_app in HS; destruct HS as [S1 S2]. destruct (Dec_app_inv _ _ _ D) as (w1 & w2 & -> & D1 & D2). eapply M_group; eauto.
  - apply M_inter_one; auto.
  - destruct (solid_merge _ _ _ Hm HS) as [S1 S2]. destruct (Dec_merge_inv _ _ _ Hm _ D) as (w1 & w2 & Hw & D1 & D2). eapply M_inter; eauto.
  - apply M_mixed; auto.
  - apply M_optional; auto.
  - apply M_zero; auto.
  - apply M_one; auto.
  - apply solid_app in HS; destruct HS as [S1 S2]. destruct (Dec_app_inv _ _ _ D) as (w1 & w2 & -> & D1 & D2). eapply M_more; eauto.
  - inversion D; subst; constructor.
  - rewrite (Dec_text _ _ D Hm). apply M_text; exact Hm.
  - inversion D; subst. apply M_attribute; assumption.
  - apply solid_app in HS; destruct HS as [S1 S2]. inversion S2 as [|? ? _ S3]; subst.
    rewrite (solid_ws _ S1 H1), (solid_ws _ S3 H2) in D. cbn in D. inversion D as [| |nm' a' k' v' w' u1 u2 U1 U2 D']; subst.
    inversion D'; subst. rewrite app_nil_r. apply M_element; assumption.
  - eapply M_ref; eauto.
  - inversion D as [|s' v' w' D'|]; subst; inversion D'; subst. apply M_data; exact Hd.
  - inversion D as [|s' v' w' D'|]; subst; inversion D'; subst. apply M_except; assumption.
  - inversion D as [|s' v' w' D'|]; subst; inversion D'; subst. apply M_value; exact Hd.
  - inversion D as [|s' v' w' D'|]; subst; inversion D'; subst. apply M_list; exact Hp.
Qed.

(** patterns of type "empty" match only blanks *)
Lemma CT_TE_ws X t : CT t X -> t = TE -> forall a w, LA a w X -> all_ws w = true.
Proof.
  induction 1 as [X HX IH|X HX IH|t x Hx IH|t x y l Hx IHx Hl IHl|t x Hx IH|t x y l Ht Hx IHx Hl IHl|x y l Hx IHx Hl IHl|x y l Hx IHx Hl IHl
    |t x Hx IH|t x y l Ht Hx IHx Hl IHl|x y l Hx IHx Hl IHl|x y l Hx IHx Hl IHl|p Hp IH| | | |t p Hp IH|t p Ht Hp IH|t p Ht Hp IH|nc p Hp IH|nc p|t r X Hb HX IH
    |v|d e|p Hp]; intros Et a w H; try discriminate Et.
  - rewrite LA_ch_inv, LA_ch0 in H. destruct H as [H|[]]; eauto.
  - rewrite LA_ch_inv in H. destruct H; eauto.
  - rewrite LA_gr1_inv in H; eauto.
  - rewrite LA_gr_inv in H. destruct H as (a1 & a2 & w1 & w2 & -> & _ & H1 & H2). rewrite all_ws_app, (IHx Et _ _ H1), (IHl Et _ _ H2). reflexivity.
  - rewrite LA_in1_inv in H; eauto.
  - rewrite LA_in_inv in H. destruct H as (a1 & a2 & w1 & w2 & Hm & _ & H1 & H2). rewrite (merge_all_ws _ _ _ Hm), (IHx Et _ _ H1), (IHl Et _ _ H2). reflexivity.
  - rewrite LA_empty_inv in H; apply H.
  - rewrite LA_na_inv in H; destruct H.
  - rewrite LA_opt_inv in H; destruct H as [H|[_ H]]; eauto.
  - rewrite LA_zero_inv, LA_more_inv in H; destruct H as [H|[_ H]]; [|exact H].
    induction H as [a w HR|w1 w2 HR HM IHM|x a1 a2 a w1 w2 HR HM IHM Hm]; [eauto| |]; rewrite all_ws_app, (IH Et _ _ HR), IHM; reflexivity.
  - rewrite LA_more_inv in H.
    induction H as [a w HR|w1 w2 HR HM IHM|x a1 a2 a w1 w2 HR HM IHM Hm]; [eauto| |]; rewrite all_ws_app, (IH Et _ _ HR), IHM; reflexivity.
  - rewrite LA_attr_inv in H. destruct H as (x & _ & _ & H & _); exact H.
  - rewrite (LA_ref_inv O defs r X a w Hb) in H; eauto.
Qed.

(** ** list bodies *)
Lemma list_sound X : list_body defs X -> forall w, LA [] w X -> solid w -> M [] w X.
Proof.
  induction 1 as [x Hx IHx|x y l Hx IHx Hl IHl|x Hx IHx|x y l Hx IHx Hl IHl| | |p Hp IH|p Hp IH|p Hp IH|v|d e|r X Hb HX IH]; intros w H HS.
  - rewrite LA_ch_inv, LA_ch0 in H; destruct H as [H|[]]. apply M_choice with x; [left; reflexivity | auto].
  - rewrite LA_ch_inv in H. destruct H as [H|H]; [apply M_choice with x; [left; reflexivity | auto]|].
    specialize (IHl _ H HS). inversion IHl as [x0 l0 a0 m0 Hin Hx0 E1 E2 E3| | | | | | | | | | | | | | | | | |]; subst. apply M_choice with x0; [right; exact Hin | exact Hx0].
  - rewrite LA_gr1_inv in H. apply M_group_one; auto.
  - rewrite LA_gr_inv in H. destruct H as (a1 & a2 & w1 & w2 & -> & Hm & H1 & H2). inversion Hm; subst. apply solid_app in HS; destruct HS as [S1 S2].
    eapply M_group with (a1 := []) (a2 := []); [constructor | auto | auto].
  - rewrite LA_empty_inv in H. destruct H as [_ H]. destruct w as [|x w]; [constructor|]. inversion HS as [|? ? Hx _]; subst. cbn in H. rewrite Hx in H; discriminate H.
  - rewrite LA_na_inv in H; destruct H.
  - apply M_optional. rewrite LA_opt_inv in H. destruct H as [H|[_ H]]; [apply M_choice with p; [left; reflexivity | auto]|].
    destruct w as [|x w]; [apply M_choice with MEmpty; [right; left; reflexivity | constructor]|]. inversion HS as [|? ? Hx _]; subst. cbn in H. rewrite Hx in H; discriminate H.
  - apply M_zero. rewrite LA_zero_inv, LA_more_inv in H. destruct H as [H|[_ H]].
    + apply M_choice with (MOneOrMore p); [left; reflexivity|]. remember [] as a eqn:Ea in H. induction H as [a w HR|w1 w2 HR HM IHM|x a1 a2 a w1 w2 HR HM IHM Hm]; [subst| |discriminate Ea].
      * apply M_one; auto.
      * apply solid_app in HS; destruct HS as [S1 S2]. eapply M_more with (a1 := []) (a2 := []); [constructor | auto | auto].
    + destruct w as [|x w]; [apply M_choice with MEmpty; [right; left; reflexivity | constructor]|]. inversion HS as [|? ? Hx _]; subst. cbn in H. rewrite Hx in H; discriminate H.
  - rewrite LA_more_inv in H. remember [] as a eqn:Ea in H. induction H as [a w HR|w1 w2 HR HM IHM|x a1 a2 a w1 w2 HR HM IHM Hm]; [subst| |discriminate Ea].
    + apply M_one; auto.
    + apply solid_app in HS; destruct HS as [S1 S2]. eapply M_more with (a1 := []) (a2 := []); [constructor | auto | auto].
  - rewrite LA_value_inv in H. destruct H as (_ & s & w1 & w2 & -> & Hd & H1 & H2). apply solid_app in HS; destruct HS as [S1 S2]. inversion S2 as [|? ? _ S3]; subst.
    assert (w1 = []) as -> by (destruct w1 as [|x w1]; [reflexivity|]; inversion S1 as [|? ? Hx _]; subst; cbn in H1; rewrite Hx in H1; discriminate H1).
    assert (w2 = []) as -> by (destruct w2 as [|x w2]; [reflexivity|]; inversion S3 as [|? ? Hx _]; subst; cbn in H2; rewrite Hx in H2; discriminate H2).
    apply M_value; exact Hd.
  - destruct e as [e|].
    + rewrite LA_except_inv in H. destruct H as (_ & s & w1 & w2 & -> & Hd & He & H1 & H2). apply solid_app in HS; destruct HS as [S1 S2]. inversion S2 as [|? ? _ S3]; subst.
      assert (w1 = []) as -> by (destruct w1 as [|x w1]; [reflexivity|]; inversion S1 as [|? ? Hx _]; subst; cbn in H1; rewrite Hx in H1; discriminate H1).
      assert (w2 = []) as -> by (destruct w2 as [|x w2]; [reflexivity|]; inversion S3 as [|? ? Hx _]; subst; cbn in H2; rewrite Hx in H2; discriminate H2).
      apply M_except; [exact Hd | apply SMA_XM; exact He].
    + rewrite LA_data_inv in H. destruct H as (_ & s & w1 & w2 & -> & Hd & H1 & H2). apply solid_app in HS; destruct HS as [S1 S2]. inversion S2 as [|? ? _ S3]; subst.
      assert (w1 = []) as -> by (destruct w1 as [|x w1]; [reflexivity|]; inversion S1 as [|? ? Hx _]; subst; cbn in H1; rewrite Hx in H1; discriminate H1).
      assert (w2 = []) as -> by (destruct w2 as [|x w2]; [reflexivity|]; inversion S3 as [|? ? Hx _]; subst; cbn in H2; rewrite Hx in H2; discriminate H2).
      apply M_data; exact Hd.
  - rewrite (LA_ref_inv O defs r X [] w Hb) in H. eapply M_ref; [exact Hb | auto].
Qed.

(** weak match without rule 3 *)
Definition W12 (a : list attr) (w : list item) (X : mpat) : Prop :=
  M a w X \/ exists s, w = [Txt s] /\ blank s /\ M a [] X.
Lemma W12_W a w X : W12 a w X -> W a w X.
Proof. intros [H|(s & -> & Hb & H)]; [apply W_1; exact H | apply W_2; assumption]. Qed.
Lemma strip_W12 a w X : M a (strip w) X -> sep w -> W12 a w X.
Proof.
  intros H Hs. destruct (sep_Dec (length w) w (le_n _) Hs) as [(s & -> & Hb)|D].
  - right. exists s. split; [reflexivity|]. split; [exact Hb|]. cbn in H. apply blank_ws in Hb. rewrite Hb in H; exact H.
  - left. eapply M_dec; [exact H | apply strip_solid | exact D].
Qed.

Definition okatts (a : list attr) : Prop := Forall (fun x => ok (a_value x)) a.
Definition Snd (n : nat) (t : ctype) (X : mpat) : Prop :=
  forall a w, esizes w <= n -> okatts a -> fines w -> LA a w X ->
    match t with TA => sep w -> W12 a w X | _ => M a (strip w) X end.
Lemma Snd_lift n t X : t <> TA -> (forall a w, esizes w <= n -> okatts a -> fines w -> LA a w X -> M a (strip w) X) -> Snd n t X.
Proof. intros Ht H a w. destruct t; try congruence; apply H. Qed.
Lemma Snd_low n t X : t <> TA -> Snd n t X -> (forall a w, esizes w <= n -> okatts a -> fines w -> LA a w X -> M a (strip w) X).
Proof. intros Ht H a w. specialize (H a w). destruct t; try congruence; apply H. Qed.
Lemma okatts_merge a b c : merge a b c -> okatts c -> okatts a /\ okatts b.
Proof.
  induction 1 as [|x a b c H IH|x a b c H IH]; intros HS; [split; constructor| |]; inversion HS; subst; destruct (IH ltac:(assumption)) as [I1 I2]; split; try assumption; constructor; assumption.
Qed.

Lemma Snd_map n t X Y : (forall a w, LA a w Y -> LA a w X) -> (forall a w, M a w X -> M a w Y) -> Snd n t X -> Snd n t Y.
Proof.
  intros H1 H2 HX a w Hn Ha Hf HL. specialize (HX a w Hn Ha Hf (H1 _ _ HL)).
  destruct t; auto. intros Hs. destruct (HX Hs) as [H|(s & E & Hb & H)]; [left; auto | right; exists s; auto].
Qed.
Lemma Snd_or n t X Y Z : (forall a w, LA a w Z -> LA a w X \/ LA a w Y) -> (forall a w, M a w X -> M a w Z) -> (forall a w, M a w Y -> M a w Z) ->
  Snd n t X -> Snd n t Y -> Snd n t Z.
Proof.
  intros H0 H1 H2 HX HY a w Hn Ha Hf HL. destruct (H0 _ _ HL) as [H|H].
  - specialize (HX a w Hn Ha Hf H). destruct t; auto. intros Hs. destruct (HX Hs) as [H'|(s & E & Hb & H')]; [left; auto | right; exists s; auto].
  - specialize (HY a w Hn Ha Hf H). destruct t; auto. intros Hs. destruct (HY Hs) as [H'|(s & E & Hb & H')]; [left; auto | right; exists s; auto].
Qed.
Lemma M_ch_l x l a w : M a w x -> M a w (MChoice (x :: l)).
Proof. intros H; eapply M_choice; [left; reflexivity | exact H]. Qed.
Lemma M_ch_r x l a w : M a w (MChoice l) -> M a w (MChoice (x :: l)).
Proof. intros H; inversion H; subst. eapply M_choice; [right; eassumption | assumption]. Qed.
Lemma Snd_empty n t : Snd n t MEmpty.
Proof.
  intros a w _ _ _ H. rewrite LA_empty_inv in H. destruct H as [-> H].
  assert (HM : M [] (strip w) MEmpty) by (rewrite (strip_ws _ H); constructor).
  destruct t; auto. intros Hs; apply strip_W12; assumption.
Qed.
Lemma W12_join a1 a2 a w X Y Z : Permutation a (a1 ++ a2) -> M a1 [] X -> W12 a2 w Y ->
  (forall w, M a1 [] X -> M a2 w Y -> M a w Z) -> W12 a w Z.
Proof.
  intros HP HX [H|(s & -> & Hb & H)] HZ; [left; auto | right; exists s; auto].
Qed.

Theorem sound_all n : forall t X, CT t X -> restr X -> Snd n t X.
Proof.
  induction n as [n IHn] using lt_wf_ind. intros t X HC.
  induction HC as [X HX IH|X HX IH|t x Hx IH|t x y l Hx IHx Hl IHl|t x Hx IH|t x y l Ht Hx IHx Hl IHl|x y l Hx IHx Hl IHl|x y l Hx IHx Hl IHl
    |t x Hx IH|t x y l Ht Hx IHx Hl IHl|x y l Hx IHx Hl IHl|x y l Hx IHx Hl IHl|p Hp IH| | | |t p Hp IH|t p Ht Hp IH|t p Ht Hp IH|nc p Hp IH|nc p|t r X Hb HX IH
    |v|d e|p Hp]; intros HR.
  - exact (IH HR).
  - intros a w Hn Ha Hf HL Hs. apply strip_W12; [|exact Hs]. exact (IH HR a w Hn Ha Hf HL).
  - apply Snd_map with x; [|apply M_ch_l|apply IH, HR]. intros a w H. rewrite LA_ch_inv, LA_ch0 in H. tauto.
  - apply Snd_or with x (MChoice (y :: l)); [| apply M_ch_l | apply M_ch_r | apply IHx, HR | apply IHl; split; [discriminate | apply HR]].
    intros a w H. rewrite LA_ch_inv in H. exact H.
  - apply Snd_map with x; [|apply M_group_one|apply IH, HR]. intros a w H. rewrite LA_gr1_inv in H. exact H.
  - assert (HRx : restr x) by apply HR. assert (HRl : restr (MGroup (y :: l))) by (split; [discriminate | apply HR]).
    apply Snd_lift; [exact Ht|]. intros a w Hn Ha Hf HL. rewrite LA_gr_inv in HL. destruct HL as (a1 & a2 & w1 & w2 & -> & Hm & H1 & H2).
    rewrite esizes_app in Hn. apply (fines_app ok) in Hf; destruct Hf as [F1 F2]. destruct (okatts_merge _ _ _ Hm Ha) as [A1 A2]. rewrite strip_app.
    eapply M_group; [apply merge_perm; exact Hm | apply (Snd_low n t x Ht (IHx HRx)); auto; lia | apply (Snd_low n t _ Ht (IHl HRl)); auto; lia].
  - assert (HRx : restr x) by apply HR. assert (HRl : restr (MGroup (y :: l))) by (split; [discriminate | apply HR]).
    intros a w Hn Ha Hf HL Hs. rewrite LA_gr_inv in HL. destruct HL as (a1 & a2 & w1 & w2 & -> & Hm & H1 & H2).
    pose proof (CT_TE_ws _ _ Hx eq_refl _ _ H1) as Hw1. destruct (okatts_merge _ _ _ Hm Ha) as [A1 A2]. pose proof Hn as Hn'. rewrite esizes_app in Hn'. pose proof Hf as Hf'. apply (fines_app ok) in Hf'; destruct Hf' as [F1 F2].
    assert (M1 : M a1 [] x) by (rewrite <- (strip_ws _ Hw1); apply (IHx HRx); auto; lia).
    assert (W2 : W12 a2 (w1 ++ w2) (MGroup (y :: l))) by (apply (IHl HRl); auto; apply LA_ws_app_l; assumption).
    eapply W12_join; [apply merge_perm; exact Hm | exact M1 | exact W2|]. intros w Hx1 Hy1. change w with ([] ++ w). eapply M_group; [apply merge_perm; exact Hm | exact Hx1 | exact Hy1].
  - assert (HRx : restr x) by apply HR. assert (HRl : restr (MGroup (y :: l))) by (split; [discriminate | apply HR]).
    intros a w Hn Ha Hf HL Hs. rewrite LA_gr_inv in HL. destruct HL as (a1 & a2 & w1 & w2 & -> & Hm & H1 & H2).
    pose proof (CT_TE_ws _ _ Hl eq_refl _ _ H2) as Hw2. destruct (okatts_merge _ _ _ Hm Ha) as [A1 A2]. pose proof Hn as Hn'. rewrite esizes_app in Hn'. pose proof Hf as Hf'. apply (fines_app ok) in Hf'; destruct Hf' as [F1 F2].
    assert (M2 : M a2 [] (MGroup (y :: l))) by (rewrite <- (strip_ws _ Hw2); apply (IHl HRl); auto; lia).
    assert (W1 : W12 a1 (w1 ++ w2) x) by (apply (IHx HRx); auto; apply LA_ws_app_r; assumption).
    assert (HP : Permutation a (a2 ++ a1)) by (etransitivity; [apply merge_perm; exact Hm | apply Permutation_app_comm]).
    eapply W12_join; [exact HP | exact M2 | exact W1|]. intros w Hx1 Hy1. rewrite <- (app_nil_r w). eapply M_group; [apply merge_perm; exact Hm | exact Hy1 | exact Hx1].
  - apply Snd_map with x; [|apply M_inter_one|apply IH, HR]. intros a w H. rewrite LA_in1_inv in H. exact H.
  - assert (HRx : restr x) by apply HR. assert (HRl : restr (MInterleave (y :: l))) by (split; [discriminate | apply HR]).
    apply Snd_lift; [exact Ht|]. intros a w Hn Ha Hf HL. rewrite LA_in_inv in HL. destruct HL as (a1 & a2 & w1 & w2 & Hmw & Hm & H1 & H2).
    rewrite (esizes_merge _ _ _ Hmw) in Hn. destruct (fines_merge ok _ _ _ Hmw Hf) as [F1 F2]. destruct (okatts_merge _ _ _ Hm Ha) as [A1 A2].
    eapply M_inter; [apply merge_perm; exact Hm | apply strip_merge; exact Hmw | apply (Snd_low n t x Ht (IHx HRx)); auto; lia | apply (Snd_low n t _ Ht (IHl HRl)); auto; lia].
  - assert (HRx : restr x) by apply HR. assert (HRl : restr (MInterleave (y :: l))) by (split; [discriminate | apply HR]).
    intros a w Hn Ha Hf HL Hs. rewrite LA_in_inv in HL. destruct HL as (a1 & a2 & w1 & w2 & Hmw & Hm & H1 & H2).
    pose proof (CT_TE_ws _ _ Hx eq_refl _ _ H1) as Hw1. destruct (okatts_merge _ _ _ Hm Ha) as [A1 A2]. pose proof Hn as Hn'. rewrite (esizes_merge _ _ _ Hmw) in Hn'. destruct (fines_merge ok _ _ _ Hmw Hf) as [F1 F2].
    assert (M1 : M a1 [] x) by (rewrite <- (strip_ws _ Hw1); apply (IHx HRx); auto; lia).
    assert (W2 : W12 a2 w (MInterleave (y :: l))) by (apply (IHl HRl); auto; eapply LA_ws_merge; eassumption).
    eapply W12_join; [apply merge_perm; exact Hm | exact M1 | exact W2|]. intros w' Hx1 Hy1. eapply M_inter; [apply merge_perm; exact Hm | apply merge_nil_l | exact Hx1 | exact Hy1].
  - assert (HRx : restr x) by apply HR. assert (HRl : restr (MInterleave (y :: l))) by (split; [discriminate | apply HR]).
    intros a w Hn Ha Hf HL Hs. rewrite LA_in_inv in HL. destruct HL as (a1 & a2 & w1 & w2 & Hmw & Hm & H1 & H2).
    pose proof (CT_TE_ws _ _ Hl eq_refl _ _ H2) as Hw2. destruct (okatts_merge _ _ _ Hm Ha) as [A1 A2]. pose proof Hn as Hn'. rewrite (esizes_merge _ _ _ Hmw) in Hn'. destruct (fines_merge ok _ _ _ Hmw Hf) as [F1 F2].
    assert (M2 : M a2 [] (MInterleave (y :: l))) by (rewrite <- (strip_ws _ Hw2); apply (IHl HRl); auto; lia).
    assert (W1 : W12 a1 w x) by (apply (IHx HRx); auto; eapply LA_ws_merge; [exact Hw2 | apply merge_comm; exact Hmw | exact H1]).
    assert (HP : Permutation a (a2 ++ a1)) by (etransitivity; [apply merge_perm; exact Hm | apply Permutation_app_comm]).
    eapply W12_join; [exact HP | exact M2 | exact W1|]. intros w' Hx1 Hy1. eapply M_inter; [apply merge_perm; exact Hm | apply merge_nil_r | exact Hy1 | exact Hx1].
  - apply Snd_lift; [discriminate|]. intros a w Hn Ha Hf HL. rewrite LA_mixed_inv in HL. destruct HL as (w1 & w2 & Hmw & H1 & H2).
    rewrite (esizes_merge _ _ _ Hmw) in Hn. destruct (fines_merge ok _ _ _ Hmw Hf) as [F1 F2].
    apply M_mixed. eapply M_inter with (a1 := a) (a2 := []); [rewrite app_nil_r; reflexivity | apply strip_merge; exact Hmw | apply (IH HR); auto; lia|].
    apply M_inter_one, M_text, strip_txt; exact H2.
  - apply Snd_empty.
  - intros a w _ _ _ H. rewrite LA_na_inv in H; destruct H.
  - apply Snd_lift; [discriminate|]. intros a w _ _ _ H. rewrite LA_text_inv in H. destruct H as [-> H]. apply M_text, strip_txt; exact H.
  - apply Snd_or with p MEmpty; [| | |apply (IH HR)|apply Snd_empty].
    + intros a w H. rewrite LA_opt_inv in H. rewrite LA_empty_inv. exact H.
    + intros a w H. apply M_optional, M_ch_l; exact H.
    + intros a w H. apply M_optional, M_ch_r, M_ch_l; exact H.
  - assert (HRp : restr p) by apply HR. assert (Hone : Snd n t (MOneOrMore p)).
    { apply Snd_lift; [exact Ht|]. intros a w Hn Ha Hf HL. rewrite LA_more_inv in HL.
      induction HL as [a w HRR|w1 w2 HRR HM IHM|x a1 a2 a w1 w2 HRR HM IHM Hm].
      - apply M_one. apply (Snd_low n t p Ht (IH HRp)); auto.
      - rewrite esizes_app in Hn. apply (fines_app ok) in Hf; destruct Hf as [F1 F2]. rewrite strip_app. eapply M_more with (a1 := []) (a2 := []); [constructor | |apply IHM; auto; lia].
        apply (Snd_low n t p Ht (IH HRp)); auto; lia.
      - rewrite esizes_app in Hn. apply (fines_app ok) in Hf; destruct Hf as [F1 F2]. rewrite strip_app.
        inversion Ha as [|? ? Hx Ha']; subst. destruct (okatts_merge _ _ _ Hm Ha') as [A1 A2].
        eapply M_more with (a1 := x :: a1) (a2 := a2); [cbn; constructor; apply merge_perm; exact Hm | |apply IHM; auto; lia].
        apply (Snd_low n t p Ht (IH HRp)); auto; [lia | constructor; assumption]. }
    apply Snd_or with (MOneOrMore p) MEmpty; [| | |exact Hone|apply Snd_empty].
    + intros a w H. rewrite LA_zero_inv in H. rewrite LA_empty_inv. exact H.
    + intros a w H. apply M_zero, M_ch_l; exact H.
    + intros a w H. apply M_zero, M_ch_r, M_ch_l; exact H.
  - assert (HRp : restr p) by apply HR.
    apply Snd_lift; [exact Ht|]. intros a w Hn Ha Hf HL. rewrite LA_more_inv in HL.
    induction HL as [a w HRR|w1 w2 HRR HM IHM|x a1 a2 a w1 w2 HRR HM IHM Hm].
    + apply M_one. apply (Snd_low n t p Ht (IH HRp)); auto.
    + rewrite esizes_app in Hn. apply (fines_app ok) in Hf; destruct Hf as [F1 F2]. rewrite strip_app. eapply M_more with (a1 := []) (a2 := []); [constructor | |apply IHM; auto; lia].
      apply (Snd_low n t p Ht (IH HRp)); auto; lia.
    + rewrite esizes_app in Hn. apply (fines_app ok) in Hf; destruct Hf as [F1 F2]. rewrite strip_app.
      inversion Ha as [|? ? Hx Ha']; subst. destruct (okatts_merge _ _ _ Hm Ha') as [A1 A2].
      eapply M_more with (a1 := x :: a1) (a2 := a2); [cbn; constructor; apply merge_perm; exact Hm | |apply IHM; auto; lia].
      apply (Snd_low n t p Ht (IH HRp)); auto; [lia | constructor; assumption].
  - apply Snd_lift; [discriminate|]. intros a w Hn Ha Hf HL. rewrite LA_attr_inv in HL. destruct HL as (x & -> & Hc & Hw & Hv).
    rewrite (strip_ws _ Hw). apply M_attribute; [apply contains_in_class; exact Hc|]. inversion Ha as [|? ? Hx _]; subst.
    destruct Hv as [Hv|[Hb Hv]].
    + apply W12_W. apply (IH HR); [cbn; lia | constructor | cbn; auto | exact Hv | exact I].
    + assert (H : W12 [] [] p) by (apply (IH HR); [cbn; lia | constructor | exact I | exact Hv | exact I]).
      destruct H as [H|(s & E & _)]; [|discriminate E]. apply W_2; [apply blank_ws; exact Hb | exact H].
  - apply Snd_lift; [discriminate|]. intros a w Hn Ha Hf HL. rewrite LA_elem_inv in HL. destruct HL as (-> & nm & b & k & w1 & w2 & -> & Hc & Hk & H1 & H2).
    rewrite esizes_app in Hn. cbn [esizes] in Hn. rewrite esize_elm in Hn. apply (fines_app ok) in Hf; destruct Hf as [_ [Hf _]]. apply (proj1 (fine_elm _ _ _ _)) in Hf. destruct Hf as (Fa & Fk & Fks).
    rewrite strip_app. cbn [strip filter ws_item negb]. fold (strip w2). rewrite (strip_ws _ H1), (strip_ws _ H2). cbn [app].
    apply (M_element _ _ _ nc p nm b k [] []); [apply contains_in_class; exact Hc | exact Fk | | left; reflexivity | left; reflexivity].
    destruct HR as [HRp HCp]. apply W12_W. apply (IHn (esizes k) ltac:(lia) TA p HCp HRp); auto. apply Fk.
  - apply Snd_map with X; [| |apply (IH (Hrestr _ _ Hb))].
    + intros a w H. rewrite (LA_ref_inv O defs r X a w Hb) in H; exact H.
    + intros a w H. eapply M_ref; eassumption.
  - intros a w Hn Ha Hf HL Hs. rewrite LA_value_inv in HL. destruct HL as (-> & s & w1 & w2 & -> & Hd & H1 & H2).
    destruct (sep_mid _ _ _ Hs H1 H2) as [-> ->]. left. apply M_value; exact Hd.
  - intros a w Hn Ha Hf HL Hs. destruct e as [e|].
    + rewrite LA_except_inv in HL. destruct HL as (-> & s & w1 & w2 & -> & Hd & He & H1 & H2).
      destruct (sep_mid _ _ _ Hs H1 H2) as [-> ->]. left. apply M_except; [exact Hd | apply SMA_XM; exact He].
    + rewrite LA_data_inv in HL. destruct HL as (-> & s & w1 & w2 & -> & Hd & H1 & H2).
      destruct (sep_mid _ _ _ Hs H1 H2) as [-> ->]. left. apply M_data; exact Hd.
  - intros a w Hn Ha Hf HL Hs. rewrite LA_list_inv in HL. destruct HL as (-> & ss & -> & Hne & Hp1).
    destruct (sep_map _ Hs Hne) as [s ->]. cbn [map flat_map] in *. rewrite app_nil_r in Hp1. left. apply M_list.
    destruct Hf as [Hf _]. cbn in Hf. rewrite <- (ok_split _ Hf). apply list_sound; [exact Hp | exact Hp1|].
    apply Forall_forall. intros x Hx. apply in_map_iff in Hx. destruct Hx as (t & <- & Hin). cbn. eapply token_not_ws; exact Hin.
Qed.

(** ** completeness (without weak match 3) *)
Lemma all_txt_Forall m : Forall (fun i => exists s, i = Txt s) m -> all_txt m = true.
Proof. induction 1 as [|x m [s ->] H IH]; cbn; auto. Qed.
Lemma ws_all m : ws m -> all_ws m = true.
Proof. intros [->|(s & -> & Hb)]; [reflexivity|]. cbn. apply blank_ws in Hb. unfold is_whitespace_str in Hb |- *. rewrite Hb; reflexivity. Qed.

Theorem complete_all : w3 = false ->
  (forall a m X, M a m X -> restr X -> okatts a -> fines m -> LA a m X) /\
  (forall a m X, W a m X -> restr X -> okatts a -> fines m -> LA a m X \/ (exists s, m = [Txt s] /\ blank s /\ LA a [] X)).
Proof.
  intros Hw3. apply MW_ind.
  - intros x l a m Hin Hx IH HR Ha Hf. eapply A_ch; [exact Hin | apply IH; auto]. eapply restr_mkl_in; [apply HR | exact Hin].
  - intros x a m Hx IH HR Ha Hf. apply A_gr1, IH; auto. apply HR.
  - intros x y l a1 a2 a m1 m2 HP Hx IHx Hl IHl HR Ha Hf. apply (fines_app ok) in Hf; destruct Hf as [F1 F2].
    assert (Ha' : okatts (a1 ++ a2)) by (eapply Permutation_Forall; [exact HP | exact Ha]). apply Forall_app in Ha'; destruct Ha' as [A1 A2].
    assert (HRl : restr (MGroup (y :: l))) by (split; [discriminate | apply HR]).
    eapply (LA_perm O defs Hrestr); [|exact HR|symmetry; exact HP]. eapply A_gr; [apply merge_app | apply IHx; auto; apply HR | apply IHl; auto].
  - intros x a m Hx IH HR Ha Hf. apply A_in1, IH; auto. apply HR.
  - intros x y l a1 a2 a m1 m2 m HP Hm Hx IHx Hl IHl HR Ha Hf. destruct (fines_merge ok _ _ _ Hm Hf) as [F1 F2].
    assert (Ha' : okatts (a1 ++ a2)) by (eapply Permutation_Forall; [exact HP | exact Ha]). apply Forall_app in Ha'; destruct Ha' as [A1 A2].
    assert (HRl : restr (MInterleave (y :: l))) by (split; [discriminate | apply HR]).
    eapply (LA_perm O defs Hrestr); [|exact HR|symmetry; exact HP]. eapply A_in; [apply merge_app | exact Hm | apply IHx; auto; apply HR | apply IHl; auto].
  - intros p a m Hp IH HR Ha Hf. assert (H : LA a m (MInterleave [p; MText])) by (apply IH; auto; split; [discriminate | cbn; auto]).
    rewrite LA_in_inv in H. destruct H as (a1 & a2 & w1 & w2 & Hmw & Hm & H1 & H2). rewrite LA_in1_inv, LA_text_inv in H2. destruct H2 as [-> H2].
    apply merge_nil_r_inv in Hm; subst a1. eapply A_mixed; eassumption.
  - intros p a m Hp IH HR Ha Hf. assert (H : LA a m (MChoice [p; MEmpty])) by (apply IH; auto; split; [discriminate | cbn; auto]).
    rewrite !LA_ch_inv, LA_ch0, LA_empty_inv in H. apply LA_opt_inv. tauto.
  - intros p a m Hp IH HR Ha Hf. assert (H : LA a m (MChoice [MOneOrMore p; MEmpty])) by (apply IH; auto; split; [discriminate | cbn; auto]).
    rewrite !LA_ch_inv, LA_ch0, LA_empty_inv in H. apply LA_zero_inv. tauto.
  - intros p a m Hp IH HR Ha Hf. apply A_one, IH; auto. apply HR.
  - intros p a1 a2 a m1 m2 HP Hp IHp Hq IHq HR Ha Hf. apply (fines_app ok) in Hf; destruct Hf as [F1 F2].
    assert (Ha' : okatts (a1 ++ a2)) by (eapply Permutation_Forall; [exact HP | exact Ha]). apply Forall_app in Ha'; destruct Ha' as [A1 A2].
    eapply more_perm; [apply HR | | symmetry; exact HP]. apply more_union; [apply HR | apply IHp; auto; apply HR | apply IHq; auto].
  - intros _ _ _. apply A_empty; reflexivity.
  - intros m Hm _ _ _. apply A_text, all_txt_Forall; exact Hm.
  - intros nc p x Hc Hw IH HR Ha Hf. inversion Ha as [|? ? Hx _]; subst. apply A_attr; [apply contains_in_class; exact Hc | | reflexivity].
    destruct (IH HR ltac:(constructor)) as [H|(s & E & Hb & H)]; [cbn; auto | left; exact H|]. injection E as <-. right. split; [apply blank_ws; exact Hb | exact H].
  - intros nc p nm a k ws1 ws2 Hc Hk Hw IH H1 H2 HR Ha Hf. apply (fines_app ok) in Hf; destruct Hf as [_ [Hf _]]. apply (proj1 (fine_elm _ _ _ _)) in Hf. destruct Hf as (Fa & _ & Fk).
    apply A_elem; [apply contains_in_class; exact Hc | | apply ws_all; exact H1 | apply ws_all; exact H2].
    destruct (IH (proj1 HR) Fa Fk) as [H|(s & -> & Hb & H)]; [exact H|]. apply (LA_ws_insert O defs p a [] H [] [] s eq_refl). apply blank_ws; exact Hb.
  - intros r X a m Hb HX IH HR Ha Hf. eapply A_ref; [exact Hb | apply IH; auto]. eapply Hrestr; exact Hb.
  - intros d s Hd _ _ _. apply (A_data O defs d s [] []); auto.
  - intros d e s Hd He _ _ _. apply (A_except O defs d e s [] []); auto. apply SMA_XM; exact He.
  - intros v s Hd _ _ _. apply (A_value O defs v s [] []); auto.
  - intros p s Hp IH HR Ha Hf. destruct Hf as [Hf _]. cbn in Hf. apply (A_list O defs p [s]); [discriminate|].
    cbn. rewrite app_nil_r, (ok_split _ Hf). apply IH; auto.
    assert (HF : Forall ok (split_on sp [] s)).
    { apply Forall_forall. intros t Ht. rewrite <- (ok_split _ Hf) in Ht. exact (ok_token s t Hf Ht). }
    clear -HF. revert HF. generalize (split_on sp [] s). intros l HF. induction HF as [|x l Hx HF IH]; cbn; auto.
  - intros a m p Hm IH HR Ha Hf. left; auto.
  - intros a s p Hb Hm IH HR Ha Hf. right. exists s. split; [reflexivity|]. split; [exact Hb|]. apply IH; auto. exact I.
  - intros a p E. congruence.
Qed.
End Sound.
