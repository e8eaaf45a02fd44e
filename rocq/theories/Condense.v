(** * Condense: what a document accepted with its character data in any pieces is valid as.

    The tokenizer delivers character data in pieces (text, CDATA sections, text around comments
    and processing instructions).  Where the schema has data, values or lists the validator does
    not join them.  [condensed i j] says which single strings the pieces may be taken as. *)
From Coq Require Import Permutation.
From Verif Require Import Base Datatype Store Deriv Events Lang LangFacts Wp Doc DocProof Accept Compile Schema CompileProof Final LangA Spec SpecFacts Sound Scope Infoset InfosetProof Split Main View.

(** ** Specification *)
(** the strings with a space between them *)
Fixpoint spaced (ss : list str) : str :=
  match ss with [] => [] | [s] => s | s :: ss' => s ++ 32%N :: spaced ss' end.
(** an empty string is nothing *)
Definition tidy (k : list item) : list item := match k with [Txt []] => [] | _ => k end.
(** the ways to take the children [k] of an element *)
Inductive taken_as (k : list item) : list item -> Prop :=
| ta_joined : taken_as k (joined k)                       (* adjacent strings joined *)
| ta_one l1 s l2 : k = map Txt (l1 ++ s :: l2) -> Forall blank (l1 ++ l2) ->
    taken_as k (tidy [Txt s])                             (* all but one of the pieces are blank: that one alone *)
| ta_spaced ss : k = map Txt ss -> ss <> [] ->
    taken_as k (tidy [Txt (spaced ss)]).                  (* with a space between any two pieces *)
Inductive condensed : item -> item -> Prop :=
| cd_txt s : condensed (Txt s) (Txt s)
| cd_elm n a k k1 k2 : Forall2 condensed k k1 -> taken_as k1 k2 -> condensed (Elm n a k) (Elm n a k2).

(** ** Without [tidy] *)
Inductive cond (k : list item) : list item -> Prop :=
| cond_joined : cond k (joined k)
| cond_one l1 s l2 : k = map Txt (l1 ++ s :: l2) -> Forall blank (l1 ++ l2) -> cond k [Txt s]
| cond_spaced ss : k = map Txt ss -> ss <> [] -> cond k [Txt (spaced ss)].
Inductive cdd : item -> item -> Prop :=
| cdd_txt s : cdd (Txt s) (Txt s)
| cdd_elm n a k k1 k2 : Forall2 cdd k k1 -> cond k1 k2 -> cdd (Elm n a k) (Elm n a k2).
Fixpoint tidied (i : item) : item := match i with Txt s => Txt s | Elm n a k => Elm n a (tidy (map tidied k)) end.

Lemma joined_ne k : ~ In (Txt []) (joined k).
Proof.
  induction k as [|[s|n a b] k IH]; cbn [joined]; [auto| |].
  - destruct (joined k) as [|[s'|n' a' k'] r].
    + destruct s; [exact IH|]. intros [E|[]]; discriminate E.
    + intros [E|H]; [|apply IH; right; exact H]. injection E as E. apply app_eq_nil in E. destruct E as [_ ->]. apply IH; left; reflexivity.
    + destruct s; [exact IH|]. intros [E|H]; [discriminate E | exact (IH H)].
  - intros [E|H]; [discriminate E | exact (IH H)].
Qed.
Lemma joined_sep k : sep (joined k).
Proof.
  induction k as [|[s|n a b] k IH]; cbn [joined]; [exact I| |exact IH].
  destruct (joined k) as [|[s'|n' a' k'] r]; [destruct s; exact I | | destruct s; exact IH].
  destruct r as [|[|] r]; [exact I | exact IH | exact IH].
Qed.
Lemma joined_tidied k : joined (map tidied k) = map tidied (joined k).
Proof.
  induction k as [|[s|n a b] k IH]; cbn [map tidied joined]; [reflexivity| |rewrite IH; reflexivity].
  rewrite IH. destruct (joined k) as [|[s'|n' a' k'] r]; cbn [map tidied]; [destruct s; reflexivity | reflexivity | destruct s; reflexivity].
Qed.
Lemma tidied_texts ss : map tidied (map Txt ss) = map Txt ss.
Proof. induction ss; cbn; congruence. Qed.
Lemma tidy_ne k : ~ In (Txt []) k -> tidy k = k.
Proof. destruct k as [|[[|]|] [|]]; cbn; intros H; try reflexivity. destruct H; left; reflexivity. Qed.
Lemma tidied_ne k : ~ In (Txt []) k -> ~ In (Txt []) (map tidied k).
Proof. intros H Hin. apply in_map_iff in Hin. destruct Hin as ([s|] & E & Hin); [|discriminate E]. cbn in E. injection E as ->. exact (H Hin). Qed.
Lemma cond_taken k k' : cond k k' -> taken_as (map tidied k) (tidy (map tidied k')).
Proof.
  intros [|l1 s l2 -> Hb|ss -> Hne].
  - rewrite <- joined_tidied, tidy_ne by apply joined_ne. constructor.
  - rewrite tidied_texts. cbn [map tidied]. eapply ta_one; [reflexivity | exact Hb].
  - rewrite tidied_texts. cbn [map tidied]. eapply ta_spaced; [reflexivity | exact Hne].
Qed.
Lemma cdd_condensed : forall i j, cdd i j -> condensed i (tidied j).
Proof.
  fix IH 3. intros i j [s|n a k k1 k2 HF HC]; [constructor|]. cbn [tidied]. apply (cd_elm n a k (map tidied k1)); [|apply cond_taken; exact HC]. clear HC.
  induction HF as [|x y k k1 Hxy HF IHF]; cbn [map]; [constructor|]. constructor; [apply IH; exact Hxy | apply IHF].
Qed.

Section Deep.
Variable O : oracles.
Variable defs : list mpat.
Notation LA := (LA O defs).
Notation CT := (CT defs).
Notation restr := (restr defs).
Hypothesis Hrestr : forall r X, deref defs r = Some X -> restr X.

Lemma split_spaced s t : split_whitespace (s ++ 32%N :: t) = split_whitespace s ++ split_whitespace t.
Proof.
  unfold split_whitespace. generalize (@nil N) at 1 2. induction s as [|c s IH]; intros cur; cbn [app split_on].
  - change (is_uni_ws 32) with true. cbn iota. destruct cur; reflexivity.
  - destruct (is_uni_ws c); [destruct cur; cbn [app]; rewrite IH; reflexivity | apply IH].
Qed.
Lemma split_all ss : split_whitespace (spaced ss) = flat_map split_whitespace ss.
Proof.
  induction ss as [|s [|s' ss] IH]; [reflexivity | cbn; rewrite app_nil_r; reflexivity|].
  change (spaced (s :: s' :: ss)) with (s ++ 32%N :: spaced (s' :: ss)). rewrite split_spaced, IH. reflexivity.
Qed.
Lemma all_ws_blank w : all_ws w = true -> exists l, w = map Txt l /\ Forall blank l.
Proof.
  induction w as [|[s|] w IH]; cbn; intros H; [exists []; split; [reflexivity | constructor]| |discriminate H].
  apply andb_true_iff in H. destruct H as [H1 H2]. destruct (IH H2) as (l & -> & Hl). exists (s :: l). split; [reflexivity|]. constructor; [apply blank_ws; exact H1 | exact Hl].
Qed.
Lemma joined_ws w : all_ws w = true -> all_ws (joined w) = true.
Proof.
  induction w as [|[s|] w IH]; cbn [joined]; intros H; [reflexivity| |discriminate H]. cbn in H. apply andb_true_iff in H. destruct H as [H1 H2]. specialize (IH H2).
  destruct (joined w) as [|[s'|] r].
  - destruct s; [reflexivity|]. unfold all_ws. cbn [forallb ws_item]. rewrite H1. reflexivity.
  - unfold all_ws in *. cbn [forallb ws_item] in *. rewrite ws_app, H1. exact IH.
  - destruct s; [exact IH|]. unfold all_ws in *. cbn [forallb ws_item] in *. rewrite H1. exact IH.
Qed.
Lemma drop_all t X : CT t X -> t <> TA -> forall w a, LA a w X -> all_ws w = true -> LA a [] X.
Proof.
  intros HC Ht. induction w as [|[s|] w IH]; intros a H Hw; [exact H| |discriminate Hw].
  cbn in Hw. apply andb_true_iff in Hw. destruct Hw as [H1 H2]. apply IH; [|exact H2].
  apply (LA_swap O defs t X HC Ht a [] s w [] H). right; reflexivity.
Qed.
Lemma one_piece s w1 w2 : all_ws w1 = true -> all_ws w2 = true -> cond (w1 ++ Txt s :: w2) [Txt s].
Proof.
  intros H1 H2. destruct (all_ws_blank _ H1) as (l1 & -> & B1). destruct (all_ws_blank _ H2) as (l2 & -> & B2).
  apply (cond_one _ l1 s l2); [rewrite map_app; reflexivity | apply Forall_app; auto].
Qed.

Lemma condense1 t X : CT t X -> forall a w, LA a w X -> exists k, cond w k /\ LA a k X.
Proof.
  assert (HJ : forall t X a w, CT t X -> t <> TA -> LA a w X -> exists k, cond w k /\ LA a k X).
  { intros t0 X0 a w HC Ht H. exists (joined w). split; [constructor | apply (LA_joined O defs t0 X0 a w HC Ht); exact H]. }
  intros HC. destruct t; [intros a w; apply (HJ TE); [exact HC | discriminate] | intros a w; apply (HJ TN); [exact HC | discriminate]|].
  remember TA as t eqn:Et in HC. revert Et.
  induction HC as [X HX IH|X HX IH|t x Hx IH|t x y l Hx IHx Hl IHl|t x Hx IH|t x y l Ht Hx IHx Hl IHl|x y l Hx IHx Hl IHl|x y l Hx IHx Hl IHl
    |t x Hx IH|t x y l Ht Hx IHx Hl IHl|x y l Hx IHx Hl IHl|x y l Hx IHx Hl IHl|p Hp IH| | | |t p Hp IH|t p Ht Hp IH|t p Ht Hp IH|nc p Hp IH|nc p|t r X Hb HX IH
    |v|d e|p Hp]; intros Et; try discriminate Et; try congruence; intros a w H.
  - exact (HJ TN X a w HX ltac:(discriminate) H).
  - rewrite LA_ch_inv, LA_ch0 in H. destruct H as [H|[]]. destruct (IH Et _ _ H) as (k & Hk & HL). exists k. split; [exact Hk|]. rewrite LA_ch_inv. left; exact HL.
  - rewrite LA_ch_inv in H. destruct H as [H|H]; [destruct (IHx Et _ _ H) as (k & Hk & HL) | destruct (IHl Et _ _ H) as (k & Hk & HL)];
      exists k; (split; [exact Hk|]); rewrite LA_ch_inv; [left | right]; exact HL.
  - rewrite LA_gr1_inv in H. destruct (IH Et _ _ H) as (k & Hk & HL). exists k. split; [exact Hk | apply A_gr1; exact HL].
  - rewrite LA_gr_inv in H. destruct H as (a1 & a2 & w1 & w2 & -> & Hm & H1 & H2). pose proof (CT_TE_ws O defs _ _ Hx eq_refl _ _ H1) as Hw.
    destruct (IHl eq_refl _ _ (LA_ws_app_l O defs _ _ _ _ Hw H2)) as (k & Hk & HL). exists k. split; [exact Hk|].
    change k with ([] ++ k). eapply A_gr; [exact Hm | eapply drop_all; [exact Hx | discriminate | exact H1 | exact Hw] | exact HL].
  - rewrite LA_gr_inv in H. destruct H as (a1 & a2 & w1 & w2 & -> & Hm & H1 & H2). pose proof (CT_TE_ws O defs _ _ Hl eq_refl _ _ H2) as Hw.
    destruct (IHx eq_refl _ _ (LA_ws_app_r O defs _ _ _ _ Hw H1)) as (k & Hk & HL). exists k. split; [exact Hk|].
    rewrite <- (app_nil_r k). eapply A_gr; [exact Hm | exact HL | eapply drop_all; [exact Hl | discriminate | exact H2 | exact Hw]].
  - rewrite LA_in1_inv in H. destruct (IH Et _ _ H) as (k & Hk & HL). exists k. split; [exact Hk | apply A_in1; exact HL].
  - rewrite LA_in_inv in H. destruct H as (a1 & a2 & w1 & w2 & Hmw & Hm & H1 & H2). pose proof (CT_TE_ws O defs _ _ Hx eq_refl _ _ H1) as Hw.
    destruct (IHl eq_refl _ _ (LA_ws_merge O defs _ _ _ _ _ Hw Hmw H2)) as (k & Hk & HL). exists k. split; [exact Hk|].
    eapply A_in; [exact Hm | apply merge_all_r | eapply drop_all; [exact Hx | discriminate | exact H1 | exact Hw] | exact HL].
  - rewrite LA_in_inv in H. destruct H as (a1 & a2 & w1 & w2 & Hmw & Hm & H1 & H2). pose proof (CT_TE_ws O defs _ _ Hl eq_refl _ _ H2) as Hw.
    destruct (IHx eq_refl _ _ (LA_ws_merge O defs _ _ _ _ _ Hw (merge_comm _ _ _ Hmw) H1)) as (k & Hk & HL). exists k. split; [exact Hk|].
    eapply A_in; [exact Hm | apply merge_all_l | exact HL | eapply drop_all; [exact Hl | discriminate | exact H2 | exact Hw]].
  - rewrite LA_opt_inv in H. destruct H as [H|[-> H]].
    + destruct (IH Et _ _ H) as (k & Hk & HL). exists k. split; [exact Hk | apply A_opt1; exact HL].
    + exists (joined w). split; [constructor | apply A_opt0, joined_ws; exact H].
  - rewrite (LA_ref_inv O defs r X a w Hb) in H. destruct (IH Et _ _ H) as (k & Hk & HL). exists k. split; [exact Hk | eapply A_ref; eassumption].
  - rewrite LA_value_inv in H. destruct H as (-> & s & w1 & w2 & -> & Hd & H1 & H2). exists [Txt s]. split; [apply one_piece; assumption|].
    apply (A_value O defs v s [] []); auto.
  - destruct e as [e|].
    + rewrite LA_except_inv in H. destruct H as (-> & s & w1 & w2 & -> & Hd & He & H1 & H2). exists [Txt s]. split; [apply one_piece; assumption|].
      apply (A_except O defs d e s [] []); auto.
    + rewrite LA_data_inv in H. destruct H as (-> & s & w1 & w2 & -> & Hd & H1 & H2). exists [Txt s]. split; [apply one_piece; assumption|].
      apply (A_data O defs d s [] []); auto.
  - rewrite LA_list_inv in H. destruct H as (-> & ss & -> & Hne & H). exists [Txt (spaced ss)]. split; [apply (cond_spaced _ ss); auto|].
    apply (A_list O defs p [spaced ss]); [discriminate|]. cbn [flat_map]. rewrite app_nil_r, split_all. exact H.
Qed.

Lemma cdd_refl w : all_txt w = true -> Forall2 cdd w w.
Proof. induction w as [|[s|] w IH]; cbn; intros H; [constructor | constructor; [constructor | auto] | discriminate H]. Qed.
Lemma F2_merge {A B} (R : A -> B -> Prop) u v w : merge u v w -> forall u' v', Forall2 R u u' -> Forall2 R v v' -> exists w', merge u' v' w' /\ Forall2 R w w'.
Proof.
  induction 1 as [|x a b c H IH|x a b c H IH]; intros u' v' H1 H2.
  - inversion H1; inversion H2; subst. exists []. split; constructor.
  - inversion H1 as [|? y ? u1 Hxy H1']; subst. destruct (IH _ _ H1' H2) as (w' & Hm & HF). exists (y :: w'). split; constructor; assumption.
  - inversion H2 as [|? y ? u1 Hxy H2']; subst. destruct (IH _ _ H1 H2') as (w' & Hm & HF). exists (y :: w'). split; constructor; assumption.
Qed.

Lemma condense_deep a w X : LA a w X -> restr X -> exists w', Forall2 cdd w w' /\ LA a w' X.
Proof.
  induction 1 as [x l a w Hin Hx IH|x a w Hx IH|x y l a1 a2 a u1 u2 Hm Hx IHx Hl IHl|x a w Hx IH|x y l a1 a2 a u1 u2 w Hm Hmw Hx IHx Hl IHl
    |p a w1 w2 w Hp IH H2 Hmw|p a w Hp IH|p w Hw|p a w Hp IH|p w Hw|p a w Hp IH|p w1 w2 H1 IH1 H2 IH2|p x a1 a2 a w1 w2 H1 IH1 H2 IH2 Hm
    |w Hw|w Hw|nc p x w Hc Hv Hw|nc p nm a k w1 w2 Hc Hk IHk Hw1 Hw2|r X a w Hb HX IH|d s w1 w2 Hd Hw1 Hw2|v s w1 w2 Hd Hw1 Hw2|d e s w1 w2 Hd He Hw1 Hw2|p ss Hne Hp IH];
    intros HO.
  - destruct (IH (restr_mkl_in defs l x (proj2 HO) Hin)) as (w' & HF & HL). exists w'. split; [exact HF | eapply A_ch; eassumption].
  - destruct (IH (proj1 (proj2 HO))) as (w' & HF & HL). exists w'. split; [exact HF | apply A_gr1; exact HL].
  - destruct (IHx (proj1 (proj2 HO))) as (v1 & F1 & L1). assert (HRl : restr (MGroup (y :: l))) by (split; [discriminate | apply HO]). destruct (IHl HRl) as (v2 & F2 & L2).
    exists (v1 ++ v2). split; [apply Forall2_app; assumption | eapply A_gr; eassumption].
  - destruct (IH (proj1 (proj2 HO))) as (w' & HF & HL). exists w'. split; [exact HF | apply A_in1; exact HL].
  - destruct (IHx (proj1 (proj2 HO))) as (v1 & F1 & L1). assert (HRl : restr (MInterleave (y :: l))) by (split; [discriminate | apply HO]). destruct (IHl HRl) as (v2 & F2 & L2).
    destruct (F2_merge _ _ _ _ Hmw _ _ F1 F2) as (w' & Hm' & HF). exists w'. split; [exact HF | eapply A_in; eassumption].
  - destruct (IH HO) as (v1 & F1 & L1). destruct (F2_merge _ _ _ _ Hmw _ _ F1 (cdd_refl _ H2)) as (w' & Hm' & HF).
    exists w'. split; [exact HF | eapply A_mixed; eassumption].
  - destruct (IH HO) as (w' & HF & HL). exists w'. split; [exact HF | apply A_opt1; exact HL].
  - exists w. split; [apply cdd_refl, all_ws_txt; exact Hw | apply A_opt0; exact Hw].
  - destruct (IH HO) as (w' & HF & HL). exists w'. split; [exact HF | apply A_zero1; exact HL].
  - exists w. split; [apply cdd_refl, all_ws_txt; exact Hw | apply A_zero0; exact Hw].
  - destruct (IH (proj1 HO)) as (w' & HF & HL). exists w'. split; [exact HF | apply A_one; exact HL].
  - destruct (IH1 (proj1 HO)) as (v1 & F1 & L1). destruct (IH2 HO) as (v2 & F2 & L2).
    exists (v1 ++ v2). split; [apply Forall2_app; assumption | eapply A_more_nil; eassumption].
  - destruct (IH1 (proj1 HO)) as (v1 & F1 & L1). destruct (IH2 HO) as (v2 & F2 & L2).
    exists (v1 ++ v2). split; [apply Forall2_app; assumption | eapply A_more_cons; eassumption].
  - exists w. split; [apply cdd_refl, all_ws_txt; exact Hw | apply A_empty; exact Hw].
  - exists w. split; [apply cdd_refl; exact Hw | apply A_text; exact Hw].
  - exists w. split; [apply cdd_refl, all_ws_txt; exact Hw | apply A_attr; assumption].
  - destruct HO as [HO HC]. destruct (IHk HO) as (k1 & F1 & L1). destruct (condense1 TA p HC _ _ L1) as (k2 & Hk2 & L2).
    exists (w1 ++ Elm nm a k2 :: w2). split; [|apply A_elem; assumption].
    apply Forall2_app; [apply cdd_refl, all_ws_txt; exact Hw1|]. constructor; [econstructor; eassumption | apply cdd_refl, all_ws_txt; exact Hw2].
  - destruct (IH (Hrestr _ _ Hb)) as (w' & HF & HL). exists w'. split; [exact HF | eapply A_ref; eassumption].
  - exists (w1 ++ Txt s :: w2). split; [|apply A_data; assumption].
    apply Forall2_app; [apply cdd_refl, all_ws_txt; exact Hw1|]. constructor; [constructor | apply cdd_refl, all_ws_txt; exact Hw2].
  - exists (w1 ++ Txt s :: w2). split; [|apply A_value; assumption].
    apply Forall2_app; [apply cdd_refl, all_ws_txt; exact Hw1|]. constructor; [constructor | apply cdd_refl, all_ws_txt; exact Hw2].
  - exists (w1 ++ Txt s :: w2). split; [|apply A_except; assumption].
    apply Forall2_app; [apply cdd_refl, all_ws_txt; exact Hw1|]. constructor; [constructor | apply cdd_refl, all_ws_txt; exact Hw2].
  - exists (map Txt ss). split; [apply cdd_refl, all_txt_map | apply A_list; assumption].
Qed.
End Deep.

(** ** Soundness with a lone empty string among the children of an element (weak match 3) *)
Section Near.
Variable ok : str -> Prop.
Definition near_kids (k : list item) : Prop := sep k /\ (k = [Txt []] \/ ~ In (Txt []) k).
Fixpoint near (i : item) : Prop :=
  match i with
  | Txt s => ok s
  | Elm _ atts kids =>
      Forall (fun x => ok (a_value x)) atts /\ near_kids kids /\
      (fix go (ks : list item) : Prop := match ks with [] => True | k :: ks' => near k /\ go ks' end) kids
  end.
Fixpoint nears (ks : list item) : Prop := match ks with [] => True | k :: ks' => near k /\ nears ks' end.
Lemma near_elm nm a k : near (Elm nm a k) <-> Forall (fun x => ok (a_value x)) a /\ near_kids k /\ nears k.
Proof. reflexivity. Qed.
Lemma nears_app u v : nears (u ++ v) <-> nears u /\ nears v.
Proof. induction u as [|x u IH]; cbn; [tauto | rewrite IH; tauto]. Qed.
Lemma nears_merge u v w : merge u v w -> nears w -> nears u /\ nears v.
Proof. induction 1; cbn; tauto. Qed.
End Near.

Definition tstrip (w : list item) : list item := strip (map tidied w).
Lemma ws_tidied x : ws_item (tidied x) = ws_item x.
Proof. destruct x; reflexivity. Qed.
Lemma all_ws_tidied w : all_ws (map tidied w) = all_ws w.
Proof. induction w as [|x w IH]; cbn; [reflexivity|]. rewrite ws_tidied. f_equal. exact IH. Qed.
Lemma merge_map {A B} (f : A -> B) u v w : merge u v w -> merge (map f u) (map f v) (map f w).
Proof. induction 1; cbn; constructor; assumption. Qed.
Lemma tstrip_app u v : tstrip (u ++ v) = tstrip u ++ tstrip v.
Proof. unfold tstrip. rewrite map_app. apply strip_app. Qed.
Lemma tstrip_ws w : all_ws w = true -> tstrip w = [].
Proof. intros H. apply strip_ws. rewrite all_ws_tidied. exact H. Qed.
Lemma tstrip_merge u v w : merge u v w -> merge (tstrip u) (tstrip v) (tstrip w).
Proof. intros H. apply strip_merge, merge_map, H. Qed.
Lemma all_txt_tidied w : all_txt w = true -> map tidied w = w.
Proof. induction w as [|[s|] w IH]; cbn; intros H; [reflexivity | f_equal; auto | discriminate H]. Qed.
Lemma tstrip_txt w : all_txt w = true -> Forall (fun i => exists s, i = Txt s) (tstrip w).
Proof. intros H. unfold tstrip. rewrite (all_txt_tidied w H). apply strip_txt; exact H. Qed.
Lemma sep_tidied w : sep w -> sep (map tidied w).
Proof.
  induction w as [|[s|n a k] w IH]; cbn [map tidied]; intros H; [exact I| |apply IH; exact H].
  destruct w as [|[s'|] w]; [exact I | destruct H | apply IH; exact H].
Qed.

Section CSound.
Variable sp : N -> bool.      (* separators of list tokens *)
Variable ok : str -> Prop.    (* strings the code splits there *)
Hypothesis ok_split : forall s, ok s -> split_whitespace s = split_on sp [] s.
Notation nears := (nears ok).
Variable O : oracles.
Variable defs : list mpat.
Notation LA := (LA O defs).
Notation CT := (CT defs).
Notation M := (Mg sp O defs true).
Notation W := (Wg sp O defs true).
Notation W12 := (W12 sp O defs true).
Notation restr := (restr defs).
Notation CT_TE_ws := (CT_TE_ws O defs).
Notation list_sound := (list_sound sp O defs true).
Notation W12_W := (W12_W sp O defs true).
Notation LA_ws_app_l := (LA_ws_app_l O defs).
Notation LA_ws_app_r := (LA_ws_app_r O defs).
Notation LA_ws_merge := (LA_ws_merge O defs).
Notation SMA_XM := (SMA_XM O defs).
Hypothesis Hrestr : forall r X, deref defs r = Some X -> restr X.
Lemma tstrip_W12 a w X : M a (tstrip w) X -> sep w -> W12 a (map tidied w) X.
Proof. intros H Hs. apply strip_W12; [exact H | apply sep_tidied; exact Hs]. Qed.

Definition okatts (a : list attr) : Prop := Forall (fun x => ok (a_value x)) a.
Definition Snd (n : nat) (t : ctype) (X : mpat) : Prop :=
  forall a w, esizes w <= n -> okatts a -> nears w -> LA a w X ->
    match t with TA => sep w -> W12 a (map tidied w) X | _ => M a (tstrip w) X end.
Lemma Snd_lift n t X : t <> TA -> (forall a w, esizes w <= n -> okatts a -> nears w -> LA a w X -> M a (tstrip w) X) -> Snd n t X.
Proof. intros Ht H a w. destruct t; try congruence; apply H. Qed.
Lemma Snd_low n t X : t <> TA -> Snd n t X -> (forall a w, esizes w <= n -> okatts a -> nears w -> LA a w X -> M a (tstrip w) X).
Proof. intros Ht H a w. specialize (H a w). destruct t; try congruence; apply H. Qed.
Lemma okatts_merge a b c : merge a b c -> okatts c -> okatts a /\ okatts b.
Proof.
  induction 1 as [|x a b c H IH|x a b c H IH]; intros HS; [split; constructor| |]; inversion HS; subst; destruct (IH ltac:(assumption)) as [I1 I2]; split; try assumption; constructor; assumption.
Qed.

Lemma Snd_map n t X Y : (forall a w, LA a w Y -> LA a w X) -> (forall a w, M a w X -> M a w Y) -> Snd n t X -> Snd n t Y.
Proof.
  intros H1 H2 HX a w Hn Ha Hf HL. specialize (HX a w Hn Ha Hf (H1 _ _ HL)).
  destruct t; auto. intros Hs. destruct (HX Hs) as [H|(s & E & Hb & H)]; [left; auto | right; exists s; auto].
Qed.
Lemma Snd_or n t X Y Z : (forall a w, LA a w Z -> LA a w X \/ LA a w Y) -> (forall a w, M a w X -> M a w Z) -> (forall a w, M a w Y -> M a w Z) ->
  Snd n t X -> Snd n t Y -> Snd n t Z.
Proof.
  intros H0 H1 H2 HX HY a w Hn Ha Hf HL. destruct (H0 _ _ HL) as [H|H].
  - specialize (HX a w Hn Ha Hf H). destruct t; auto. intros Hs. destruct (HX Hs) as [H'|(s & E & Hb & H')]; [left; auto | right; exists s; auto].
  - specialize (HY a w Hn Ha Hf H). destruct t; auto. intros Hs. destruct (HY Hs) as [H'|(s & E & Hb & H')]; [left; auto | right; exists s; auto].
Qed.
Lemma M_ch_l x l a w : M a w x -> M a w (MChoice (x :: l)).
Proof. intros H; eapply M_choice; [left; reflexivity | exact H]. Qed.
Lemma M_ch_r x l a w : M a w (MChoice l) -> M a w (MChoice (x :: l)).
Proof. intros H; inversion H; subst. eapply M_choice; [right; eassumption | assumption]. Qed.
Lemma Snd_empty n t : Snd n t MEmpty.
Proof.
  intros a w _ _ _ H. rewrite LA_empty_inv in H. destruct H as [-> H].
  assert (HM : M [] (tstrip w) MEmpty) by (rewrite (tstrip_ws _ H); constructor).
  destruct t; auto. intros Hs; apply tstrip_W12; assumption.
Qed.
Lemma W12_join a1 a2 a w X Y Z : Permutation a (a1 ++ a2) -> M a1 [] X -> W12 a2 w Y ->
  (forall w, M a1 [] X -> M a2 w Y -> M a w Z) -> W12 a w Z.
Proof.
  intros HP HX [H|(s & -> & Hb & H)] HZ; [left; auto | right; exists s; auto].
Qed.

Theorem csound_all n : forall t X, CT t X -> restr X -> Snd n t X.
Proof.
  induction n as [n IHn] using lt_wf_ind. intros t X HC.
  induction HC as [X HX IH|X HX IH|t x Hx IH|t x y l Hx IHx Hl IHl|t x Hx IH|t x y l Ht Hx IHx Hl IHl|x y l Hx IHx Hl IHl|x y l Hx IHx Hl IHl
    |t x Hx IH|t x y l Ht Hx IHx Hl IHl|x y l Hx IHx Hl IHl|x y l Hx IHx Hl IHl|p Hp IH| | | |t p Hp IH|t p Ht Hp IH|t p Ht Hp IH|nc p Hp IH|nc p|t r X Hb HX IH
    |v|d e|p Hp]; intros HR.
  - exact (IH HR).
  - intros a w Hn Ha Hf HL Hs. apply tstrip_W12; [|exact Hs]. exact (IH HR a w Hn Ha Hf HL).
  - apply Snd_map with x; [|apply M_ch_l|apply IH, HR]. intros a w H. rewrite LA_ch_inv, LA_ch0 in H. tauto.
  - apply Snd_or with x (MChoice (y :: l)); [| apply M_ch_l | apply M_ch_r | apply IHx, HR | apply IHl; split; [discriminate | apply HR]].
    intros a w H. rewrite LA_ch_inv in H. exact H.
  - apply Snd_map with x; [|apply M_group_one|apply IH, HR]. intros a w H. rewrite LA_gr1_inv in H. exact H.
  - assert (HRx : restr x) by apply HR. assert (HRl : restr (MGroup (y :: l))) by (split; [discriminate | apply HR]).
    apply Snd_lift; [exact Ht|]. intros a w Hn Ha Hf HL. rewrite LA_gr_inv in HL. destruct HL as (a1 & a2 & w1 & w2 & -> & Hm & H1 & H2).
    rewrite esizes_app in Hn. apply (nears_app ok) in Hf; destruct Hf as [F1 F2]. destruct (okatts_merge _ _ _ Hm Ha) as [A1 A2]. rewrite tstrip_app.
    eapply M_group; [apply merge_perm; exact Hm | apply (Snd_low n t x Ht (IHx HRx)); auto; lia | apply (Snd_low n t _ Ht (IHl HRl)); auto; lia].
  - assert (HRx : restr x) by apply HR. assert (HRl : restr (MGroup (y :: l))) by (split; [discriminate | apply HR]).
    intros a w Hn Ha Hf HL Hs. rewrite LA_gr_inv in HL. destruct HL as (a1 & a2 & w1 & w2 & -> & Hm & H1 & H2).
    pose proof (CT_TE_ws _ _ Hx eq_refl _ _ H1) as Hw1. destruct (okatts_merge _ _ _ Hm Ha) as [A1 A2]. pose proof Hn as Hn'. rewrite esizes_app in Hn'. pose proof Hf as Hf'. apply (nears_app ok) in Hf'; destruct Hf' as [F1 F2].
    assert (M1 : M a1 [] x) by (rewrite <- (tstrip_ws _ Hw1); apply (IHx HRx); auto; lia).
    assert (W2 : W12 a2 (map tidied (w1 ++ w2)) (MGroup (y :: l))) by (apply (IHl HRl); auto; apply LA_ws_app_l; assumption).
    eapply W12_join; [apply merge_perm; exact Hm | exact M1 | exact W2|]. intros w Hx1 Hy1. change w with ([] ++ w). eapply M_group; [apply merge_perm; exact Hm | exact Hx1 | exact Hy1].
  - assert (HRx : restr x) by apply HR. assert (HRl : restr (MGroup (y :: l))) by (split; [discriminate | apply HR]).
    intros a w Hn Ha Hf HL Hs. rewrite LA_gr_inv in HL. destruct HL as (a1 & a2 & w1 & w2 & -> & Hm & H1 & H2).
    pose proof (CT_TE_ws _ _ Hl eq_refl _ _ H2) as Hw2. destruct (okatts_merge _ _ _ Hm Ha) as [A1 A2]. pose proof Hn as Hn'. rewrite esizes_app in Hn'. pose proof Hf as Hf'. apply (nears_app ok) in Hf'; destruct Hf' as [F1 F2].
    assert (M2 : M a2 [] (MGroup (y :: l))) by (rewrite <- (tstrip_ws _ Hw2); apply (IHl HRl); auto; lia).
    assert (W1 : W12 a1 (map tidied (w1 ++ w2)) x) by (apply (IHx HRx); auto; apply LA_ws_app_r; assumption).
    assert (HP : Permutation a (a2 ++ a1)) by (etransitivity; [apply merge_perm; exact Hm | apply Permutation_app_comm]).
    eapply W12_join; [exact HP | exact M2 | exact W1|]. intros w Hx1 Hy1. rewrite <- (app_nil_r w). eapply M_group; [apply merge_perm; exact Hm | exact Hy1 | exact Hx1].
  - apply Snd_map with x; [|apply M_inter_one|apply IH, HR]. intros a w H. rewrite LA_in1_inv in H. exact H.
  - assert (HRx : restr x) by apply HR. assert (HRl : restr (MInterleave (y :: l))) by (split; [discriminate | apply HR]).
    apply Snd_lift; [exact Ht|]. intros a w Hn Ha Hf HL. rewrite LA_in_inv in HL. destruct HL as (a1 & a2 & w1 & w2 & Hmw & Hm & H1 & H2).
    rewrite (esizes_merge _ _ _ Hmw) in Hn. destruct (nears_merge ok _ _ _ Hmw Hf) as [F1 F2]. destruct (okatts_merge _ _ _ Hm Ha) as [A1 A2].
    eapply M_inter; [apply merge_perm; exact Hm | apply tstrip_merge; exact Hmw | apply (Snd_low n t x Ht (IHx HRx)); auto; lia | apply (Snd_low n t _ Ht (IHl HRl)); auto; lia].
  - assert (HRx : restr x) by apply HR. assert (HRl : restr (MInterleave (y :: l))) by (split; [discriminate | apply HR]).
    intros a w Hn Ha Hf HL Hs. rewrite LA_in_inv in HL. destruct HL as (a1 & a2 & w1 & w2 & Hmw & Hm & H1 & H2).
    pose proof (CT_TE_ws _ _ Hx eq_refl _ _ H1) as Hw1. destruct (okatts_merge _ _ _ Hm Ha) as [A1 A2]. pose proof Hn as Hn'. rewrite (esizes_merge _ _ _ Hmw) in Hn'. destruct (nears_merge ok _ _ _ Hmw Hf) as [F1 F2].
    assert (M1 : M a1 [] x) by (rewrite <- (tstrip_ws _ Hw1); apply (IHx HRx); auto; lia).
    assert (W2 : W12 a2 (map tidied w) (MInterleave (y :: l))) by (apply (IHl HRl); auto; eapply LA_ws_merge; eassumption).
    eapply W12_join; [apply merge_perm; exact Hm | exact M1 | exact W2|]. intros w' Hx1 Hy1. eapply M_inter; [apply merge_perm; exact Hm | apply merge_nil_l | exact Hx1 | exact Hy1].
  - assert (HRx : restr x) by apply HR. assert (HRl : restr (MInterleave (y :: l))) by (split; [discriminate | apply HR]).
    intros a w Hn Ha Hf HL Hs. rewrite LA_in_inv in HL. destruct HL as (a1 & a2 & w1 & w2 & Hmw & Hm & H1 & H2).
    pose proof (CT_TE_ws _ _ Hl eq_refl _ _ H2) as Hw2. destruct (okatts_merge _ _ _ Hm Ha) as [A1 A2]. pose proof Hn as Hn'. rewrite (esizes_merge _ _ _ Hmw) in Hn'. destruct (nears_merge ok _ _ _ Hmw Hf) as [F1 F2].
    assert (M2 : M a2 [] (MInterleave (y :: l))) by (rewrite <- (tstrip_ws _ Hw2); apply (IHl HRl); auto; lia).
    assert (W1 : W12 a1 (map tidied w) x) by (apply (IHx HRx); auto; eapply LA_ws_merge; [exact Hw2 | apply merge_comm; exact Hmw | exact H1]).
    assert (HP : Permutation a (a2 ++ a1)) by (etransitivity; [apply merge_perm; exact Hm | apply Permutation_app_comm]).
    eapply W12_join; [exact HP | exact M2 | exact W1|]. intros w' Hx1 Hy1. eapply M_inter; [apply merge_perm; exact Hm | apply merge_nil_r | exact Hy1 | exact Hx1].
  - apply Snd_lift; [discriminate|]. intros a w Hn Ha Hf HL. rewrite LA_mixed_inv in HL. destruct HL as (w1 & w2 & Hmw & H1 & H2).
    rewrite (esizes_merge _ _ _ Hmw) in Hn. destruct (nears_merge ok _ _ _ Hmw Hf) as [F1 F2].
    apply M_mixed. eapply M_inter with (a1 := a) (a2 := []); [rewrite app_nil_r; reflexivity | apply tstrip_merge; exact Hmw | apply (IH HR); auto; lia|].
    apply M_inter_one, M_text, tstrip_txt; exact H2.
  - apply Snd_empty.
  - intros a w _ _ _ H. rewrite LA_na_inv in H; destruct H.
  - apply Snd_lift; [discriminate|]. intros a w _ _ _ H. rewrite LA_text_inv in H. destruct H as [-> H]. apply M_text, tstrip_txt; exact H.
  - apply Snd_or with p MEmpty; [| | |apply (IH HR)|apply Snd_empty].
    + intros a w H. rewrite LA_opt_inv in H. rewrite LA_empty_inv. exact H.
    + intros a w H. apply M_optional, M_ch_l; exact H.
    + intros a w H. apply M_optional, M_ch_r, M_ch_l; exact H.
  - assert (HRp : restr p) by apply HR. assert (Hone : Snd n t (MOneOrMore p)).
    { apply Snd_lift; [exact Ht|]. intros a w Hn Ha Hf HL. rewrite LA_more_inv in HL.
      induction HL as [a w HRR|w1 w2 HRR HM IHM|x a1 a2 a w1 w2 HRR HM IHM Hm].
      - apply M_one. apply (Snd_low n t p Ht (IH HRp)); auto.
      - rewrite esizes_app in Hn. apply (nears_app ok) in Hf; destruct Hf as [F1 F2]. rewrite tstrip_app. eapply M_more with (a1 := []) (a2 := []); [constructor | |apply IHM; auto; lia].
        apply (Snd_low n t p Ht (IH HRp)); auto; lia.
      - rewrite esizes_app in Hn. apply (nears_app ok) in Hf; destruct Hf as [F1 F2]. rewrite tstrip_app.
        inversion Ha as [|? ? Hx Ha']; subst. destruct (okatts_merge _ _ _ Hm Ha') as [A1 A2].
        eapply M_more with (a1 := x :: a1) (a2 := a2); [cbn; constructor; apply merge_perm; exact Hm | |apply IHM; auto; lia].
        apply (Snd_low n t p Ht (IH HRp)); auto; [lia | constructor; assumption]. }
    apply Snd_or with (MOneOrMore p) MEmpty; [| | |exact Hone|apply Snd_empty].
    + intros a w H. rewrite LA_zero_inv in H. rewrite LA_empty_inv. exact H.
    + intros a w H. apply M_zero, M_ch_l; exact H.
    + intros a w H. apply M_zero, M_ch_r, M_ch_l; exact H.
  - assert (HRp : restr p) by apply HR.
    apply Snd_lift; [exact Ht|]. intros a w Hn Ha Hf HL. rewrite LA_more_inv in HL.
    induction HL as [a w HRR|w1 w2 HRR HM IHM|x a1 a2 a w1 w2 HRR HM IHM Hm].
    + apply M_one. apply (Snd_low n t p Ht (IH HRp)); auto.
    + rewrite esizes_app in Hn. apply (nears_app ok) in Hf; destruct Hf as [F1 F2]. rewrite tstrip_app. eapply M_more with (a1 := []) (a2 := []); [constructor | |apply IHM; auto; lia].
      apply (Snd_low n t p Ht (IH HRp)); auto; lia.
    + rewrite esizes_app in Hn. apply (nears_app ok) in Hf; destruct Hf as [F1 F2]. rewrite tstrip_app.
      inversion Ha as [|? ? Hx Ha']; subst. destruct (okatts_merge _ _ _ Hm Ha') as [A1 A2].
      eapply M_more with (a1 := x :: a1) (a2 := a2); [cbn; constructor; apply merge_perm; exact Hm | |apply IHM; auto; lia].
      apply (Snd_low n t p Ht (IH HRp)); auto; [lia | constructor; assumption].
  - apply Snd_lift; [discriminate|]. intros a w Hn Ha Hf HL. rewrite LA_attr_inv in HL. destruct HL as (x & -> & Hc & Hw & Hv).
    rewrite (tstrip_ws _ Hw). apply M_attribute; [apply contains_in_class; exact Hc|]. inversion Ha as [|? ? Hx _]; subst.
    destruct Hv as [Hv|[Hb Hv]].
    + apply W12_W. change [Txt (a_value x)] with (map tidied [Txt (a_value x)]). apply (IH HR); [cbn; lia | constructor | cbn; auto | exact Hv | exact I].
    + assert (H : W12 [] [] p) by (change (W12 [] (map tidied []) p); apply (IH HR); [cbn; lia | constructor | exact I | exact Hv | exact I]).
      destruct H as [H|(s & E & _)]; [|discriminate E]. apply W_2; [apply blank_ws; exact Hb | exact H].
  - apply Snd_lift; [discriminate|]. intros a w Hn Ha Hf HL. rewrite LA_elem_inv in HL. destruct HL as (-> & nm & b & k & w1 & w2 & -> & Hc & Hk & H1 & H2).
    rewrite esizes_app in Hn. cbn [esizes] in Hn. rewrite esize_elm in Hn. apply (nears_app ok) in Hf; destruct Hf as [_ [Hf _]]. apply (proj1 (near_elm _ _ _ _)) in Hf. destruct Hf as (Fa & Fk & Fks).
    unfold tstrip. rewrite map_app, strip_app. cbn [map tidied strip filter ws_item negb]. fold (strip (map tidied w2)). fold (tstrip w1). fold (tstrip w2).
    rewrite (tstrip_ws _ H1), (tstrip_ws _ H2). cbn [app]. destruct HR as [HRp HCp]. destruct Fk as [Fs Fe].
    assert (HW : W12 b (map tidied k) p) by (apply (IHn (esizes k) ltac:(lia) TA p HCp HRp); auto).
    apply (M_element _ _ _ nc p nm b (tidy (map tidied k)) [] []); [apply contains_in_class; exact Hc | | | left; reflexivity | left; reflexivity].
    + destruct Fe as [->|Fe]; [split; [intros [] | exact I]|]. rewrite tidy_ne by (apply tidied_ne; exact Fe). split; [apply tidied_ne; exact Fe | apply sep_tidied; exact Fs].
    + destruct Fe as [->|Fe]; [|rewrite tidy_ne by (apply tidied_ne; exact Fe); apply W12_W; exact HW].
      cbn [map tidied tidy] in *. destruct HW as [HW|(s & E & Hb & HW)]; [apply W_3; [reflexivity | exact HW] | apply W_1; exact HW].
  - apply Snd_map with X; [| |apply (IH (Hrestr _ _ Hb))].
    + intros a w H. rewrite (LA_ref_inv O defs r X a w Hb) in H; exact H.
    + intros a w H. eapply M_ref; eassumption.
  - intros a w Hn Ha Hf HL Hs. rewrite LA_value_inv in HL. destruct HL as (-> & s & w1 & w2 & -> & Hd & H1 & H2).
    destruct (sep_mid _ _ _ Hs H1 H2) as [-> ->]. cbn [app map tidied]. left. apply M_value; exact Hd.
  - intros a w Hn Ha Hf HL Hs. destruct e as [e|].
    + rewrite LA_except_inv in HL. destruct HL as (-> & s & w1 & w2 & -> & Hd & He & H1 & H2).
      destruct (sep_mid _ _ _ Hs H1 H2) as [-> ->]. cbn [app map tidied]. left. apply M_except; [exact Hd | apply SMA_XM; exact He].
    + rewrite LA_data_inv in HL. destruct HL as (-> & s & w1 & w2 & -> & Hd & H1 & H2).
      destruct (sep_mid _ _ _ Hs H1 H2) as [-> ->]. cbn [app map tidied]. left. apply M_data; exact Hd.
  - intros a w Hn Ha Hf HL Hs. rewrite LA_list_inv in HL. destruct HL as (-> & ss & -> & Hne & Hp1).
    destruct (sep_map _ Hs Hne) as [s ->]. cbn [map flat_map] in *. rewrite app_nil_r in Hp1. cbn [map tidied]. left. apply M_list.
    destruct Hf as [Hf _]. cbn in Hf. rewrite <- (ok_split _ Hf). apply list_sound; [exact Hp | exact Hp1|].
    apply Forall_forall. intros x Hx. apply in_map_iff in Hx. destruct Hx as (t & <- & Hin). cbn. eapply token_not_ws; exact Hin.
Qed.

End CSound.

(** ** The strings of condensed content *)
Section Strings.
Variable ok : str -> Prop.
Hypothesis ok_nil : ok [].
Hypothesis ok_app : forall s t, ok s -> ok t -> ok (s ++ t).
Hypothesis ok_sp : ok [32%N].
Fixpoint oki (i : item) : Prop :=
  match i with
  | Txt s => ok s
  | Elm _ a k => Forall (fun x => ok (a_value x)) a /\
      (fix go (ks : list item) : Prop := match ks with [] => True | x :: ks' => oki x /\ go ks' end) k
  end.
Fixpoint okis (ks : list item) : Prop := match ks with [] => True | x :: ks' => oki x /\ okis ks' end.
Lemma oki_elm n a k : oki (Elm n a k) <-> Forall (fun x => ok (a_value x)) a /\ okis k.
Proof. reflexivity. Qed.
Lemma okis_texts l : okis (map Txt l) <-> Forall ok l.
Proof. induction l as [|s l IH]; cbn; [split; [constructor | auto]|]. rewrite IH. split; [intros [H1 H2]; constructor; assumption | inversion 1; auto]. Qed.
Lemma nears_texts l : nears ok (map Txt l) <-> Forall ok l.
Proof. induction l as [|s l IH]; cbn; [split; [constructor | auto]|]. rewrite IH. split; [intros [H1 H2]; constructor; assumption | inversion 1; auto]. Qed.
Lemma ok_spaced ss : Forall ok ss -> ok (spaced ss).
Proof.
  induction 1 as [|s [|s' ss] Hs HF IH]; [exact ok_nil | exact Hs|].
  change (spaced (s :: s' :: ss)) with (s ++ [32%N] ++ spaced (s' :: ss)). auto.
Qed.
Lemma nears_joined k : nears ok k -> nears ok (joined k).
Proof.
  induction k as [|[s|n a b] k IH]; cbn [joined nears near]; [auto| |].
  - intros [H1 H2]. specialize (IH H2). destruct (joined k) as [|[s'|n' a' k'] r]; cbn [nears near] in *.
    + destruct s; cbn; auto.
    + destruct IH. auto.
    + destruct s; cbn [nears near]; auto.
  - intros [H1 H2]. split; [exact H1 | apply IH; exact H2].
Qed.
Lemma cond_near k k' : nears ok k -> cond k k' -> near_kids k' /\ nears ok k'.
Proof.
  intros H [|l1 s l2 -> Hb|ss -> Hne].
  - split; [split; [apply joined_sep | right; apply joined_ne] | apply nears_joined; exact H].
  - split; [split; [exact I | destruct s; [left; reflexivity | right; intros [E|[]]; discriminate E]]|]. rewrite nears_texts in H. apply Forall_app in H. destruct H as [_ H]. inversion H; subst. cbn. auto.
  - split; [split; [exact I | destruct (spaced ss); [left; reflexivity | right; intros [E|[]]; discriminate E]]|]. rewrite nears_texts in H. cbn. split; [apply ok_spaced; exact H | exact I].
Qed.
Lemma cdd_near : forall i j, cdd i j -> oki i -> near ok j.
Proof.
  fix IH 3. intros i j [s|n a k k1 k2 HF HC] H; [exact H|]. apply (proj1 (oki_elm n a k)) in H. destruct H as [Ha Hk]. apply (proj2 (near_elm ok n a k2)). split; [exact Ha|].
  apply (cond_near k1); [|exact HC]. clear HC. induction HF as [|x y k k1 Hxy HF IHF]; [exact I|]. destruct Hk as [H1 H2].
  split; [apply (IH x y Hxy H1) | apply IHF; exact H2].
Qed.
End Strings.
Lemma oki_any i : oki (fun _ => True) i.
Proof.
  revert i. fix IH 1. intros [s|n a k]; [exact I|]. apply (proj2 (oki_elm _ n a k)). split; [induction a; constructor; auto|].
  induction k as [|x k IHk]; [exact I | split; [apply IH | exact IHk]].
Qed.
Lemma oki_plain i : oki plain i <-> plain_item i.
Proof.
  revert i. fix IH 1. intros [s|n a k]; [reflexivity|]. rewrite oki_elm, plain_elm. apply and_iff_compat_l.
  induction k as [|x k IHk]; [reflexivity|]. cbn [okis plain_items]. rewrite IHk, (IH x). reflexivity.
Qed.
Lemma plain_app s t : plain s -> plain t -> plain (s ++ t).
Proof. intros H1 H2. apply Forall_app. auto. Qed.
Lemma plain_space : plain [32%N].
Proof. constructor; [vm_compute; auto | constructor]. Qed.

(** ** Accepted documents *)
Section Accepted.
Variable O : oracles.
Variable defs : list mpat.
Variable start : mpat.
Hypothesis Hrng : rng_schema defs start.
Hypothesis Hlim : in_limits defs start.

Theorem accepted_raw d raw : doc_wf d -> Reading d raw -> accepts O defs start (doc_tokens d) -> LA O defs [] [raw] start.
Proof.
  intros Hwf Hrd (v & HA). pose proof (proj1 (reading_cview d raw) Hrd) as Hcv.
  set (T := fun _ : nameclass => TA). set (tq := fun _ : qname => TA).
  assert (HS : schema_elems defs (fun nc p => CT defs (T nc) p) start).
  { split; [exact (restr_elems defs start (rs_start _ _ Hrng))|]. intros r X Hb. exact (restr_elems defs X (rs_defs _ _ Hrng r X Hb)). }
  pose proof (scope_ok_T defs O T start Hrng Hlim HS) as Hok.
  destruct (new_validator_ok O lim defs T start Hok) as (n1 & r & Hn & Hr). destruct HA as (n0 & HA).
  destruct Hr as [->|(st & id & -> & HI & HR & HSE & HG & HK)].
  { specialize (HA (n0 + n1) ltac:(lia)). unfold check in HA. rewrite (Hn (n0 + n1)) in HA by lia. discriminate HA. }
  assert (Htq : forall nc nm, contains nc nm = true -> tle (T nc) (tq nm)) by (intros nc nm _; apply tle_TA).
  destruct (accept_store_any O lim T eq_refl tq st id 0 TN initial_entities d raw Htq HG HK HSE Hwf Hcv) as (n2 & r & Hn2 & Hr).
  specialize (HA (n0 + n1 + n2) ltac:(lia)). unfold check in HA. rewrite (Hn (n0 + n1 + n2)) in HA by lia. cbn [rbind] in HA. rewrite (Hn2 (n0 + n1 + n2)) in HA by lia. subst r.
  apply (Repr_L O lim defs T (so_defs _ _ _ _ _ Hok) st HI _ 0 TN start (START_TYP defs start (rs_root _ _ Hrng)) (so_start _ _ _ _ _ Hok) true id HR [] [raw] (le_n _)).
  exact Hr.
Qed.

Theorem accepted_sp sp (ok : str -> Prop) d raw : (forall s, ok s -> split_whitespace s = split_on sp [] s) ->
  ok [] -> (forall s t, ok s -> ok t -> ok (s ++ t)) -> ok [32%N] ->
  doc_wf d -> Reading d raw -> oki ok raw -> accepts O defs start (doc_tokens d) ->
  exists root, condensed raw root /\ Mg sp O defs true [] [root] start.
Proof.
  intros Hsp O1 O2 O3 Hwf Hrd Hoki HA. pose proof (accepted_raw d raw Hwf Hrd HA) as HL.
  destruct (condense_deep O defs (rs_defs _ _ Hrng) _ _ _ HL (rs_start _ _ Hrng)) as (w' & HF & HL').
  inversion HF as [|x y l l' Hxy HF' E1 E2]; subst. inversion HF'; subst.
  exists (tidied y). split; [apply cdd_condensed; exact Hxy|].
  destruct (reading_elem d raw Hwf Hrd) as (nm & a & k & ->). inversion Hxy as [|n0 a0 k0 k1 k2 HFk HC]; subst.
  assert (Hnr : nears ok [Elm nm a k2]) by (split; [eapply cdd_near; eassumption | exact I]).
  exact (csound_all sp ok Hsp O defs (rs_defs _ _ Hrng) (esizes [Elm nm a k2]) TN start (START_CT defs start (rs_root _ _ Hrng)) (rs_start _ _ Hrng) [] [Elm nm a k2] (le_n _) (Forall_nil _) Hnr HL').
Qed.

Theorem accepted_condensed_uni d : doc_wf d -> accepts O defs start (doc_tokens d) ->
  exists read root, Reading d read /\ condensed read root /\ Mg is_uni_ws O defs true [] [root] start.
Proof.
  intros Hwf HA. destruct (accepted_read O defs start d Hwf HA) as (raw & Hrd). exists raw.
  destruct (accepted_sp is_uni_ws (fun _ => True) d raw (fun s _ => eq_refl) I (fun _ _ _ _ => I) I Hwf Hrd (oki_any raw) HA) as (root & H1 & H2). exists root. auto.
Qed.
Theorem accepted_condensed d read : doc_wf d -> Reading d read -> plain_for defs start read -> accepts O defs start (doc_tokens d) ->
  exists root, condensed read root /\ rng_valid O defs start root.
Proof.
  intros Hwf Hrd Hpl HA. destruct (uses_lists defs start) eqn:E.
  - refine (accepted_sp is_xml_ws plain d read _ _ plain_app plain_space Hwf Hrd _ HA); [apply plain_split | constructor | apply oki_plain, Hpl; exact E].
  - destruct (accepted_sp is_uni_ws (fun _ => True) d read (fun s _ => eq_refl) I (fun _ _ _ _ => I) I Hwf Hrd (oki_any read) HA) as (root & H1 & H2).
    exists root. split; [exact H1|]. apply (lists_same is_xml_ws is_uni_ws O defs true [] [root] start E). exact H2.
Qed.
End Accepted.

(** ** Character data in one piece is taken as it is *)
Lemma sep_texts l : sep (map Txt l) -> l = [] \/ exists s, l = [s].
Proof. destruct l as [|s [|s' l]]; [auto | eauto | intros []]. Qed.
Lemma taken_whole k k' : whole k = true -> taken_as k k' -> k' = k.
Proof.
  intros Hw [|l1 s l2 -> Hb|ss -> Hne].
  - apply joined_whole, whole_ok, Hw.
  - apply whole_ok in Hw. destruct Hw as [H1 H2]. destruct (sep_texts _ H2) as [E|(s' & E)]; [destruct l1; discriminate E|].
    destruct l1 as [|x l1]; [|destruct l1; discriminate E]. cbn in E. injection E as -> ->. cbn [app map] in *. apply tidy_ne. exact H1.
  - apply whole_ok in Hw. destruct Hw as [H1 H2]. destruct (sep_texts _ H2) as [E|(s' & ->)]; [congruence|]. cbn [map spaced] in *. apply tidy_ne. exact H1.
Qed.
Lemma condensed_whole : forall i j, condensed i j -> pieces i = [] -> j = i.
Proof.
  fix IH 3. intros i j [s|n a k k1 k2 HF HT] Hp; [reflexivity|]. cbn [pieces] in Hp. apply app_eq_nil in Hp. destruct Hp as [Hw Hk].
  assert (k1 = k) as ->.
  { clear HT Hw. induction HF as [|x y k k1 Hxy HF IHF]; [reflexivity|]. cbn [flat_map] in Hk. apply app_eq_nil in Hk. destruct Hk as [H1 H2].
    f_equal; [apply (IH x y Hxy H1) | apply IHF; exact H2]. }
  f_equal. apply taken_whole; [|exact HT]. destruct (whole k); [reflexivity | discriminate Hw].
Qed.
