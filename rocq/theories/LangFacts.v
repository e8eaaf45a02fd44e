(** * LangFacts: elementary facts about merging, white space and the matching relation. *)
From Verif Require Import Base Datatype Store Lang.

(** ** merge *)
Section Merge.
Context {A : Type}.
Implicit Types a b c : list A.
Lemma merge_nil_l a : merge [] a a.
Proof. induction a; constructor; assumption. Qed.
Lemma merge_nil_r a : merge a [] a.
Proof. induction a; constructor; assumption. Qed.
Lemma merge_nil_l_inv b c : merge [] b c -> b = c.
Proof.
  remember [] as a; intros H; induction H; try discriminate; [reflexivity|].
  f_equal; auto.
Qed.
Lemma merge_nil_r_inv a c : merge a [] c -> a = c.
Proof.
  remember [] as b; intros H; induction H; try discriminate; [reflexivity|].
  f_equal; auto.
Qed.
Lemma merge_nil_inv a b : merge a b [] -> a = [] /\ b = [].
Proof. intros H; inversion H; auto. Qed.
Lemma merge_comm a b c : merge a b c -> merge b a c.
Proof. intros H; induction H; constructor; assumption. Qed.
Lemma merge_app a b : merge a b (a ++ b).
Proof. induction a as [|x a IH]; cbn; [apply merge_nil_l | constructor; exact IH]. Qed.
Lemma merge_forallb f a b c : merge a b c -> forallb f c = forallb f a && forallb f b.
Proof.
  intros H; induction H as [|x a b c H IH|x a b c H IH]; cbn; [reflexivity| |].
  - rewrite IH, andb_assoc; reflexivity.
  - rewrite IH. destruct (f x), (forallb f a), (forallb f b); reflexivity.
Qed.
Lemma merge_cons_inv x a b c : merge a b (x :: c) ->
  (exists a', a = x :: a' /\ merge a' b c) \/ (exists b', b = x :: b' /\ merge a b' c).
Proof. intros H; inversion H; subst; eauto. Qed.
Lemma merge_app_inv c1 c2 a b : merge a b (c1 ++ c2) ->
  exists a1 a2 b1 b2, a = a1 ++ a2 /\ b = b1 ++ b2 /\ merge a1 b1 c1 /\ merge a2 b2 c2.
Proof.
  revert a b; induction c1 as [|x c1 IH]; intros a b H; cbn in H.
  - exists [], a, [], b; repeat split; [constructor | exact H].
  - apply merge_cons_inv in H. destruct H as [(a' & -> & H)|(b' & -> & H)];
      apply IH in H; destruct H as (a1 & a2 & b1 & b2 & -> & -> & H1 & H2).
    + exists (x :: a1), a2, b1, b2; repeat split; [constructor; exact H1 | exact H2].
    + exists a1, a2, (x :: b1), b2; repeat split; [constructor; exact H1 | exact H2].
Qed.
Lemma merge_app_app a1 b1 c1 a2 b2 c2 :
  merge a1 b1 c1 -> merge a2 b2 c2 -> merge (a1 ++ a2) (b1 ++ b2) (c1 ++ c2).
Proof. intros H1 H2; induction H1; cbn; [exact H2 | constructor; assumption | constructor; assumption]. Qed.
Lemma merge_assoc a b ab c abc : merge a b ab -> merge ab c abc ->
  exists bc, merge b c bc /\ merge a bc abc.
Proof.
  intros H1 H2; revert a b H1; induction H2 as [|x ab c abc H IH|x ab c abc H IH]; intros a b H1.
  - apply merge_nil_inv in H1; destruct H1 as [-> ->]. exists []; split; constructor.
  - apply merge_cons_inv in H1. destruct H1 as [(a' & -> & H1)|(b' & -> & H1)];
      destruct (IH _ _ H1) as (bc & Hbc & Ha).
    + exists bc; split; [exact Hbc | constructor; exact Ha].
    + exists (x :: bc); split; [constructor; exact Hbc | constructor; exact Ha].
  - destruct (IH _ _ H1) as (bc & Hbc & Ha).
    exists (x :: bc); split; [apply merge_r; exact Hbc | apply merge_r; exact Ha].
Qed.
Lemma merge_assoc' a bc b c abc : merge b c bc -> merge a bc abc ->
  exists ab, merge a b ab /\ merge ab c abc.
Proof.
  intros H1 H2. apply merge_comm in H1. apply merge_comm in H2.
  destruct (merge_assoc _ _ _ _ _ H1 H2) as (ba & Hba & Hc).
  exists ba; split; apply merge_comm; assumption.
Qed.
End Merge.

Lemma merge_map {A B} (f : A -> B) a b c : merge a b c -> merge (map f a) (map f b) (map f c).
Proof. intros H; induction H; cbn; constructor; assumption. Qed.

(** ** white space *)
Lemma all_ws_app w1 w2 : all_ws (w1 ++ w2) = all_ws w1 && all_ws w2.
Proof. apply forallb_app. Qed.
Lemma all_txt_app w1 w2 : all_txt (w1 ++ w2) = all_txt w1 && all_txt w2.
Proof. apply forallb_app. Qed.
Lemma ws_item_txt i : ws_item i = true -> txt_item i = true.
Proof. destruct i; cbn; auto. Qed.
Lemma all_ws_txt w : all_ws w = true -> all_txt w = true.
Proof.
  unfold all_ws, all_txt; rewrite !forallb_forall; intros H x Hx; apply ws_item_txt, H, Hx.
Qed.
Lemma merge_all_ws w1 w2 w : merge w1 w2 w -> all_ws w = all_ws w1 && all_ws w2.
Proof. apply merge_forallb. Qed.
Lemma merge_all_txt w1 w2 w : merge w1 w2 w -> all_txt w = all_txt w1 && all_txt w2.
Proof. apply merge_forallb. Qed.

Lemma xml_ws_uni c : is_xml_ws c = true -> is_uni_ws c = true.
Proof.
  unfold is_xml_ws; intros H; repeat rewrite orb_true_iff in H; rewrite !N.eqb_eq in H.
  destruct H as [[[H|H]|H]|H]; subst; reflexivity.
Qed.
Lemma split_on_ws s : forallb is_uni_ws s = true -> split_whitespace s = [].
Proof.
  unfold split_whitespace; induction s as [|c s IH]; cbn; [reflexivity|].
  destruct (is_uni_ws c); cbn; [exact IH | discriminate].
Qed.
Lemma ws_no_tokens s : is_whitespace_str s = true -> split_whitespace s = [].
Proof.
  intros H; apply split_on_ws. unfold is_whitespace_str in H; rewrite forallb_forall in *.
  intros x Hx; apply xml_ws_uni, H, Hx.
Qed.
Lemma ws_okc s : is_whitespace_str s = true -> okc s.
Proof. intros H _; exact H. Qed.
(** every token is non-empty and free of (Unicode) white space *)
Lemma split_on_tokens s cur t : Forall (fun c => is_uni_ws c = false) cur ->
  In t (split_on is_uni_ws cur s) -> t <> [] /\ Forall (fun c => is_uni_ws c = false) t.
Proof.
  revert cur; induction s as [|c s IH]; intros cur Hcur; cbn.
  - destruct cur as [|x cur]; cbn; [intros []|].
    intros [<-|[]]; split; [destruct (rev cur); discriminate|].
    apply Forall_app; split; [apply Forall_rev; inversion Hcur; assumption|].
    inversion Hcur; repeat constructor; assumption.
  - destruct (is_uni_ws c) eqn:Ec.
    + destruct cur as [|x cur]; [apply IH; constructor|].
      cbn [In]; intros [<-|Hin]; [|revert Hin; apply IH; constructor].
      split; [cbn; destruct (rev cur); discriminate | apply Forall_rev; exact Hcur].
    + apply IH; constructor; assumption.
Qed.
Lemma token_not_ws s t : In t (split_whitespace s) -> is_whitespace_str t = false.
Proof.
  intros H; apply split_on_tokens in H; [|constructor]. destruct H as [Hne H].
  destruct t as [|c t]; [congruence|]. inversion H; subst. cbn.
  destruct (is_xml_ws c) eqn:E; [|reflexivity]. apply xml_ws_uni in E; congruence.
Qed.
Lemma token_split s t : In t (split_whitespace s) -> split_whitespace t = [t].
Proof.
  intros H; apply split_on_tokens in H; [|constructor]. destruct H as [Hne H].
  unfold split_whitespace.
  assert (E : forall cur, split_on is_uni_ws cur t = match rev t ++ cur with [] => [] | l => [rev l] end).
  { clear Hne; induction t as [|c t IH]; intros cur; cbn; [destruct cur; reflexivity|].
    inversion H; subst. rewrite H2. rewrite IH; [|assumption]. rewrite <- app_assoc; reflexivity. }
  rewrite E, app_nil_r. destruct (rev t) as [|x l] eqn:Er.
  - apply (f_equal (@rev N)) in Er; rewrite rev_involutive in Er; cbn in Er; congruence.
  - rewrite <- Er, rev_involutive; reflexivity.
Qed.

(** ** sep *)
Lemma sep_tail x w : sep (x :: w) -> sep w.
Proof. destruct x; [destruct w as [|[|] w]; cbn; tauto | cbn; tauto]. Qed.
Lemma sep_txt_tail s w : sep (Txt s :: w) -> match w with Txt _ :: _ => False | _ => True end.
Proof. destruct w as [|[|] w]; cbn; tauto. Qed.
Lemma sep_app w1 w2 : sep (w1 ++ w2) -> sep w1 /\ sep w2.
Proof.
  induction w1 as [|x w1 IH]; cbn [app]; intros H; [split; [exact I | exact H]|].
  pose proof (sep_tail _ _ H) as Ht; apply IH in Ht; destruct Ht as [H1 H2]; split; [|exact H2].
  destruct x; [|exact H1]. destruct w1 as [|[|] w1]; cbn in *; tauto.
Qed.
Lemma sep_all_txt w : sep w -> all_txt w = true -> w = [] \/ exists s, w = [Txt s].
Proof.
  destruct w as [|[s|] [|[|] w]]; cbn; intros H E; try discriminate; try tauto; eauto.
Qed.
(** dropping text chunks keeps the rest separated *)
Lemma sep_merge_txt w1 w2 w : merge w1 w2 w -> all_txt w1 = true -> sep w -> sep w2.
Proof.
  intros H; induction H as [|x a b c H IH|x a b c H IH]; intros Ht Hs.
  - exact I.
  - cbn in Ht; apply andb_true_iff in Ht; destruct Ht as [_ Ht]. apply IH; [exact Ht | eapply sep_tail; exact Hs].
  - specialize (IH Ht (sep_tail _ _ Hs)).
    destruct x as [s|]; [|cbn; exact IH].
    assert (Hc : match c with Txt _ :: _ => False | _ => True end) by (eapply sep_txt_tail; exact Hs).
    destruct b as [|[s'|] b]; [exact I| |exact IH].
    exfalso. destruct c as [|[|nm at0 kk] c]; [inversion H | exact Hc|].
    apply merge_cons_inv in H. destruct H as [(a' & -> & _)|(b' & E & _)]; [cbn in Ht; discriminate | discriminate].
Qed.

(** ** Inversion of [L] by the pattern at [id] *)
Ltac inv_nth :=
  match goal with
  | H1 : nth_error ?l ?i = Some _, H2 : nth_error ?l ?i = Some _ |- _ =>
      rewrite H1 in H2; injection H2; intros; subst; clear H2
  | H1 : nth_error ?l ?i = Some ?p, H2 : nth_error ?l ?i = Some ?q |- _ =>
      rewrite H1 in H2; discriminate H2
  end.
Ltac invL H := inversion H; subst; try (repeat inv_nth; fail); try inv_nth.

Section Inv.
Variable O : oracles.
Variable st : store.
Notation L := (L O st).
Notation LF := (LF O st).
Notation at_ id p := (nth_error (pats st) id = Some p).

Lemma L_choice_inv id l r n a w : at_ id (PChoice l r n) -> (L id a w <-> L l a w \/ L r a w).
Proof.
  intros E; split.
  - intros H; inversion H; subst; try congruence; rewrite E in *;
      match goal with H : Some _ = Some _ |- _ => injection H as -> -> -> end; auto.
  - intros [H|H]; [eapply L_choice_l | eapply L_choice_r]; eassumption.
Qed.
Lemma L_group_inv id l r n a w : at_ id (PGroup l r n) ->
  (L id a w <-> exists a1 a2 w1 w2, w = w1 ++ w2 /\ merge a1 a2 a /\ L l a1 w1 /\ L r a2 w2).
Proof.
  intros E; split.
  - intros H; inversion H; subst; try congruence; rewrite E in *;
      match goal with H : Some _ = Some _ |- _ => injection H as -> -> -> end.
    do 4 eexists; repeat split; eassumption.
  - intros (a1 & a2 & w1 & w2 & -> & Hm & H1 & H2); eapply L_group; eassumption.
Qed.
Lemma L_interleave_inv id l r n a w : at_ id (PInterleave l r n) ->
  (L id a w <-> exists a1 a2 w1 w2, merge w1 w2 w /\ merge a1 a2 a /\ L l a1 w1 /\ L r a2 w2).
Proof.
  intros E; split.
  - intros H; inversion H; subst; try congruence; rewrite E in *;
      match goal with H : Some _ = Some _ |- _ => injection H as -> -> -> end.
    do 4 eexists; repeat split; eassumption.
  - intros (a1 & a2 & w1 & w2 & Hw & Hm & H1 & H2); eapply L_interleave; eassumption.
Qed.
Lemma L_empty_inv id a w : at_ id PEmpty -> (L id a w <-> a = [] /\ all_ws w = true).
Proof.
  intros E; split.
  - intros H; inversion H; subst; try congruence; auto.
  - intros [-> H]; apply L_empty; assumption.
Qed.
Lemma L_text_inv id a w : at_ id PText -> (L id a w <-> a = [] /\ all_txt w = true).
Proof.
  intros E; split.
  - intros H; inversion H; subst; try congruence; auto.
  - intros [-> H]; apply L_text; assumption.
Qed.
Lemma L_na_inv id a w : at_ id PNotAllowed -> (L id a w <-> False).
Proof. intros E; split; [intros H; inversion H; subst; congruence | tauto]. Qed.
Lemma L_after_inv id p1 p2 a w : at_ id (PAfter p1 p2) -> (L id a w <-> False).
Proof. intros E; split; [intros H; inversion H; subst; congruence | tauto]. Qed.
Lemma L_attr_inv id nc p a w : at_ id (PAttribute nc p) ->
  (L id a w <-> exists x, a = [x] /\ contains nc (a_name x) = true /\ all_ws w = true /\
      (L p [] [Txt (a_value x)] \/ is_whitespace_str (a_value x) = true /\ L p [] [])).
Proof.
  intros E; split.
  - intros H; inversion H; subst; try congruence; rewrite E in *;
      match goal with H : Some _ = Some _ |- _ => injection H as -> -> end; eauto 8.
  - intros (x & -> & Hc & Hw & [H|[Hb H]]); [eapply L_attr_val | eapply L_attr_blank]; eassumption.
Qed.
Lemma L_element_inv id nc p a w : at_ id (PElement nc p) ->
  (L id a w <-> a = [] /\ exists nm b k w1 w2, w = w1 ++ Elm nm b k :: w2 /\ contains nc nm = true /\
      L p b k /\ all_ws w1 = true /\ all_ws w2 = true).
Proof.
  intros E; split.
  - intros H; inversion H; subst; try congruence; rewrite E in *;
      match goal with H : Some _ = Some _ |- _ => injection H as -> -> end.
    split; [reflexivity|]. do 5 eexists; repeat split; eassumption.
  - intros (-> & nm & b & k & w1 & w2 & -> & Hc & Hk & H1 & H2); eapply L_element; eassumption.
Qed.
Lemma L_data_inv id d a w : at_ id (PDatatype d) ->
  (L id a w <-> a = [] /\ exists s w1 w2, w = w1 ++ Txt s :: w2 /\ dt_valid O d s = Ok true /\
      all_ws w1 = true /\ all_ws w2 = true).
Proof.
  intros E; split.
  - intros H; inversion H; subst; try congruence; rewrite E in *;
      match goal with H : Some _ = Some _ |- _ => injection H as -> end.
    split; [reflexivity|]. do 3 eexists; repeat split; eassumption.
  - intros (-> & s & w1 & w2 & -> & Hc & H1 & H2); eapply L_data; eassumption.
Qed.
Lemma L_value_inv id d a w : at_ id (PDatatypeValue d) ->
  (L id a w <-> a = [] /\ exists s w1 w2, w = w1 ++ Txt s :: w2 /\ dt_value_valid d s = Ok true /\
      all_ws w1 = true /\ all_ws w2 = true).
Proof.
  intros E; split.
  - intros H; inversion H; subst; try congruence; rewrite E in *;
      match goal with H : Some _ = Some _ |- _ => injection H as -> end.
    split; [reflexivity|]. do 3 eexists; repeat split; eassumption.
  - intros (-> & s & w1 & w2 & -> & Hc & H1 & H2); eapply L_value; eassumption.
Qed.
Lemma L_except_inv id d e a w : at_ id (PDatatypeExcept d e) ->
  (L id a w <-> a = [] /\ exists s w1 w2, w = w1 ++ Txt s :: w2 /\ dt_valid O d s = Ok true /\
      SM O st e s false /\ all_ws w1 = true /\ all_ws w2 = true).
Proof.
  intros E; split.
  - intros H; inversion H; subst; try congruence; rewrite E in *;
      match goal with H : Some _ = Some _ |- _ => injection H as -> -> end.
    split; [reflexivity|]. do 3 eexists; repeat split; eassumption.
  - intros (-> & s & w1 & w2 & -> & Hc & Hs & H1 & H2); eapply L_except; eassumption.
Qed.
Lemma L_list_inv id p a w : at_ id (PList p) ->
  (L id a w <-> a = [] /\ exists ss, w = map Txt ss /\ ss <> [] /\
      L p [] (map Txt (flat_map split_whitespace ss))).
Proof.
  intros E; split.
  - intros H; inversion H; subst; try congruence; rewrite E in *;
      match goal with H : Some _ = Some _ |- _ => injection H as -> end.
    split; [reflexivity|]. eexists; repeat split; eassumption.
  - intros (-> & ss & -> & Hc & H1); eapply L_list; eassumption.
Qed.
Lemma L_placeholder_inv id r a w : at_ id (PPlaceholder r) -> (L id a w <-> False).
Proof. intros E; split; [intros H; inversion H; subst; congruence | tauto]. Qed.

Lemma L_none id a w : nth_error (pats st) id = None -> ~ L id a w.
Proof. intros E H; inversion H; subst; congruence. Qed.

(** Content of an inserted white space chunk is skipped. *)
Lemma all_ws_insert s w1 w2 : is_whitespace_str s = true -> all_ws (w1 ++ w2) = true ->
  all_ws (w1 ++ Txt s :: w2) = true.
Proof.
  rewrite !all_ws_app, andb_true_iff; intros Hs [H1 H2]. rewrite H1. cbn.
  unfold is_whitespace_str in *; rewrite Hs. exact H2.
Qed.

Lemma middle_insert (i x : item) u1 u2 v1 v2 : u1 ++ u2 = v1 ++ x :: v2 ->
  ws_item i = true -> all_ws v1 = true -> all_ws v2 = true ->
  exists v1' v2', u1 ++ i :: u2 = v1' ++ x :: v2' /\ all_ws v1' = true /\ all_ws v2' = true.
Proof.
  intros E Hi H1 H2. revert v1 E H1; induction u1 as [|y u1 IH]; intros v1 E H1; cbn in E.
  - exists (i :: v1), v2; subst u2; cbn; repeat split; [rewrite Hi; exact H1 | exact H2].
  - destruct v1 as [|z v1]; cbn in E; injection E as -> E.
    + exists [], (u1 ++ i :: u2); cbn. repeat split.
      subst v2. rewrite all_ws_app in *; cbn. rewrite Hi. exact H2.
    + cbn in H1; apply andb_true_iff in H1; destruct H1 as [Hz H1].
      destruct (IH _ E H1) as (a & b & E' & Ha & Hb).
      exists (z :: a), b; cbn; rewrite E', Hz; auto.
Qed.

Lemma merge_insert {A} (x : A) c1 c2 a b : merge a b (c1 ++ c2) ->
  exists a1 a2, a = a1 ++ a2 /\ merge (a1 ++ x :: a2) b (c1 ++ x :: c2).
Proof.
  intros H; apply merge_app_inv in H; destruct H as (a1 & a2 & b1 & b2 & -> & -> & H1 & H2).
  exists a1, a2; split; [reflexivity|]. apply merge_app_app; [exact H1 | constructor; exact H2].
Qed.

Lemma app_split_insert {A} (x : A) w1 w2 c1 c2 : w1 ++ w2 = c1 ++ c2 ->
  (exists d, w1 = c1 ++ d /\ c1 ++ x :: c2 = (c1 ++ x :: d) ++ w2)
  \/ (exists d, w2 = d ++ c2 /\ c1 ++ x :: c2 = w1 ++ (d ++ x :: c2)).
Proof.
  revert c1; induction w1 as [|y w1 IH]; intros c1 E; cbn in E.
  - right; exists c1; subst w2; auto.
  - destruct c1 as [|z c1]; cbn in E.
    + left; exists (y :: w1); subst c2; cbn; auto.
    + injection E as -> E. destruct (IH _ E) as [(d & E1 & E2)|(d & E1 & E2)].
      * left; exists d; cbn; subst w1; split; [reflexivity | rewrite E2; reflexivity].
      * right; exists d; cbn; split; [exact E1 | rewrite E2; reflexivity].
Qed.

Lemma map_app_inv {A B} (f : A -> B) l c1 c2 : map f l = c1 ++ c2 ->
  exists l1 l2, l = l1 ++ l2 /\ map f l1 = c1 /\ map f l2 = c2.
Proof.
  revert c1; induction l as [|x l IH]; intros c1 E; cbn in E.
  - symmetry in E; apply app_eq_nil in E; destruct E as [-> ->]; exists [], []; auto.
  - destruct c1 as [|y c1]; cbn in E.
    + exists [], (x :: l); auto.
    + injection E as <- E. destruct (IH _ E) as (l1 & l2 & -> & <- & <-).
      exists (x :: l1), l2; auto.
Qed.

Lemma L_ws_insert id a w : L id a w -> forall w1 w2 s, w = w1 ++ w2 -> is_whitespace_str s = true ->
  L id a (w1 ++ Txt s :: w2).
Proof.
  intros H; induction H as
    [id l r n a w E H IH|id l r n a w E H IH|id l r n a1 a2 a w1 w2 E Hm H1 IH1 H2 IH2
    |id l r n a1 a2 a w1 w2 w E Hm Hw H1 IH1 H2 IH2|id p n a w E H IH
    |id p n w1 w2 E H1 IH1 H2 IH2|id p n x a1 a2 a w1 w2 E H1 IH1 H2 IH2 Hm
    |id w E Hw|id w E Hw|id nc p x w E Hc H IH Hw|id nc p x w E Hc Hb H IH Hw
    |id nc p nm a k w1 w2 E Hc H IH Hw1 Hw2|id d s w1 w2 E Hv Hw1 Hw2|id d s w1 w2 E Hv Hw1 Hw2
    |id d e s w1 w2 E Hv Hs Hw1 Hw2|id p ss E Hne H IH];
    intros c1 c2 t Ew Ht.
  - eapply L_choice_l; eauto.
  - eapply L_choice_r; eauto.
  - destruct (app_split_insert (Txt t) _ _ _ _ Ew) as [(d & E1 & E2)|(d & E1 & E2)]; rewrite E2;
      eapply L_group; eauto.
  - subst w. destruct (merge_insert (Txt t) _ _ _ _ Hw) as (u1 & u2 & -> & Hw').
    eapply L_interleave; eauto.
  - eapply L_one; eauto.
  - destruct (app_split_insert (Txt t) _ _ _ _ Ew) as [(d & E1 & E2)|(d & E1 & E2)]; rewrite E2;
      eapply L_more_nil; eauto.
  - destruct (app_split_insert (Txt t) _ _ _ _ Ew) as [(d & E1 & E2)|(d & E1 & E2)]; rewrite E2;
      eapply L_more_cons; eauto.
  - subst; apply L_empty; [exact E | apply all_ws_insert; assumption].
  - subst; apply L_text; [exact E|]. rewrite all_txt_app in *; cbn; exact Hw.
  - subst; eapply L_attr_val; eauto using all_ws_insert.
  - subst; eapply L_attr_blank; eauto using all_ws_insert.
  - symmetry in Ew.
    destruct (middle_insert (Txt t) _ _ _ _ _ Ew Ht Hw1 Hw2) as (v1 & v2 & E' & Hv1 & Hv2).
    rewrite E'; eapply L_element; eauto.
  - symmetry in Ew.
    destruct (middle_insert (Txt t) _ _ _ _ _ Ew Ht Hw1 Hw2) as (v1 & v2 & E' & Hv1 & Hv2).
    rewrite E'; eapply L_data; eauto.
  - symmetry in Ew.
    destruct (middle_insert (Txt t) _ _ _ _ _ Ew Ht Hw1 Hw2) as (v1 & v2 & E' & Hv1 & Hv2).
    rewrite E'; eapply L_value; eauto.
  - symmetry in Ew.
    destruct (middle_insert (Txt t) _ _ _ _ _ Ew Ht Hw1 Hw2) as (v1 & v2 & E' & Hv1 & Hv2).
    rewrite E'; eapply L_except; eauto.
  - apply map_app_inv in Ew; destruct Ew as (l1 & l2 & -> & <- & <-).
    replace (map Txt l1 ++ Txt t :: map Txt l2) with (map Txt (l1 ++ t :: l2)) by (rewrite map_app; reflexivity).
    eapply L_list; [exact E | destruct l1; discriminate |].
    rewrite flat_map_app in *; cbn. rewrite (ws_no_tokens _ Ht); exact H.
Qed.

Lemma L_ws_app_l id a u w : all_ws u = true -> L id a w -> L id a (u ++ w).
Proof.
  induction u as [|i u IH]; cbn; intros Hu H; [exact H|].
  apply andb_true_iff in Hu; destruct Hu as [Hi Hu]. destruct i as [s|]; [|discriminate].
  apply (L_ws_insert id a (u ++ w) (IH Hu H) [] (u ++ w) s eq_refl Hi).
Qed.
Lemma L_ws_app_r id a u w : all_ws u = true -> L id a w -> L id a (w ++ u).
Proof.
  revert w; induction u as [|i u IH]; cbn; intros w Hu H; [rewrite app_nil_r; exact H|].
  apply andb_true_iff in Hu; destruct Hu as [Hi Hu]. destruct i as [s|]; [|discriminate].
  change (Txt s :: u) with ([Txt s] ++ u). rewrite app_assoc. apply IH; [exact Hu|].
  apply (L_ws_insert id a w H w [] s); [rewrite app_nil_r; reflexivity | exact Hi].
Qed.
Lemma L_ws_merge id a u v w : all_ws u = true -> merge u v w -> L id a v -> L id a w.
Proof.
  intros Hu Hm; revert id a; remember v as v' eqn:Ev.
  assert (Gen : forall u v w, merge u v w -> all_ws u = true -> forall p id a, L id a (p ++ v) -> L id a (p ++ w)).
  { clear. intros u v w Hm; induction Hm as [|x u v w Hm IH|x u v w Hm IH]; intros Hu p id a H.
    - exact H.
    - cbn in Hu; apply andb_true_iff in Hu; destruct Hu as [Hx Hu].
      destruct x as [s|]; [|discriminate].
      eapply L_ws_insert; [apply (IH Hu p id a H) | reflexivity | exact Hx].
    - specialize (IH Hu (p ++ [x]) id a). rewrite <- !app_assoc in IH; cbn in IH. apply IH; exact H. }
  intros id a H; apply (Gen u v' w Hm Hu [] id a H).
Qed.

(** ** One-or-more, starting with an item. *)
Lemma L_more_cons_inv id p n i w : at_ id (POneOrMore p n) ->
  (L id [] (i :: w) <-> exists w1 w2, w = w1 ++ w2 /\ L p [] (i :: w1) /\ (all_ws w2 = true \/ L id [] w2)).
Proof.
  intros E; split.
  - remember [] as a eqn:Ea; remember (i :: w) as v eqn:Ev; intros H; revert w Ea Ev.
    induction H; intros w0 Ea Ev; subst; try congruence; rewrite E in *;
      match goal with H : Some _ = Some _ |- _ => injection H as -> -> end.
    + exists w0, []; rewrite app_nil_r; auto.
    + destruct w1 as [|j w1]; cbn in Ev.
      * apply IHL2; auto.
      * injection Ev as -> <-. exists w1, w2; auto.
  - intros (w1 & w2 & -> & H1 & [H2|H2]).
    + change (i :: w1 ++ w2) with ((i :: w1) ++ w2). apply L_ws_app_r; [exact H2|].
      eapply L_one; eassumption.
    + change (i :: w1 ++ w2) with ((i :: w1) ++ w2). eapply L_more_nil; eassumption.
Qed.
Lemma L_more_att_inv id p n x a w : at_ id (POneOrMore p n) ->
  (L id (x :: a) w <-> exists a1 a2 w1 w2, w = w1 ++ w2 /\ merge a1 a2 a /\ L p (x :: a1) w1 /\
      (a2 = [] /\ all_ws w2 = true \/ L id a2 w2)).
Proof.
  intros E; split.
  - intros H; inversion H; subst; try congruence; rewrite E in *;
      match goal with H : Some _ = Some _ |- _ => injection H as -> -> end.
    + exists a, [], w, []; rewrite app_nil_r; repeat split; auto using merge_nil_r.
    + do 4 eexists; repeat split; eauto.
  - intros (a1 & a2 & w1 & w2 & -> & Hm & H1 & [[-> H2]|H2]).
    + apply merge_nil_r_inv in Hm; subst a1. apply L_ws_app_r; [exact H2|]. eapply L_one; eassumption.
    + eapply L_more_cons; eassumption.
Qed.
Lemma L_more_null id p n : at_ id (POneOrMore p n) -> (L id [] [] <-> L p [] []).
Proof.
  intros E; split.
  - remember [] as a eqn:Ea; remember [] as v eqn:Ev in |- * at 1; intros H; revert Ea Ev.
    induction H; intros Ea Ev; subst; try congruence; rewrite E in *;
      match goal with H : Some _ = Some _ |- _ => injection H as -> -> end; auto.
    apply app_eq_nil in Ev; destruct Ev as [-> ->]; auto.
  - intros H; eapply L_one; eassumption.
Qed.
(** [] attributes, all content: used for residuals *)
Lemma LF_nil id a w : LF id a w [] <-> L id a w.
Proof.
  split; [|apply LF_base].
  remember [] as ks eqn:Ek; intros H; revert Ek; induction H; intros Ek; try discriminate; auto.
  - eapply L_choice_l; eauto.
  - eapply L_choice_r; eauto.
Qed.
Lemma LF_choice_inv id l r n a w ks : at_ id (PChoice l r n) -> (LF id a w ks <-> LF l a w ks \/ LF r a w ks).
Proof.
  intros E; split.
  - intros H; inversion H; subst; try congruence;
      try (rewrite E in *; match goal with H : Some _ = Some _ |- _ => injection H as -> -> -> end; auto).
    match goal with HL : Lang.L _ _ id _ _ |- _ => apply (L_choice_inv _ _ _ _ _ _ E) in HL end.
    rewrite !LF_nil; assumption.
  - intros [H|H]; [eapply LF_choice_l | eapply LF_choice_r]; eassumption.
Qed.
Lemma LF_after_inv id p1 p2 a w ks : at_ id (PAfter p1 p2) ->
  (LF id a w ks <-> exists k ks', ks = k :: ks' /\ L p1 a w /\ LF p2 [] k ks').
Proof.
  intros E; split.
  - intros H; inversion H; subst; try congruence.
    + match goal with HL : Lang.L _ _ id _ _ |- _ => apply (L_after_inv _ _ _ _ _ E) in HL; contradiction end.
    + rewrite E in *; match goal with H : Some _ = Some _ |- _ => injection H as -> -> end; eauto.
  - intros (k & ks' & -> & H1 & H2); eapply LF_after; eassumption.
Qed.
Lemma LF_na_inv id a w ks : at_ id PNotAllowed -> (LF id a w ks <-> False).
Proof.
  intros E; split; [|tauto]. intros H; inversion H; subst; try congruence.
  match goal with HL : Lang.L _ _ id _ _ |- _ => apply (L_na_inv _ _ _ E) in HL; exact HL end.
Qed.
End Inv.
