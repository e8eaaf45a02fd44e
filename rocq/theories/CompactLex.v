(** * CompactLex: the lexical layer of the compact parser reads what CompactText.v describes. *)
From Coq Require Import String.
From Verif Require Import Base Datatype Syntax CompactParse CompactText CompactTotal.

Arguments nc_char : simpl never.
Arguments N.eqb : simpl never.
Arguments nc_start_char : simpl never.

(** ** Sequencing *)
Lemma bind_ok {A B} (p : parser A) (f : A -> parser B) s a r : p s = POk a r -> pbind p f s = f a r.
Proof. unfold pbind. intros ->. reflexivity. Qed.
Lemma bind_err {A B} (p : parser A) (f : A -> parser B) s : p s = PErr -> pbind p f s = PErr.
Proof. unfold pbind. intros ->. reflexivity. Qed.
Lemma por_ok {A} (p q : parser A) s a r : p s = POk a r -> (p <|> q) s = POk a r.
Proof. unfold por. intros ->. reflexivity. Qed.
Lemma por_err {A} (p q : parser A) s : p s = PErr -> (p <|> q) s = q s.
Proof. unfold por. intros ->. reflexivity. Qed.
Lemma pmap_ok {A B} (f : A -> B) (p : parser A) s a r : p s = POk a r -> pmap f p s = POk (f a) r.
Proof. unfold pmap, pbind. intros ->. reflexivity. Qed.
Lemma pmap_err {A B} (f : A -> B) (p : parser A) s : p s = PErr -> pmap f p s = PErr.
Proof. unfold pmap, pbind. intros ->. reflexivity. Qed.
Lemma opt_ok {A} (p : parser A) s a r : p s = POk a r -> popt p s = POk (Some a) r.
Proof. unfold popt. intros ->. reflexivity. Qed.
Lemma opt_err {A} (p : parser A) s : p s = PErr -> popt p s = POk None s.
Proof. unfold popt. intros ->. reflexivity. Qed.
Lemma cut_ok {A} (p : parser A) s a r : p s = POk a r -> pcut p s = POk a r.
Proof. unfold pcut. intros ->. reflexivity. Qed.
Lemma ptag_app k r : ptag k (k ++ r) = POk tt r.
Proof. induction k as [|c k IH]; [reflexivity|]. cbn [ptag app]. rewrite N.eqb_refl. exact IH. Qed.
Lemma ptag_cases k s : (exists r, ptag k s = POk tt r /\ s = k ++ r) \/ ptag k s = PErr.
Proof.
  revert s; induction k as [|c k IH]; intros s; [left; exists s; split; reflexivity|]. destruct s as [|d s]; [right; reflexivity|].
  cbn [ptag]. destruct (N.eqb_spec c d) as [<-|]; [|right; reflexivity]. destruct (IH s) as [(r & H & ->) | H]; [|right; exact H].
  left. exists r. split; [exact H | reflexivity].
Qed.

(** ** Conditions on the next character *)
Definition nohd (P : N -> bool) (r : str) : Prop := match r with [] => True | c :: _ => P c = false end.
Definition among (l : list N) (c : N) : bool := existsb (N.eqb c) l.
Definition gapc (c : N) : bool := is_xml_ws c || (c =? 35)%N.
Arguments gapc : simpl never.
Arguments among : simpl never.
Definition starts (P : N -> bool) (s : str) : Prop := exists c t, s = c :: t /\ P c = true.
Lemma nohd_imp (P Q : N -> bool) r : (forall c, Q c = true -> P c = true) -> nohd P r -> nohd Q r.
Proof. intros H. destruct r as [|c r]; [trivial|]. cbn. intros H1. destruct (Q c) eqn:E; [|reflexivity]. apply H in E. congruence. Qed.
Lemma among_in l c : among l c = true <-> In c l.
Proof.
  unfold among. rewrite existsb_exists. split.
  - intros (x & Hx & E). apply N.eqb_eq in E. subst; exact Hx.
  - intros H. exists c. split; [exact H | apply N.eqb_refl].
Qed.
Lemma starts_nohd P Q s t : starts P s -> (forall c, P c = true -> Q c = false) -> nohd Q (s ++ t).
Proof. intros (c & u & -> & Hc) H. cbn. apply H. exact Hc. Qed.
Lemma starts_imp (P Q : N -> bool) s : (forall c, P c = true -> Q c = true) -> starts P s -> starts Q s.
Proof. intros H (c & t & -> & Hc). exists c, t. auto. Qed.
Lemma starts_app P s t : starts P s -> starts P (s ++ t).
Proof. intros (c & u & -> & Hc). exists c, (u ++ t). auto. Qed.
Lemma starts_len P s : starts P s -> 0 < List.length s.
Proof. intros (c & t & -> & _). cbn. lia. Qed.

Lemma ptag_hd a k r : nohd (N.eqb a) r -> ptag (a :: k) r = PErr.
Proof. destruct r as [|c r]; [reflexivity|]. cbn [nohd ptag]. intros ->. reflexivity. Qed.
Lemma sat_no f r : nohd f r -> psat f r = PErr.
Proof. destruct r as [|c r]; [reflexivity|]. cbn. intros ->. reflexivity. Qed.

(** ** Name characters *)
Lemma in_ranges_within l c : in_ranges l c = true <-> within l c.
Proof.
  unfold in_ranges, within. rewrite existsb_exists, Exists_exists. split; intros ([a b] & H & E); exists (a, b); split; auto.
  - apply andb_prop in E as [E1 E2]. apply N.leb_le in E1, E2. lia.
  - apply andb_true_intro. split; apply N.leb_le; lia.
Qed.
Lemma start_char c : NameStart c <-> nc_start_char c = true.
Proof. unfold NameStart, nc_start_char. symmetry. apply in_ranges_within. Qed.
Lemma name_char c : NameChar c <-> nc_char c = true.
Proof.
  unfold NameChar, nc_char, nc_char_ranges, in_ranges. rewrite existsb_app, orb_true_iff.
  rewrite start_char. unfold nc_start_char. split; (intros [H | H]; [left; exact H | right]); apply (in_ranges_within [(45, 45); (46, 46); (48, 57); (183, 183); (768, 879); (8255, 8256)]%N c); exact H.
Qed.
Lemma start_is_char c : nc_start_char c = true -> nc_char c = true.
Proof. intros H. apply name_char. left. apply start_char. exact H. Qed.
Lemma not_same (P : N -> bool) c d : P c = true -> P d = false -> (c =? d)%N = false.
Proof. intros H1 H2. apply N.eqb_neq. intros ->. congruence. Qed.
Lemma nc_char_gapc c : nc_char c = true -> gapc c = false.
Proof. intros H. unfold gapc, is_xml_ws. rewrite !(not_same nc_char c _ H) by reflexivity. reflexivity. Qed.
Lemma nc_char_among c l : nc_char c = true -> forallb (fun d => negb (nc_char d)) l = true -> among l c = false.
Proof.
  intros H Hl. destruct (among l c) eqn:E; [|reflexivity]. apply among_in in E. rewrite forallb_forall in Hl. apply Hl in E.
  rewrite H in E. discriminate.
Qed.

Definition word (w : str) : Prop := w <> [] /\ Forall (fun c => nc_char c = true) w.
Lemma NCName_word w : NCName w -> word w.
Proof.
  intros (c & t & -> & Hc & Ht). split; [discriminate|]. constructor; [apply start_is_char, start_char, Hc|].
  eapply Forall_impl; [|exact Ht]. intros a. apply name_char.
Qed.
Lemma NCName_starts w : NCName w -> starts nc_start_char w.
Proof. intros (c & t & -> & Hc & Ht). exists c, t. split; [reflexivity | apply start_char, Hc]. Qed.
Lemma word_starts w : word w -> starts nc_char w.
Proof. intros [H1 H2]. destruct H2 as [|c t Hc Ht]; [congruence|]. exists c, t. auto. Qed.
Lemma take_while_run f w r : Forall (fun c => f c = true) w -> nohd f r -> take_while f (w ++ r) = (w, r).
Proof.
  intros Hw Hr. induction Hw as [|c w Hc Hw IH]; cbn [app].
  - destruct r as [|c r]; [reflexivity|]. cbn in Hr |- *. rewrite Hr. reflexivity.
  - cbn [take_while]. rewrite Hc, IH. reflexivity.
Qed.
Lemma nc_name_ok w r : NCName w -> nohd nc_char r -> p_nc_name (w ++ r) = POk w r.
Proof.
  intros (c & t & -> & Hc & Ht) Hr. unfold p_nc_name, nc_name. cbn [app]. apply start_char in Hc. rewrite Hc.
  rewrite take_while_run; [reflexivity | | exact Hr]. eapply Forall_impl; [|exact Ht]. intros a. apply name_char.
Qed.
Lemma nc_name_no r : nohd nc_start_char r -> p_nc_name r = PErr.
Proof. unfold p_nc_name, nc_name. destruct r as [|c r]; [reflexivity|]. cbn [nohd]. intros ->. reflexivity. Qed.

(** ** White space and comments *)
Lemma gap_app g h : Gap g -> Gap h -> Gap (g ++ h).
Proof.
  intros Hg Hh. induction Hg as [|c g Hc Hg IH|body eol g Hb He Hg IH]; [exact Hh | cbn; constructor; assumption |].
  rewrite <- !app_assoc. constructor; assumption.
Qed.
Lemma ws_in c : In c [32; 9; 13; 10]%N -> is_xml_ws c = true.
Proof. intros [<- | [<- | [<- | [<- | []]]]]; reflexivity. Qed.
Lemma gap_head g : Gap g -> g <> [] -> starts gapc g.
Proof.
  intros [|c g' Hc _|body eol g' _ _ _] H; [congruence | exists c, g'; split; [reflexivity|]; unfold gapc; rewrite ws_in by exact Hc; reflexivity |].
  exists 35%N, (body ++ eol ++ g'). split; reflexivity.
Qed.
Lemma gap_run g r : Gap g -> nohd gapc r ->
  exists a g', take_while is_xml_ws (g ++ r) = (a, g' ++ r) /\ Gap g' /\ g = a ++ g' /\ (starts is_xml_ws g -> a <> []).
Proof.
  intros Hg Hr. induction Hg as [|c g Hc Hg IH|body eol g Hb He Hg IH].
  - exists [], []. cbn [app]. split; [|repeat split; [constructor | intros (c & t & H & _); discriminate]].
    destruct r as [|c r]; [reflexivity|]. cbn in Hr |- *. unfold gapc in Hr. apply orb_false_iff in Hr as [-> _]. reflexivity.
  - destruct IH as (a & g' & H1 & H2 & -> & _). apply ws_in in Hc. exists (c :: a), g'. cbn [app take_while]. rewrite Hc, H1.
    repeat split; [exact H2 | intros _; discriminate].
  - exists [], (lit "#" ++ body ++ eol ++ g). cbn [app]. repeat split; [constructor; assumption|].
    intros (c & t & H & Hc). injection H as <- _. discriminate.
Qed.
Lemma soc_gap g r : Gap1 g -> nohd gapc r ->
  exists g', space_or_comment (g ++ r) = POk tt (g' ++ r) /\ Gap g' /\ List.length g' < List.length g.
Proof.
  intros [Hg Hne] Hr. destruct Hg as [|c g Hc Hg|body eol g Hb He Hg]; [congruence | |].
  - destruct (gap_run (c :: g) r) as (a & g' & H1 & H2 & H3 & H4); [constructor; assumption | exact Hr |].
    specialize (H4 (ex_intro _ c (ex_intro _ g (conj eq_refl (ws_in _ Hc))))). exists g'.
    split; [|split; [exact H2 | rewrite H3, app_length; destruct a; [congruence | cbn; lia]]].
    unfold space_or_comment. erewrite por_ok; [reflexivity|]. erewrite bind_ok; [reflexivity|].
    unfold multispace1. rewrite H1. destruct a; [congruence | reflexivity].
  - exists (eol ++ g). rewrite <- !app_assoc. split; [|split].
    + unfold space_or_comment. rewrite por_err by reflexivity. unfold comment. rewrite (bind_ok _ _ _ tt (body ++ eol ++ g ++ r)) by (apply ptag_app).
      erewrite bind_ok; [reflexivity|]. unfold not_line_ending. rewrite (take_while_run _ body (eol ++ g ++ r)).
      * destruct He as [-> | ->]; reflexivity.
      * eapply Forall_impl; [|exact Hb]. cbn. intros c [H1 H2]. apply N.eqb_neq in H1, H2. rewrite H1, H2. reflexivity.
      * destruct He as [-> | ->]; reflexivity.
    + apply gap_app; [|exact Hg]. destruct He as [-> | ->]; repeat (apply Gap_space; [cbn; tauto|]); constructor.
    + cbn. rewrite !app_length. lia.
Qed.
Lemma soc_stop r : nohd gapc r -> space_or_comment r = PErr.
Proof.
  intros H. assert (Hw : nohd is_xml_ws r) by (eapply nohd_imp; [|exact H]; intros c E; unfold gapc; rewrite E; reflexivity).
  assert (Hh : nohd (N.eqb 35) r) by (eapply nohd_imp; [|exact H]; intros c E; unfold gapc; rewrite N.eqb_sym, E; apply orb_true_r).
  unfold space_or_comment. rewrite por_err.
  - unfold comment. rewrite bind_err; [reflexivity|]. apply ptag_hd. exact Hh.
  - rewrite bind_err; [reflexivity|]. unfold multispace1. destruct r as [|c r]; [reflexivity|]. cbn in Hw |- *. rewrite Hw. reflexivity.
Qed.
Lemma many_gap n : forall g r, Gap g -> nohd gapc r -> List.length (g ++ r) < n ->
  exists l, many_loop n space_or_comment (g ++ r) = POk l r.
Proof.
  induction n as [|n IH]; intros g r Hg Hr Hn; [lia|]. cbn [many_loop].
  destruct g as [|c g].
  - cbn [app]. rewrite soc_stop by exact Hr. eauto.
  - destruct (soc_gap (c :: g) r) as (g' & H1 & H2 & H3); [split; [exact Hg | discriminate] | exact Hr |].
    rewrite H1. rewrite app_length in Hn. destruct (Nat.eqb_spec (List.length (g' ++ r)) (List.length ((c :: g) ++ r))) as [E|_]; [rewrite !app_length in E; lia|].
    destruct (IH g' r H2 Hr) as [l Hl]; [rewrite app_length; lia|]. rewrite Hl. eauto.
Qed.
Lemma sc0_gap g r : Gap g -> nohd gapc r -> sc0 (g ++ r) = POk tt r.
Proof.
  intros Hg Hr. unfold sc0. destruct (many_gap (S (List.length (g ++ r))) g r Hg Hr ltac:(lia)) as [l Hl].
  erewrite bind_ok; [reflexivity|]. exact Hl.
Qed.
Lemma sc0_nil r : nohd gapc r -> sc0 r = POk tt r.
Proof. intros H. apply (sc0_gap [] r Gap_nil H). Qed.
Lemma sc1_gap g r : Gap1 g -> nohd gapc r -> sc1 (g ++ r) = POk tt r.
Proof.
  intros Hg Hr. unfold sc1, pmany1. destruct (soc_gap g r Hg Hr) as (g' & H1 & H2 & H3).
  destruct (many_gap (S (List.length (g' ++ r))) g' r H2 Hr ltac:(lia)) as [l Hl].
  erewrite bind_ok; [reflexivity|]. erewrite bind_ok by exact H1. erewrite bind_ok by exact Hl. reflexivity.
Qed.
Lemma sc1_stop r : nohd gapc r -> sc1 r = PErr.
Proof. intros H. unfold sc1, pmany1. rewrite bind_err; [reflexivity|]. apply bind_err. apply soc_stop. exact H. Qed.

(** ** What follows a construct: a gap and then a character which is none of [bad] *)
Definition Follow (bad : list N) (r : str) : Prop :=
  exists g t, r = g ++ t /\ Gap g /\ nohd gapc t /\ nohd (among bad) t /\ (g = [] -> nohd nc_char t).
Lemma F_sc0 bad r : Follow bad r -> exists t, sc0 r = POk tt t /\ nohd (among bad) t /\ nohd gapc t.
Proof. intros (g & t & -> & H1 & H2 & H3 & _). exists t. split; [apply sc0_gap; assumption | tauto]. Qed.
Lemma F_nc bad r : Follow bad r -> nohd nc_char r.
Proof.
  intros (g & t & -> & H1 & H2 & H3 & H4). destruct g as [|c g]; [apply H4; reflexivity|].
  destruct (gap_head _ H1 ltac:(discriminate)) as (c' & g' & [= <- <-] & Hc). cbn. destruct (nc_char c) eqn:E; [|reflexivity].
  apply nc_char_gapc in E. congruence.
Qed.
Lemma F_hd bad r d : Follow bad r -> In d bad -> gapc d = false -> nohd (N.eqb d) r.
Proof.
  intros (g & t & -> & H1 & H2 & H3 & H4) Hd Hg. destruct g as [|c g].
  - cbn [app]. destruct t as [|c t]; [exact I|]. cbn in H3 |- *. apply N.eqb_neq. intros <-.
    apply among_in in Hd. congruence.
  - destruct (gap_head _ H1 ltac:(discriminate)) as (c' & g' & [= <- <-] & Hc). cbn. apply N.eqb_neq. intros <-. congruence.
Qed.
Lemma F_weaken bad bad' r : incl bad' bad -> Follow bad r -> Follow bad' r.
Proof.
  intros Hi (g & t & -> & H1 & H2 & H3 & H4). exists g, t. repeat split; auto. eapply nohd_imp; [|exact H3].
  intros c. rewrite !among_in. apply Hi.
Qed.
Definition ok_head (bad : list N) (k : str) : bool :=
  match k with c :: _ => negb (gapc c) && negb (among bad c) && negb (nc_char c) | [] => false end.
Lemma F_str bad g k t : Gap g -> ok_head bad k = true -> Follow bad (g ++ k ++ t).
Proof.
  intros Hg Hk. destruct k as [|c k]; [discriminate|]. cbn in Hk. apply andb_prop in Hk as [Hk H3]. apply andb_prop in Hk as [H1 H2].
  apply negb_true_iff in H1, H2, H3. exists g, ((c :: k) ++ t). repeat split; cbn; auto.
Qed.
Lemma F_end bad g : Gap g -> Follow bad g.
Proof. intros Hg. exists g, []. rewrite app_nil_r. repeat split; cbn; auto. Qed.
Lemma F_starts bad P g s t : Gap1 g -> starts P s -> (forall c, P c = true -> gapc c = false /\ among bad c = false) -> Follow bad (g ++ s ++ t).
Proof.
  intros [Hg Hn] Hs HP. exists g, (s ++ t). repeat split; auto.
  - eapply starts_nohd; [exact Hs|]. intros c Hc. apply HP; exact Hc.
  - eapply starts_nohd; [exact Hs|]. intros c Hc. apply HP; exact Hc.
  - intros; congruence.
Qed.
Lemma F_gap bad g r : Gap g -> Follow bad r -> Follow bad (g ++ r).
Proof.
  intros Hg (h & t & -> & H1 & H2 & H3 & H4). exists (g ++ h), t. rewrite app_assoc. repeat split; auto; [apply gap_app; assumption|].
  intros E. apply app_eq_nil in E. apply H4. tauto.
Qed.

(** ** Keywords and identifiers *)
Lemma kw_word k : In k Keywords -> NCName k.
Proof.
  intros H. assert (Hb : forallb (fun k => match k with c :: t => nc_start_char c && forallb nc_char t | [] => false end) Keywords = true)
    by (vm_compute; reflexivity).
  rewrite forallb_forall in Hb. specialize (Hb k H). destruct k as [|c t]; [discriminate|]. apply andb_prop in Hb as [H1 H2].
  exists c, t. repeat split; [apply start_char, H1|]. rewrite forallb_forall in H2. apply Forall_forall. intros x Hx. apply name_char, H2, Hx.
Qed.
Lemma kw_prefix_free k k' t : In k Keywords -> In k' Keywords -> k = k' ++ t -> t = [].
Proof.
  assert (Hb : forallb (fun k => forallb (fun k' => match ptag k' k with POk _ (_ :: _) => false | _ => true end) Keywords) Keywords = true)
    by (vm_compute; reflexivity).
  intros H1 H2 ->. rewrite forallb_forall in Hb. specialize (Hb _ H1). rewrite forallb_forall in Hb. specialize (Hb _ H2).
  rewrite ptag_app in Hb. destruct t; [reflexivity | discriminate].
Qed.
Lemma ptag_word k w r : Forall (fun c => nc_char c = true) k -> nohd nc_char r ->
  (exists w', w = k ++ w' /\ ptag k (w ++ r) = POk tt (w' ++ r)) \/ ((forall w', w <> k ++ w') /\ ptag k (w ++ r) = PErr).
Proof.
  intros Hk Hr. revert w. induction Hk as [|c k Hc Hk IH]; intros w; [left; exists w; split; reflexivity|].
  destruct w as [|d w].
  - right. split; [discriminate|]. cbn [app]. apply ptag_hd. eapply nohd_imp; [|exact Hr]. intros d E. apply N.eqb_eq in E. subst; exact Hc.
  - cbn [app ptag]. destruct (N.eqb_spec c d) as [<-|].
    + destruct (IH w) as [(w' & -> & H) | [H1 H2]]; [left; exists w'; split; [reflexivity | exact H]|].
      right. split; [intros w' [= ->]; eapply H1; reflexivity | exact H2].
    + right. split; [congruence | reflexivity].
Qed.
Lemma word_forall w : word w -> Forall (fun c => nc_char c = true) w. Proof. intros [_ H]; exact H. Qed.
Lemma keyword_ok k r : In k Keywords -> nohd nc_char r -> keyword (k ++ r) = POk k r.
Proof.
  intros Hk Hr. unfold keyword.
  assert (H : alt_tags keywords (k ++ r) = POk k r).
  { change keywords with Keywords. assert (Hsub : forall l, incl l Keywords -> In k l -> alt_tags l (k ++ r) = POk k r).
    { induction l as [|t l IH]; intros Hi Hl; [destruct Hl|]. cbn [alt_tags].
      assert (Ht : In t Keywords) by (apply Hi; left; reflexivity).
      destruct (ptag_word t k r (word_forall _ (NCName_word _ (kw_word _ Ht))) Hr) as [(w' & E & H) | [H1 H2]].
      - assert (w' = []) by exact (kw_prefix_free k t w' Hk Ht E). subst w'. rewrite app_nil_r in E. subst t.
        erewrite por_ok; [reflexivity|]. erewrite bind_ok; [|exact H]. reflexivity.
      - rewrite por_err by (apply bind_err; exact H2). apply IH; [intros x Hx; apply Hi; right; exact Hx|].
        destruct Hl as [-> | Hl]; [exfalso; apply (H1 []); rewrite app_nil_r; reflexivity | exact Hl]. }
    apply Hsub; [intros x; auto | exact Hk]. }
  erewrite bind_ok by exact H. erewrite bind_ok; [reflexivity|]. unfold pnot. rewrite sat_no by exact Hr. reflexivity.
Qed.
Lemma keyword_no w r : word w -> ~ In w Keywords -> nohd nc_char r -> keyword (w ++ r) = PErr.
Proof.
  intros Hw Hk Hr. unfold keyword.
  assert (H : alt_tags keywords (w ++ r) = PErr \/ exists k c t, alt_tags keywords (w ++ r) = POk k (c :: t) /\ nc_char c = true).
  { change keywords with Keywords. assert (Hsub : forall l, incl l Keywords -> alt_tags l (w ++ r) = PErr \/ exists k c t, alt_tags l (w ++ r) = POk k (c :: t) /\ nc_char c = true).
    { induction l as [|t l IH]; intros Hi; [left; reflexivity|]. cbn [alt_tags].
      assert (Ht : In t Keywords) by (apply Hi; left; reflexivity).
      destruct (ptag_word t w r (word_forall _ (NCName_word _ (kw_word _ Ht))) Hr) as [(w' & E & H) | [H1 H2]].
      - right. destruct w' as [|c w']; [rewrite app_nil_r in E; subst; contradiction|].
        exists t, c, (w' ++ r). split.
        + erewrite por_ok; [reflexivity|]. erewrite bind_ok; [|exact H]. reflexivity.
        + subst w. destruct Hw as [_ Hw]. apply Forall_app in Hw as [_ Hw]. inversion Hw; assumption.
      - rewrite por_err by (apply bind_err; exact H2). apply IH. intros x Hx; apply Hi; right; exact Hx. }
    apply Hsub. intros x; auto. }
  destruct H as [H | (k & c & t & H & Hc)]; [apply bind_err; exact H|]. erewrite bind_ok by exact H. apply bind_err.
  unfold pnot, psat. rewrite Hc. reflexivity.
Qed.
Lemma keyword_nohd r : nohd nc_start_char r -> keyword r = PErr.
Proof.
  intros Hr. unfold keyword. apply bind_err.
  assert (Hsub : forall l, incl l Keywords -> alt_tags l r = PErr).
  { induction l as [|t l IH]; intros Hi; [reflexivity|]. cbn [alt_tags]. rewrite por_err; [apply IH; intros x Hx; apply Hi; right; exact Hx|].
    apply bind_err. destruct (NCName_starts t) as (c & u & -> & Hc); [apply kw_word, Hi; left; reflexivity|]. apply ptag_hd.
    eapply nohd_imp; [|exact Hr]. intros d E. apply N.eqb_eq in E. subst; exact Hc. }
  apply (Hsub keywords). intros x; auto.
Qed.
Lemma recog_ok {A} (p : parser A) s r a : p (s ++ r) = POk a r -> precog p (s ++ r) = POk s r.
Proof.
  intros H. unfold precog. rewrite H. f_equal. rewrite app_length. replace (List.length s + List.length r - List.length r) with (List.length s) by lia.
  rewrite firstn_app, Nat.sub_diag, firstn_all. cbn. apply app_nil_r.
Qed.
Lemma recog_err {A} (p : parser A) s : p s = PErr -> precog p s = PErr.
Proof. unfold precog. intros ->. reflexivity. Qed.
Lemma ident_nc w r : NCName w -> ~ In w Keywords -> nohd nc_char r -> identifier (w ++ r) = POk w r.
Proof.
  intros Hw Hk Hr. unfold identifier. rewrite por_err.
  - eapply recog_ok. rewrite (bind_ok _ _ _ tt (w ++ r)); [apply nc_name_ok; assumption|]. unfold pnot.
    rewrite keyword_no; [reflexivity | apply NCName_word; exact Hw | exact Hk | exact Hr].
  - apply recog_err, bind_err. destruct (NCName_starts _ Hw) as (c & t & -> & Hc). apply ptag_hd. cbn.
    apply N.eqb_neq. intros <-. discriminate.
Qed.
Lemma identifier_ok i r : Ident i -> nohd nc_char r -> identifier (i ++ r) = POk i r.
Proof.
  intros [[H1 H2] | (k & Hk & ->)] Hr; [apply ident_nc; assumption|].
  unfold identifier. erewrite por_ok; [reflexivity|]. eapply (recog_ok _ (92%N :: k)). cbn [app].
  rewrite (bind_ok _ _ _ tt (k ++ r)); [apply keyword_ok; assumption|]. reflexivity.
Qed.
Lemma identifier_kw k r : In k Keywords -> nohd nc_char r -> identifier (k ++ r) = PErr.
Proof.
  intros Hk Hr. unfold identifier. rewrite por_err.
  - apply recog_err, bind_err. unfold pnot. rewrite keyword_ok by assumption. reflexivity.
  - apply recog_err, bind_err. destruct (NCName_starts _ (kw_word _ Hk)) as (c & t & -> & Hc). apply ptag_hd. cbn.
    apply N.eqb_neq. intros <-. discriminate.
Qed.
Lemma identifier_no r : nohd nc_start_char r -> nohd (N.eqb 92) r -> identifier r = PErr.
Proof.
  intros H1 H2. unfold identifier. rewrite por_err; [|apply recog_err, bind_err, ptag_hd; exact H2]. apply recog_err.
  erewrite bind_ok; [apply nc_name_no; exact H1|]. unfold pnot. rewrite keyword_nohd by exact H1. reflexivity.
Qed.
Lemma idkw_ok i s r : IdKw i s -> nohd nc_char r -> identifier_or_keyword (s ++ r) = POk i r.
Proof.
  intros [t Ht | t Ht] Hr; unfold identifier_or_keyword.
  - erewrite por_ok; [reflexivity|]. apply pmap_ok. apply identifier_ok; assumption.
  - rewrite por_err by (apply pmap_err, identifier_kw; assumption). apply pmap_ok. apply keyword_ok; assumption.
Qed.
Lemma idkw_no r : nohd nc_start_char r -> nohd (N.eqb 92) r -> identifier_or_keyword r = PErr.
Proof.
  intros H1 H2. unfold identifier_or_keyword. rewrite por_err by (apply pmap_err, identifier_no; assumption).
  apply pmap_err, keyword_nohd, H1.
Qed.
Definition idstart (c : N) : bool := nc_start_char c || (c =? 92)%N.
Lemma Ident_starts i : Ident i -> starts idstart i.
Proof.
  intros [[H _] | (k & Hk & ->)].
  - eapply starts_imp; [|apply NCName_starts; exact H]. intros c E. unfold idstart. rewrite E. reflexivity.
  - exists 92%N, k. split; reflexivity.
Qed.
Lemma IdKw_starts i s : IdKw i s -> starts idstart s.
Proof.
  intros [t Ht | t Ht]; [apply Ident_starts; exact Ht|].
  eapply starts_imp; [|apply NCName_starts, kw_word; exact Ht]. intros c E. unfold idstart. rewrite E. reflexivity.
Qed.

(** ** Literals *)
Definition quotec (c : N) : bool := ((c =? 34) || (c =? 39))%N.
Arguments quotec : simpl never.
Lemma take_until3 q b r : Body3 q b -> take_until [q; q; q] (b ++ [q; q; q] ++ r) = POk b ([q; q; q] ++ r).
Proof.
  induction 1 as [|k c b Hk Hc Hb IH].
  - cbn [app]. change (take_until [q; q; q] (q :: q :: q :: r)) with
      (match ptag [q; q; q] (q :: q :: q :: r) with POk _ _ => POk [] (q :: q :: q :: r) | _ => match take_until [q; q; q] (q :: q :: r) with POk b r => POk (q :: b) r | e => e end end).
    change (q :: q :: q :: r) with ([q; q; q] ++ r). rewrite ptag_app. reflexivity.
  - assert (Hq : (q =? c)%N = false) by (apply N.eqb_neq; congruence).
    assert (Hq' : (q =? q)%N = true) by apply N.eqb_refl.
    destruct k as [|[|[|k]]]; [| | | lia]; cbn [repeat app]; rewrite <- ?app_assoc; cbn [app];
      cbn [take_until ptag]; rewrite ?Hq, ?Hq'; cbn [ptag]; rewrite ?Hq, ?Hq'; cbn [ptag]; rewrite ?Hq, ?Hq'; change (q :: q :: q :: r) with ([q; q; q] ++ r); rewrite IH; reflexivity.
Qed.
Lemma segment_ok b s r : Segment b s -> nohd quotec r -> literal_segment (s ++ r) = POk b r.
Proof.
  intros [q b' Hq Hb | q b' Hq Hb] Hr.
  - assert (H3 : ptag [q; q; q] ((q :: b' ++ [q]) ++ r) = PErr).
    { change (ptag [q; q; q] ((q :: b' ++ [q]) ++ r)) with (if (q =? q)%N then ptag [q; q] ((b' ++ [q]) ++ r) else PErr).
      rewrite N.eqb_refl. destruct Hb as [|c b' [Hc _] Hb].
      - cbn [app]. change (ptag [q; q] (q :: r)) with (if (q =? q)%N then ptag [q] r else PErr). rewrite N.eqb_refl. apply ptag_hd. eapply nohd_imp; [|exact Hr]. intros d E. apply N.eqb_eq in E. subst d.
        unfold quotec. destruct Hq as [-> | ->]; reflexivity.
      - cbn [app ptag]. replace (q =? c)%N with false; [reflexivity|]. symmetry. apply N.eqb_neq. congruence. }
    assert (Hrun : run_without [q; 10%N] ((b' ++ [q]) ++ r) = POk b' (q :: r)).
    { unfold run_without. rewrite <- app_assoc. rewrite (take_while_run _ b' ([q] ++ r)); [reflexivity | |].
      - eapply Forall_impl; [|exact Hb]. cbn. intros c [H1 H2]. apply N.eqb_neq in H1, H2. rewrite H1, H2. reflexivity.
      - cbn. rewrite N.eqb_refl. reflexivity. }
    assert (Hd : delim [q] (run_without [q; 10%N]) [q] ((q :: b' ++ [q]) ++ r) = POk b' r).
    { unfold delim. rewrite (bind_ok _ _ _ tt ((b' ++ [q]) ++ r)); [|cbn [app ptag]; rewrite N.eqb_refl; reflexivity].
      erewrite bind_ok by exact Hrun. rewrite (bind_ok _ _ _ tt r); [reflexivity|]. apply (ptag_app [q] r). }
    unfold literal_segment. destruct Hq as [-> | ->].
    + rewrite por_err by (apply bind_err; exact H3). rewrite por_err by reflexivity. erewrite por_ok; [reflexivity|]. exact Hd.
    + rewrite por_err by reflexivity. rewrite por_err by (apply bind_err; exact H3). rewrite por_err by reflexivity. exact Hd.
  - assert (Hd : delim [q; q; q] (take_until [q; q; q]) [q; q; q] (([q; q; q] ++ b' ++ [q; q; q]) ++ r) = POk b' r).
    { unfold delim. rewrite <- !app_assoc. rewrite (bind_ok _ _ _ tt (b' ++ [q; q; q] ++ r)) by apply ptag_app.
      rewrite (bind_ok _ _ _ _ _ (take_until3 q b' r Hb)). rewrite (bind_ok _ _ _ tt r); [reflexivity|]. apply ptag_app. }
    unfold literal_segment. destruct Hq as [-> | ->].
    + erewrite por_ok; [reflexivity|]. exact Hd.
    + rewrite por_err by reflexivity. erewrite por_ok; [reflexivity|]. exact Hd.
Qed.
Lemma segment_no r : nohd quotec r -> literal_segment r = PErr.
Proof.
  intros H. assert (H1 : nohd (N.eqb 34) r /\ nohd (N.eqb 39) r).
  { split; (eapply nohd_imp; [|exact H]); intros c E; apply N.eqb_eq in E; subst; reflexivity. }
  destruct H1 as [H1 H2]. unfold literal_segment, delim.
  rewrite por_err by (apply bind_err, ptag_hd; exact H1). rewrite por_err by (apply bind_err, ptag_hd; exact H2).
  rewrite por_err by (apply bind_err, ptag_hd; exact H1). apply bind_err, ptag_hd; exact H2.
Qed.
Lemma Segment_starts b s : Segment b s -> starts quotec s.
Proof. intros [q b' Hq Hb | q b' Hq Hb]; eexists q, _; (split; [reflexivity|]); unfold quotec; destruct Hq as [-> | ->]; reflexivity. Qed.
Lemma Lit_starts l s : Lit l s -> starts quotec s.
Proof. intros [b t Hs | b t g1 g2 l' t' Hs _ _ _]; [|apply starts_app]; eapply Segment_starts; exact Hs. Qed.
Lemma quotec_gapc c : quotec c = true -> gapc c = false.
Proof. unfold quotec. rewrite orb_true_iff, !N.eqb_eq. intros [-> | ->]; reflexivity. Qed.
Lemma gap_noquote g r : Gap g -> nohd quotec r -> nohd quotec (g ++ r).
Proof.
  intros Hg Hr. destruct g as [|c g]; [exact Hr|]. destruct (gap_head _ Hg ltac:(discriminate)) as (c' & g' & [= <- <-] & Hc).
  cbn. destruct (quotec c) eqn:E; [|reflexivity]. apply quotec_gapc in E. congruence.
Qed.
Definition lit_sep : parser unit := sc0 ;* ptag (lit "~") ;* sc0.
Lemma lit_sep_ok g1 g2 r : Gap g1 -> Gap g2 -> nohd gapc r -> lit_sep (g1 ++ lit "~" ++ g2 ++ r) = POk tt r.
Proof.
  intros H1 H2 Hr. unfold lit_sep. erewrite bind_ok; [|apply sc0_gap; [exact H1 | exact eq_refl]].
  erewrite bind_ok; [|apply ptag_app]. apply sc0_gap; assumption.
Qed.
Lemma lit_sep_no r : Follow (lit "~") r -> lit_sep r = PErr.
Proof.
  intros H. apply F_sc0 in H as (t & H1 & H2 & H3). unfold lit_sep. erewrite bind_ok by exact H1. apply bind_err.
  apply ptag_hd. eapply nohd_imp; [|exact H2]. intros c E. apply among_in. apply N.eqb_eq in E. subst. left; reflexivity.
Qed.
Lemma lit_tail l s : Lit l s -> forall g1 g2 n r, Gap g1 -> Gap g2 -> Follow (lit "~") r -> nohd quotec r ->
  List.length (s ++ r) < n -> sep_loop n lit_sep literal_segment (g1 ++ lit "~" ++ g2 ++ s ++ r) = POk l r.
Proof.
  intros Hl. induction Hl as [b s Hs | b s h1 h2 l t Hs G1 G2 Hl IH]; intros g1 g2 n r H1 H2 Hf Hq Hn; (destruct n as [|n]; [lia|]); cbn [sep_loop].
  - pose proof (Segment_starts _ _ Hs) as Hst. pose proof (starts_len _ _ Hst). rewrite app_length in Hn.
    rewrite lit_sep_ok; [| exact H1 | exact H2 | eapply starts_nohd; [exact Hst | apply quotec_gapc]].
    rewrite (segment_ok _ _ _ Hs Hq). destruct (Nat.eqb_spec (List.length r) (List.length (g1 ++ lit "~" ++ g2 ++ s ++ r))) as [E|_]; [rewrite !app_length in E; lia|].
    destruct n as [|n]; [lia|]. cbn [sep_loop]. rewrite lit_sep_no by exact Hf. reflexivity.
  - rewrite <- !app_assoc in *. pose proof (Segment_starts _ _ Hs) as Hst. pose proof (starts_len _ _ Hst). 
    rewrite lit_sep_ok; [| exact H1 | exact H2 | eapply starts_nohd; [exact Hst | apply quotec_gapc]].
    rewrite (segment_ok _ _ (h1 ++ lit "~" ++ h2 ++ t ++ r) Hs) by (apply gap_noquote; [exact G1 | exact eq_refl]).
    destruct (Nat.eqb_spec (List.length (h1 ++ lit "~" ++ h2 ++ t ++ r)) (List.length (g1 ++ lit "~" ++ g2 ++ s ++ h1 ++ lit "~" ++ h2 ++ t ++ r))) as [E|_]; [rewrite !app_length in E; lia|].
    rewrite IH; [reflexivity | assumption.. |]. rewrite !app_length in *. lia.
Qed.
Lemma literal_ok l s r : Lit l s -> Follow (lit "~") r -> nohd quotec r -> p_literal (s ++ r) = POk l r.
Proof.
  intros Hl Hf Hq. unfold p_literal, psep1. fold lit_sep. destruct Hl as [b s Hs | b s h1 h2 l t Hs G1 G2 Hl].
  - erewrite bind_ok by (apply segment_ok; eassumption). erewrite bind_ok; [reflexivity|]. cbn [sep_loop]. rewrite lit_sep_no by exact Hf. reflexivity.
  - rewrite <- !app_assoc. erewrite bind_ok by (apply segment_ok; [exact Hs | apply gap_noquote; [exact G1 | exact eq_refl]]).
    erewrite bind_ok; [|apply lit_tail; try eassumption; rewrite !app_length; lia]. reflexivity.
Qed.
Lemma literal_no r : nohd quotec r -> p_literal r = PErr.
Proof. intros H. unfold p_literal, psep1. apply bind_err. apply segment_no. exact H. Qed.

(** ** Names *)
Lemma cname_ok p l r : NCName p -> NCName l -> nohd nc_char r -> cname (p ++ lit ":" ++ l ++ r) = POk (p, l) r.
Proof.
  intros Hp Hl Hr. unfold cname. erewrite bind_ok; [|apply nc_name_ok; [exact Hp | exact eq_refl]].
  erewrite bind_ok; [|apply ptag_app]. erewrite bind_ok; [|apply nc_name_ok; [exact Hl | exact Hr]]. reflexivity.
Qed.
Lemma cname_no w r : NCName w -> nohd nc_char r -> nohd (N.eqb 58) r -> cname (w ++ r) = PErr.
Proof. intros Hw Hr Hc. unfold cname. erewrite bind_ok; [|apply nc_name_ok; [exact Hw | exact Hr]]. apply bind_err. apply ptag_hd. exact Hc. Qed.
Lemma cname_nohd r : nohd nc_start_char r -> cname r = PErr.
Proof. intros H. unfold cname. apply bind_err, nc_name_no, H. Qed.
Lemma cname_ident i r : Ident i -> nohd nc_char r -> nohd (N.eqb 58) r -> cname (i ++ r) = PErr.
Proof. intros [[H _] | (k & Hk & ->)] Hr Hc; [apply cname_no; assumption|]. apply cname_nohd. reflexivity. Qed.
Lemma cname_idkw i s r : IdKw i s -> nohd nc_char r -> nohd (N.eqb 58) r -> cname (s ++ r) = PErr.
Proof. intros [t Ht | t Ht] Hr Hc; [apply cname_ident; assumption|]. apply cname_no; auto using kw_word. Qed.
Lemma name_ok n s r : Name n s -> nohd nc_char r -> nohd (N.eqb 58) r -> p_name (s ++ r) = POk n r.
Proof.
  intros [i t Hi | p l Hp Hl] Hr Hc; unfold p_name.
  - rewrite por_err by (apply pmap_err; eapply cname_idkw; eassumption). apply pmap_ok. apply idkw_ok; assumption.
  - rewrite <- !app_assoc. erewrite por_ok; [reflexivity|]. erewrite pmap_ok; [|apply cname_ok; assumption]. reflexivity.
Qed.
Lemma name_no r : nohd nc_start_char r -> nohd (N.eqb 92) r -> p_name r = PErr.
Proof.
  intros H1 H2. unfold p_name. rewrite por_err by (apply pmap_err, cname_nohd; exact H1). apply pmap_err, idkw_no; assumption.
Qed.
Lemma Name_starts n s : Name n s -> starts idstart s.
Proof.
  intros [i t Hi | p l Hp Hl]; [eapply IdKw_starts; exact Hi|]. apply starts_app. eapply starts_imp; [|apply NCName_starts; exact Hp].
  intros c E. unfold idstart. rewrite E. reflexivity.
Qed.
Lemma idstart_gapc c : idstart c = true -> gapc c = false.
Proof.
  unfold idstart. rewrite orb_true_iff. intros [H | H]; [apply nc_char_gapc, start_is_char, H|]. apply N.eqb_eq in H. subst; reflexivity.
Qed.
Lemma nogap_nostart r : nohd idstart r -> nohd nc_start_char r /\ nohd (N.eqb 92) r.
Proof.
  intros H; split; (eapply nohd_imp; [|exact H]); intros c E; unfold idstart; [rewrite E; reflexivity|]. rewrite N.eqb_sym in E. rewrite E. apply orb_true_r.
Qed.
