(** * CompactSound: every text which the compact parser accepts is a (lax) text of the compact
    syntax denoting the schema it returns. *)
From Coq Require Import String.
From Verif Require Import Base Datatype Syntax CompactParse CompactText CompactTotal CompactLex CompactRead.
#[local] Existing Instance lax_mode.

(** ** Inverting the combinators *)
Lemma bind_inv {A B} (p : parser A) (f : A -> parser B) s b r : pbind p f s = POk b r -> exists a r1, p s = POk a r1 /\ f a r1 = POk b r.
Proof. unfold pbind. destruct (p s) as [a r1 | | | | |]; try discriminate. eauto. Qed.
Lemma ret_inv {A} (a b : A) s r : pret a s = POk b r -> a = b /\ s = r.
Proof. unfold pret. intros [= -> ->]. auto. Qed.
Lemma map_inv {A B} (f : A -> B) (p : parser A) s b r : pmap f p s = POk b r -> exists a, p s = POk a r /\ b = f a.
Proof. unfold pmap. intros H. apply bind_inv in H as (a & r1 & H1 & H2). apply ret_inv in H2 as [<- <-]. eauto. Qed.
Lemma or_inv {A} (p q : parser A) s a r : (p <|> q) s = POk a r -> p s = POk a r \/ (p s = PErr /\ q s = POk a r).
Proof. unfold por. destruct (p s); try discriminate; auto. Qed.
Lemma opt_inv {A} (p : parser A) s a r : popt p s = POk a r -> (exists b, a = Some b /\ p s = POk b r) \/ (a = None /\ s = r /\ p s = PErr).
Proof. unfold popt. destruct (p s); try discriminate; intros [= <- <-]; [left; eauto | right; auto]. Qed.
Lemma cut_inv {A} (p : parser A) s a r : pcut p s = POk a r -> p s = POk a r.
Proof. unfold pcut. destruct (p s); try discriminate; auto. Qed.
Lemma not_inv {A} (p : parser A) s u r : pnot p s = POk u r -> s = r /\ p s = PErr.
Proof. unfold pnot. destruct (p s); try discriminate. intros [= _ ->]. auto. Qed.
Lemma tag_inv k s u r : ptag k s = POk u r -> s = k ++ r.
Proof. destruct (ptag_cases k s) as [(r' & H & ->) | H]; rewrite H; [intros [= _ ->]; reflexivity | discriminate]. Qed.
Lemma tag_err k s t : ptag k s = PErr -> s <> k ++ t.
Proof. intros H ->. rewrite ptag_app in H. discriminate. Qed.
Lemma sat_inv f s c r : psat f s = POk c r -> s = c :: r /\ f c = true.
Proof. unfold psat. destruct s as [|d s]; [discriminate|]. destruct (f d) eqn:E; [|discriminate]. intros [= <- <-]. auto. Qed.
Lemma sat_err f s : psat f s = PErr -> nohd f s.
Proof. unfold psat. destruct s as [|d s]; [exact (fun _ => I)|]. cbn. destruct (f d); [discriminate | reflexivity]. Qed.
Lemma nohd_of (P : N -> bool) r : match r with [] => True | c :: _ => P c = false end -> nohd P r.
Proof. exact (fun H => H). Qed.

(** [p] reads texts of [X] *)
Definition Reads {A} (X : A -> str -> Prop) (p : parser A) : Prop := forall s a r, p s = POk a r -> exists t, s = t ++ r /\ X a t.

(** ** Characters, gaps *)
Lemma soc_inv s u r : space_or_comment s = POk u r ->
  (exists w, s = w ++ r /\ w <> [] /\ Forall (fun c => is_xml_ws c = true) w) \/
  (exists b, s = lit "#" ++ b ++ r /\ Forall (fun c => c <> 10 /\ c <> 13)%N b /\ exists t, r = 10%N :: t \/ r = 13%N :: 10%N :: t).
Proof.
  unfold space_or_comment. intros H. apply or_inv in H as [H | [_ H]].
  - left. apply bind_inv in H as (w & r1 & H1 & H2). apply ret_inv in H2 as [_ <-]. unfold multispace1 in H1.
    destruct (take_while is_xml_ws s) as [a b] eqn:E. pose proof (take_while_app _ _ _ _ E). pose proof (take_while_all _ _ _ _ E).
    destruct a as [|c a]; [discriminate|]. injection H1 as <- <-. exists (c :: a). split; [assumption|]. split; [discriminate | assumption].
  - right. unfold comment in H. apply bind_inv in H as (u1 & r1 & H1 & H). apply tag_inv in H1 as ->. apply bind_inv in H as (b & r2 & H1 & H2).
    apply ret_inv in H2 as [_ <-]. unfold not_line_ending in H1.
    destruct (take_while (fun c => negb ((c =? 13) || (c =? 10))%N) r1) as [a t] eqn:E. pose proof (take_while_app _ _ _ _ E) as Ha. pose proof (take_while_all _ _ _ _ E) as Hb.
    pose proof (take_while_stop _ _ _ _ E) as Hc.
    assert (Hf : Forall (fun c => c <> 10 /\ c <> 13)%N a).
    { eapply Forall_impl; [|exact Hb]. cbn. intros c Hx. apply negb_true_iff, orb_false_iff in Hx as [Hx Hy]. apply N.eqb_neq in Hx, Hy. auto. }
    destruct t as [|c t]; [discriminate|]. destruct (N.eqb_spec c 13) as [-> | Hn].
    + destruct t as [|d t]; [discriminate|]. destruct (N.eqb_spec d 10) as [-> | _]; [|discriminate]. injection H1 as <- <-.
      exists a. split; [rewrite Ha; reflexivity|]. split; [exact Hf|]. eauto.
    + injection H1 as <- <-. exists a. split; [rewrite Ha; reflexivity|]. split; [exact Hf|]. exists t. left. f_equal.
      cbn beta in Hc. apply negb_false_iff, orb_true_iff in Hc as [Hc | Hc]; [discriminate Hc | apply N.eqb_eq in Hc; exact Hc].
Qed.
Lemma soc_ws c t : is_xml_ws c = true -> space_or_comment (c :: t) <> PErr.
Proof.
  intros H. unfold space_or_comment, por, pbind, multispace1. cbn [take_while]. rewrite H. destruct (take_while is_xml_ws t). discriminate.
Qed.
Lemma ws_gap w g : Forall (fun c => is_xml_ws c = true) w -> Gap g -> Gap (w ++ g).
Proof.
  intros Hw Hg. induction Hw as [|c w Hc Hw IH]; [exact Hg|]. cbn. constructor; [|exact IH]. unfold is_xml_ws in Hc. rewrite !orb_true_iff, !N.eqb_eq in Hc.
  cbn. decompose [or] Hc; subst; auto.
Qed.
Lemma ws_gap_tail c g : is_xml_ws c = true -> Gap (c :: g) -> Gap g.
Proof. intros Hc H. inversion H as [|? ? _ Hg E | b eol g' _ _ _ E]; subst; [exact Hg|]. discriminate Hc. Qed.
Lemma soc_step s u r1 g r : space_or_comment s = POk u r1 -> r1 = g ++ r -> Gap g -> space_or_comment r = PErr -> exists h, s = h ++ r /\ Gap h /\ h <> [].
Proof.
  intros H -> Hg Hr. apply soc_inv in H as [(w & -> & Hw & Hf) | (b & -> & Hb & t & Ht)].
  - exists (w ++ g). rewrite <- app_assoc. split; [reflexivity|]. split; [apply ws_gap; assumption|]. destruct w; [congruence | discriminate].
  - assert (exists eol h, g = eol ++ h /\ (eol = [10%N] \/ eol = [13%N; 10%N]) /\ Gap h) as (eol & h & -> & He & Hh).
    { destruct g as [|c g].
      - exfalso. cbn [app] in Ht. destruct Ht as [-> | ->]; (eapply soc_ws; [|exact Hr]); reflexivity.
      - destruct Ht as [[= -> Ht] | [= -> Ht]].
        + exists [10%N], g. split; [reflexivity|]. split; [left; reflexivity|]. eapply ws_gap_tail; [|exact Hg]. reflexivity.
        + apply ws_gap_tail in Hg; [|reflexivity]. destruct g as [|c g].
          * exfalso. cbn [app] in Ht. subst r. eapply soc_ws; [|exact Hr]. reflexivity.
          * injection Ht as -> Ht. apply ws_gap_tail in Hg; [|reflexivity]. exists [13%N; 10%N], g. auto. }
    exists (lit "#" ++ b ++ eol ++ h). split; [rewrite <- !app_assoc; reflexivity|]. split; [constructor; assumption | discriminate].
Qed.
Lemma many_inv n : forall s l r, many_loop n space_or_comment s = POk l r -> exists g, s = g ++ r /\ Gap g /\ space_or_comment r = PErr.
Proof.
  induction n as [|n IH]; intros s l r H; [discriminate|]. cbn [many_loop] in H. destruct (space_or_comment s) as [u r1 | | | | |] eqn:E; try discriminate.
  - destruct (_ =? _); [discriminate|]. destruct (many_loop n space_or_comment r1) as [l' r' | | | | |] eqn:E2; try discriminate. injection H as <- <-.
    apply IH in E2 as (g & E2 & Hg & Hr). destruct (soc_step _ _ _ _ _ E E2 Hg Hr) as (h & H1 & H2 & _). eauto.
  - injection H as <- <-. exists []. repeat split; [constructor | exact E].
Qed.
Lemma sc0_inv s u r : sc0 s = POk u r -> exists g, s = g ++ r /\ Gap g.
Proof.
  unfold sc0. intros H. apply bind_inv in H as (l & r1 & H1 & H2). apply ret_inv in H2 as [_ <-]. apply many_inv in H1 as (g & H1 & H2 & _). eauto.
Qed.
Lemma sc1_inv s u r : sc1 s = POk u r -> exists g, s = g ++ r /\ Gap1 g.
Proof.
  unfold sc1, pmany1. intros H. apply bind_inv in H as (l & r1 & H & H2). apply ret_inv in H2 as [_ <-]. apply bind_inv in H as (v & r2 & H1 & H).
  apply bind_inv in H as (l' & r3 & H & H2). apply ret_inv in H2 as [_ <-]. apply many_inv in H as (g & Hg & H2 & H3).
  destruct (soc_step _ _ _ _ _ H1 Hg H2 H3) as (h & E1 & E2 & E3). exists h. split; [exact E1 | split; assumption].
Qed.

(** take a successful parse apart *)
Ltac one H :=
  lazymatch type of H with
  | pbind _ _ _ = POk _ _ => let a := fresh "a" in let r := fresh "r" in let H1 := fresh "P" in let H2 := fresh "Q" in
      apply bind_inv in H as (a & r & H1 & H2); one H1; one H2
  | pret _ _ = POk _ _ => let E := fresh "E" in apply ret_inv in H as [E H]; subst
  | ptag _ _ = POk _ _ => apply tag_inv in H; subst
  | sc0 _ = POk _ _ => let g := fresh "g" in let G := fresh "G" in apply sc0_inv in H as (g & H & G); subst
  | sc1 _ = POk _ _ => let g := fresh "g" in let G := fresh "G" in apply sc1_inv in H as (g & H & G); subst
  | pcut _ _ = POk _ _ => apply cut_inv in H; one H
  | pmap _ _ _ = POk _ _ => let a := fresh "a" in let E := fresh "E" in apply map_inv in H as (a & H & E); one H; subst
  | _ => idtac
  end.
(** read a hypothesis by a [Reads] lemma *)
Ltac ap L H := let t := fresh "t" in let T := fresh "T" in apply L in H as (t & H & T); subst.
Lemma app_step (s a b r x : str) : s = a ++ x -> x = b ++ r -> s = (a ++ b) ++ r.
Proof. intros -> ->. apply app_assoc. Qed.
Ltac txt := repeat match goal with |- _ = (_ ++ _) ++ _ => eapply app_step; [reflexivity|] end; reflexivity.
(** conclude with constructor [C] *)
Ltac by_ C := eexists; (split; [|eapply C]); [txt | try eassumption..].
Ltac flatg := rewrite <- ?app_assoc; cbn [app].
Ltac fin t := exists t; split; [rewrite <- ?app_assoc; reflexivity|].

(** ** Words *)
Lemma nc_name_inv s a r : p_nc_name s = POk a r -> s = a ++ r /\ NCName a /\ nohd nc_char r.
Proof.
  unfold p_nc_name, nc_name. destruct s as [|c s]; [discriminate|]. destruct (nc_start_char c) eqn:Ec; [|discriminate].
  destruct (take_while nc_char s) as [x y] eqn:E. intros [= <- <-]. pose proof (take_while_app _ _ _ _ E) as Ha. pose proof (take_while_all _ _ _ _ E) as Hb.
  pose proof (take_while_stop _ _ _ _ E) as Hc. split; [rewrite Ha; reflexivity|]. split; [|exact Hc].
  exists c, x. split; [reflexivity|]. split; [apply start_char, Ec|]. eapply Forall_impl; [|exact Hb]. intros d. apply name_char.
Qed.
Lemma alt_tags_inv l s k r : alt_tags l s = POk k r -> In k l /\ s = k ++ r.
Proof.
  induction l as [|t l IH]; [discriminate|]. cbn [alt_tags]. intros H. apply or_inv in H as [H | [_ H]].
  - apply bind_inv in H as (u & r1 & H1 & H). apply tag_inv in H1 as ->. apply ret_inv in H as [<- <-]. split; [left; reflexivity | reflexivity].
  - apply IH in H as [H1 H2]. split; [right; exact H1 | exact H2].
Qed.
Lemma keyword_inv s k r : keyword s = POk k r -> In k Keywords /\ s = k ++ r /\ nohd nc_char r.
Proof.
  unfold keyword. intros H. apply bind_inv in H as (k' & r1 & H1 & H). apply bind_inv in H as (u & r2 & H2 & H). apply ret_inv in H as [-> ->].
  apply not_inv in H2 as [-> H2]. apply alt_tags_inv in H1 as [H1 ->]. split; [exact H1|]. split; [reflexivity | apply sat_err, H2].
Qed.
Lemma recog_inv {A} (p : parser A) s t r : precog p s = POk t r -> exists a, p s = POk a r /\ t = firstn (List.length s - List.length r) s.
Proof. unfold precog. destruct (p s) as [a r1 | | | | |]; try discriminate. intros [= <- <-]. eauto. Qed.
Lemma firstn_pre (t r : str) : firstn (List.length (t ++ r) - List.length r) (t ++ r) = t.
Proof. rewrite app_length. replace (List.length t + List.length r - List.length r) with (List.length t) by lia. rewrite firstn_app, Nat.sub_diag, firstn_all. cbn. apply app_nil_r. Qed.
Lemma identifier_inv s i r : identifier s = POk i r -> s = i ++ r /\ Ident i.
Proof.
  unfold identifier. intros H. apply or_inv in H as [H | [_ H]]; apply recog_inv in H as (a & H & E); apply bind_inv in H as (u & r1 & H1 & H2).
  - apply tag_inv in H1 as ->. apply keyword_inv in H2 as (Hk & -> & _). change (lit "\" ++ a ++ r) with ((92%N :: a) ++ r) in E. rewrite firstn_pre in E. subst i.
    split; [reflexivity | right; eauto].
  - apply not_inv in H1 as [-> H1]. apply nc_name_inv in H2 as (-> & Hn & Hr). rewrite firstn_pre in E. subst a. split; [reflexivity|]. left. split; [exact Hn|].
    intros Hk. rewrite keyword_ok in H1 by assumption. discriminate.
Qed.
Lemma idkw_inv s i r : identifier_or_keyword s = POk i r -> exists t, s = t ++ r /\ IdKw i t.
Proof.
  unfold identifier_or_keyword. intros H. apply or_inv in H as [H | [_ H]]; apply map_inv in H as (a & H & ->).
  - apply identifier_inv in H as [-> H]. exists a. split; [reflexivity | constructor; exact H].
  - apply keyword_inv in H as (H1 & -> & _). exists a. split; [reflexivity | constructor; exact H1].
Qed.

(** ** Literals *)
Lemma B3_snoc q : forall b, (forall x y, b <> x ++ [q; q; q] ++ y) -> (forall x, b <> x ++ [q]) -> Body3 q b.
Proof.
  intros b. remember (List.length b) as m eqn:Em. revert b Em. induction m as [m IH] using lt_wf_ind. intros b -> H3 H1.
  destruct b as [|c b]; [constructor|].
  assert (Hsub : forall k d t, k <= 2 -> c :: b = repeat q k ++ d :: t -> d <> q -> Body3 q (c :: b)).
  { intros k d t Hk E Hd. rewrite E. constructor; [exact Hk | exact Hd|]. eapply IH; [|reflexivity|..].
    - rewrite E, app_length. cbn. lia.
    - intros x y Ex. apply (H3 (repeat q k ++ d :: x) y). rewrite E, Ex. rewrite <- !app_assoc. reflexivity.
    - intros x Ex. apply (H1 (repeat q k ++ d :: x)). rewrite E, Ex. rewrite <- app_assoc. reflexivity. }
  destruct (N.eq_dec c q) as [-> | Hc]; [|apply (Hsub 0 c b); [lia | reflexivity | exact Hc]].
  destruct b as [|d b]; [exfalso; apply (H1 []); reflexivity|].
  destruct (N.eq_dec d q) as [-> | Hd]; [|apply (Hsub 1 d b); [lia | reflexivity | exact Hd]].
  destruct b as [|e b]; [exfalso; apply (H1 [q]); reflexivity|].
  destruct (N.eq_dec e q) as [-> | He]; [|apply (Hsub 2 e b); [lia | reflexivity | exact He]].
  exfalso. apply (H3 [] b). reflexivity.
Qed.
Lemma take_until_inv t : forall s b r, take_until t s = POk b r -> s = b ++ r /\ (exists r', r = t ++ r') /\ (forall x y, s = x ++ t ++ y -> List.length b <= List.length x).
Proof.
  induction s as [|c s IH]; intros b r H; cbn [take_until] in H.
  - destruct (ptag t []) as [u r1 | | | | |] eqn:E; try discriminate. injection H as <- <-. split; [reflexivity|]. split; [|intros; cbn; lia].
    apply tag_inv in E. exists r1. exact E.
  - destruct (ptag_cases t (c :: s)) as [(r1 & E & Er) | E]; rewrite E in H.
    + injection H as <- <-. split; [reflexivity|]. split; [exists r1; exact Er | intros; cbn; lia].
    + destruct (take_until t s) as [b' r' | | | | |] eqn:E2; try discriminate. injection H as <- <-. destruct (IH _ _ eq_refl) as (-> & Hr & Hmin).
      split; [reflexivity|]. split; [exact Hr|]. intros x y Ex. destruct x as [|d x].
      * exfalso. cbn [app] in Ex. eapply tag_err; [exact E | exact Ex].
      * cbn. injection Ex as -> Ex. apply le_n_S. eapply Hmin. exact Ex.
Qed.
Lemma triple_inv q s b r : q = 34%N \/ q = 39%N -> delim [q; q; q] (take_until [q; q; q]) [q; q; q] s = POk b r -> exists t, s = t ++ r /\ Segment b t.
Proof.
  intros Hq H. unfold delim in H. apply bind_inv in H as (u & r1 & H1 & H). apply tag_inv in H1 as ->. apply bind_inv in H as (b' & r2 & H1 & H).
  apply bind_inv in H as (u2 & r3 & H2 & H3). apply tag_inv in H2 as ->. apply ret_inv in H3 as [-> ->].
  apply take_until_inv in H1 as (-> & _ & Hmin). exists ([q; q; q] ++ b ++ [q; q; q]). split; [rewrite <- !app_assoc; reflexivity|].
  apply Seg_triple; [exact Hq|]. apply B3_snoc.
  - intros x y ->. specialize (Hmin x (y ++ [q; q; q] ++ r)). rewrite <- !app_assoc in Hmin. specialize (Hmin eq_refl). rewrite !app_length in Hmin. cbn in Hmin. lia.
  - intros x ->. specialize (Hmin x (q :: r)). rewrite <- !app_assoc in Hmin. specialize (Hmin eq_refl). rewrite app_length in Hmin. cbn in Hmin. lia.
Qed.
Lemma single_inv q s b r : q = 34%N \/ q = 39%N -> delim [q] (run_without [q; 10%N]) [q] s = POk b r -> exists t, s = t ++ r /\ Segment b t.
Proof.
  intros Hq H. unfold delim in H. apply bind_inv in H as (u & r1 & H1 & H). apply tag_inv in H1 as ->. apply bind_inv in H as (b' & r2 & H1 & H).
  apply bind_inv in H as (u2 & r3 & H2 & H3). apply tag_inv in H2 as ->. apply ret_inv in H3 as [-> ->].
  unfold run_without in H1. destruct (take_while _ r1) as [a t] eqn:E. injection H1 as <- ->. pose proof (take_while_app _ _ _ _ E) as Ha. pose proof (take_while_all _ _ _ _ E) as Hb.
  exists (q :: a ++ [q]). split; [rewrite Ha; cbn; rewrite <- app_assoc; reflexivity|]. apply Seg_single; [exact Hq|].
  eapply Forall_impl; [|exact Hb]. cbn. intros c Hc. apply negb_true_iff, orb_false_iff in Hc as [H1 H2]. apply orb_false_iff in H2 as [H2 _].
  apply N.eqb_neq in H1, H2. auto.
Qed.
Lemma segment_inv s b r : literal_segment s = POk b r -> exists t, s = t ++ r /\ Segment b t.
Proof.
  unfold literal_segment. intros H. apply or_inv in H as [H | [_ H]]; [eapply triple_inv; [left; reflexivity | exact H]|].
  apply or_inv in H as [H | [_ H]]; [eapply triple_inv; [right; reflexivity | exact H]|].
  apply or_inv in H as [H | [_ H]]; [eapply single_inv; [left; reflexivity | exact H] | eapply single_inv; [right; reflexivity | exact H]].
Qed.
Lemma lit_loop_inv n : forall s l r, sep_loop n (sc0 ;* ptag (lit "~") ;* sc0) literal_segment s = POk l r ->
  (l = [] /\ s = r) \/ exists g1 g2 t, Gap g1 /\ Gap g2 /\ Lit l t /\ s = g1 ++ lit "~" ++ g2 ++ t ++ r.
Proof.
  induction n as [|n IH]; intros s l r H; [discriminate|]. cbn [sep_loop] in H.
  destruct ((sc0 ;* ptag (lit "~") ;* sc0) s) as [u r1 | | | | |] eqn:E; try discriminate; [|injection H as <- <-; left; auto].
  one E. destruct (literal_segment r1) as [b r2 | | | | |] eqn:E2; try discriminate; [|injection H as <- <-; left; auto].
  destruct (_ =? _); [discriminate|]. destruct (sep_loop n _ literal_segment r2) as [l' r' | | | | |] eqn:E3; try discriminate. injection H as <- <-.
  apply segment_inv in E2 as (t & -> & Ht). right. apply IH in E3 as [[-> ->] | (h1 & h2 & t' & H1 & H2 & H3 & ->)].
  - exists g, g0, t. repeat split; try assumption. constructor; exact Ht.
  - exists g, g0, (t ++ h1 ++ lit "~" ++ h2 ++ t'). repeat split; try assumption; [constructor; assumption|]. rewrite <- !app_assoc. reflexivity.
Qed.
Lemma literal_inv : Reads Lit p_literal.
Proof.
  intros s l r H. unfold p_literal, psep1 in H. apply bind_inv in H as (b & r1 & H1 & H). apply bind_inv in H as (l' & r2 & H2 & H). apply ret_inv in H as [<- ->].
  apply segment_inv in H1 as (t & -> & Ht). apply lit_loop_inv in H2 as [[-> ->] | (g1 & g2 & t' & G1 & G2 & Hl & ->)].
  - exists t. split; [reflexivity | constructor; exact Ht].
  - exists (t ++ g1 ++ lit "~" ++ g2 ++ t'). split; [rewrite <- !app_assoc; reflexivity | constructor; assumption].
Qed.

(** ** Sequences *)
Lemma sep_loop_inv {A} (X : A -> str -> Prop) p : Reads X p -> forall n s l r, sep_loop n sc1 p s = POk l r ->
  (l = [] /\ s = r) \/ exists g t, Gap1 g /\ l <> [] /\ Seq X l t /\ s = g ++ t ++ r.
Proof.
  intros Hp. induction n as [|n IH]; intros s l r H; [discriminate|]. cbn [sep_loop] in H.
  destruct (sc1 s) as [u r1 | | | | |] eqn:E; try discriminate; [|injection H as <- <-; left; auto].
  apply sc1_inv in E as (g & -> & Hg). destruct (p r1) as [a r2 | | | | |] eqn:E2; try discriminate; [|injection H as <- <-; left; auto].
  destruct (_ =? _); [discriminate|]. destruct (sep_loop n sc1 p r2) as [l' r' | | | | |] eqn:E3; try discriminate. injection H as <- <-.
  apply Hp in E2 as (t & -> & Ht). right. apply IH in E3 as [[-> ->] | (h & t' & H1 & H2 & H3 & ->)].
  - exists g, t. repeat split; try apply Hg; [discriminate | constructor; exact Ht].
  - exists g, (t ++ h ++ t'). repeat split; try apply Hg; [discriminate | constructor; assumption | rewrite <- !app_assoc; reflexivity].
Qed.
Lemma sep0_inv {A} (X : A -> str -> Prop) p : Reads X p -> Reads (Seq X) (psep0 sc1 p).
Proof.
  intros Hp s l r H. unfold psep0 in H. destruct (p s) as [a r1 | | | | |] eqn:E; try discriminate; [|injection H as <- <-; exists []; split; [reflexivity | constructor]].
  destruct (sep_loop _ sc1 p r1) as [l' r' | | | | |] eqn:E3; try discriminate. injection H as <- <-. apply Hp in E as (t & -> & Ht).
  apply (sep_loop_inv X p Hp) in E3 as [[-> ->] | (h & t' & H1 & H2 & H3 & ->)].
  - exists t. split; [reflexivity | constructor; exact Ht].
  - exists (t ++ h ++ t'). split; [rewrite <- !app_assoc; reflexivity | constructor; assumption].
Qed.
Lemma sep1_inv {A} (X : A -> str -> Prop) p : Reads X p -> forall s l r, psep1 sc1 p s = POk l r -> l <> [] /\ exists t, s = t ++ r /\ Seq X l t.
Proof.
  intros Hp s l r H. unfold psep1 in H. apply bind_inv in H as (a & r1 & H1 & H). apply bind_inv in H as (l' & r2 & H2 & H). apply ret_inv in H as [<- ->].
  split; [discriminate|]. apply Hp in H1 as (t & -> & Ht). apply (sep_loop_inv X p Hp) in H2 as [[-> ->] | (h & t' & G1 & G2 & G3 & ->)].
  - exists t. split; [reflexivity | constructor; exact Ht].
  - exists (t ++ h ++ t'). split; [rewrite <- !app_assoc; reflexivity | constructor; assumption].
Qed.

(** ** Names and annotations *)
Lemma cname_inv s p l r : cname s = POk (p, l) r -> s = p ++ lit ":" ++ l ++ r /\ NCName p /\ NCName l.
Proof.
  unfold cname. intros H. apply bind_inv in H as (a & r1 & H1 & H). apply bind_inv in H as (u & r2 & H2 & H). apply bind_inv in H as (b & r3 & H3 & H).
  apply ret_inv in H as [[= -> ->] ->]. apply tag_inv in H2 as ->. apply nc_name_inv in H1 as (-> & Hp & _). apply nc_name_inv in H3 as (-> & Hl & _). auto.
Qed.
Lemma name_inv : Reads Name p_name.
Proof.
  intros s a r H. unfold p_name in H. apply or_inv in H as [H | [_ H]]; apply map_inv in H as (x & H & ->).
  - destruct x as [p l]. apply cname_inv in H as (-> & Hp & Hl). exists (p ++ lit ":" ++ l). split; [rewrite <- !app_assoc; reflexivity | constructor; assumption].
  - apply idkw_inv in H as (t & -> & Ht). exists t. split; [reflexivity | constructor; exact Ht].
Qed.
Ltac rd := repeat match goal with
  | H : p_literal _ = POk _ _ |- _ => ap literal_inv H
  | H : p_name _ = POk _ _ |- _ => ap name_inv H
  | H : identifier_or_keyword _ = POk _ _ |- _ => ap idkw_inv H
  end.
Lemma attr_inv : Reads AnnAttr annotation_attribute.
Proof.
  intros s a r H. unfold annotation_attribute in H. one H. rd.
  by_ AA.
Qed.
Lemma elem_inv n : Reads AnnElem (annotation_element n).
Proof.
  induction n as [|n IH]; intros s a r H; [discriminate|]. cbn [annotation_element] in H.
  assert (Hk : Reads AnnKid (pmap inl (annotation_element n) <|> pmap inr p_literal)).
  { intros s' a' r' H'. apply or_inv in H' as [H' | [_ H']]; apply map_inv in H' as (x & H' & ->).
    - apply IH in H' as (t & -> & Ht). exists t. split; [reflexivity | constructor; exact Ht].
    - apply literal_inv in H' as (t & -> & Ht). exists t. split; [reflexivity | constructor; exact Ht]. }
  one H. rd. repeat match goal with
  | H : psep0 sc1 annotation_attribute _ = _ |- _ => ap (sep0_inv _ _ attr_inv) H
  | H : psep0 sc1 _ _ = _ |- _ => ap (sep0_inv _ _ Hk) H
  end.
  by_ AE. intros _ _; left; exact I.
Qed.
Lemma initial_inv n : Reads Initial_ (initial_annotation n).
Proof.
  intros s a r H. unfold initial_annotation in H. one H. repeat match goal with
  | H : psep0 sc1 annotation_attribute _ = _ |- _ => ap (sep0_inv _ _ attr_inv) H
  | H : psep0 sc1 _ _ = _ |- _ => ap (sep0_inv _ _ (elem_inv n)) H
  end.
  by_ In_ann. intros _ _; left; exact I.
Qed.
Lemma maybe_inv n : Reads Ann (maybe_initial_annotation n).
Proof.
  intros s a r H. unfold maybe_initial_annotation in H. apply opt_inv in H as [(b & -> & H) | (-> & -> & _)].
  - one H. match goal with H : initial_annotation _ _ = _ |- _ => ap initial_inv H end. eexists. split; [|econstructor; eassumption]. rewrite <- !app_assoc. reflexivity.
  - exists []. split; [reflexivity | constructor].
Qed.
Lemma follow1_inv n s a r : follow_annotation n s = POk a r -> exists g1 g2 t, s = g1 ++ lit ">>" ++ g2 ++ t ++ r /\ Gap g1 /\ Gap g2 /\ AnnElem a t.
Proof.
  unfold follow_annotation. intros H. apply bind_inv in H as (u & r1 & H1 & H2). one H1. apply elem_inv in H2 as (t & -> & Ht). eauto 10.
Qed.
Lemma follows_loop_inv n m : forall s l r, sep_loop m sc0 (follow_annotation n) s = POk l r -> exists f, s = f ++ r /\ Follows f.
Proof.
  induction m as [|m IH]; intros s l r H; [discriminate|]. cbn [sep_loop] in H.
  destruct (sc0 s) as [u r1 | | | | |] eqn:E; try discriminate; [|injection H as <- <-; exists []; split; [reflexivity | constructor]].
  apply sc0_inv in E as (g & -> & Hg). destruct (follow_annotation n r1) as [a r2 | | | | |] eqn:E2; try discriminate; [|injection H as <- <-; exists []; split; [reflexivity | constructor]].
  destruct (_ =? _); [discriminate|]. destruct (sep_loop m sc0 _ r2) as [l' r' | | | | |] eqn:E3; try discriminate. injection H as <- <-.
  apply follow1_inv in E2 as (g1 & g2 & t & -> & G1 & G2 & Ht). apply IH in E3 as (f & -> & Hf).
  exists ((g ++ g1) ++ lit ">>" ++ g2 ++ t ++ f). split; [rewrite <- !app_assoc; reflexivity|]. econstructor; [apply gap_app; assumption | eassumption..].
Qed.
Lemma follows_inv n s l r : follow_annotation_list n s = POk l r -> exists f, s = f ++ r /\ Follows f /\ (l = [] -> f = []).
Proof.
  unfold follow_annotation_list, psep0. destruct (follow_annotation n s) as [a r1 | | | | |] eqn:E; try discriminate.
  - destruct (sep_loop _ sc0 _ r1) as [l' r' | | | | |] eqn:E3; try discriminate. intros [= <- <-]. apply follow1_inv in E as (g1 & g2 & t & -> & G1 & G2 & Ht).
    apply follows_loop_inv in E3 as (f & -> & Hf). exists (g1 ++ lit ">>" ++ g2 ++ t ++ f). split; [rewrite <- !app_assoc; reflexivity|]. split; [econstructor; eassumption | discriminate].
  - intros [= <- <-]. exists []. split; [reflexivity|]. split; [constructor | reflexivity].
Qed.

(** ** Name classes *)
Lemma except_inv nc s e r : Reads Nc nc -> except_nc nc s = POk e r ->
  (e = None /\ s = r) \/ exists b g1 g2 t, e = Some b /\ Gap g1 /\ Gap g2 /\ Nc b t /\ s = g1 ++ lit "-" ++ g2 ++ t ++ r.
Proof.
  intros Hn H. unfold except_nc in H. apply opt_inv in H as [(b & -> & H) | (-> & -> & _)]; [|left; auto]. right. one H.
  match goal with H : nc _ = _ |- _ => ap Hn H end. eauto 12.
Qed.
Lemma prim_nc_inv nc : Reads Nc nc -> Reads NcPrim (prim_nc nc).
Proof.
  intros Hn s a r H. unfold prim_nc in H. apply or_inv in H as [H | [_ H]]; [|apply or_inv in H as [H | [_ H]]; [|apply or_inv in H as [H | [_ H]]]].
  - unfold ns_name_nc in H. one H. match goal with H : p_nc_name _ = _ |- _ => apply nc_name_inv in H as (-> & Hp & _) end. match goal with H : except_nc _ _ = _ |- _ => rename H into P9 end. apply (except_inv _ _ _ _ Hn) in P9 as [[-> ->] | (b & g1 & g2 & t & -> & G1 & G2 & Ht & ->)].
    + by_ Np_ns.
    + by_ Np_ns_except; exact I.
  - apply map_inv in H as (x & H & ->). apply name_inv in H as (t & -> & Ht). exists t. split; [reflexivity | constructor; exact Ht].
  - unfold any_name_nc in H. one H. match goal with H : except_nc _ _ = _ |- _ => rename H into P9 end. apply (except_inv _ _ _ _ Hn) in P9 as [[-> ->] | (b & g1 & g2 & t & -> & G1 & G2 & Ht & ->)].
    + eexists. split; [|apply Np_any]. reflexivity.
    + by_ Np_any_except; exact I.
  - unfold paren_nc in H. one H. match goal with H : nc _ = _ |- _ => ap Hn H end. by_ Np_paren.
Qed.
Lemma alt_step_inv nc a s b r : Reads Nc nc -> alt_step nc a s = POk b r ->
  (b = a /\ s = r) \/ exists c g1 g2 t, b = CAlt a c /\ Gap g1 /\ Gap g2 /\ Nc c t /\ s = g1 ++ lit "|" ++ g2 ++ t ++ r.
Proof.
  intros Hn H. unfold alt_step in H. destruct (alt_nc nc s) as [c r1 | | | | |] eqn:E; try discriminate; try (injection H as <- <-; left; auto; fail).
  injection H as <- <-. right. unfold alt_nc in E. one E. match goal with H : nc _ = _ |- _ => ap Hn H end. eauto 12.
Qed.
Lemma name_class_inv n : Reads Nc (name_class n).
Proof.
  induction n as [|n IH]; intros s a r H; [discriminate|]. cbn [name_class] in H.
  apply bind_inv in H as (i & r1 & H1 & H). apply bind_inv in H as (b & r2 & H2 & H). apply bind_inv in H as (fl & r3 & H3 & H).
  apply maybe_inv in H1 as (an & -> & Ha). apply (prim_nc_inv _ IH) in H2 as (t & -> & Ht). apply follows_inv in H3 as (f & -> & Hf & Hfl).
  assert (Hs : alt_step (name_class n) b r3 = POk a r /\ (i = None -> f = [])).
  { destruct fl as [|x fl]; [split; [destruct i; exact H | intros _; apply Hfl; reflexivity]|]. destruct i; [split; [exact H | discriminate] | discriminate]. }
  destruct Hs as [Hs Hi]. apply (alt_step_inv _ _ _ _ _ IH) in Hs as [[-> ->] | (c & g1 & g2 & u & -> & G1 & G2 & Hu & ->)].
  - by_ Nc_prim.
  - by_ Nc_alt.
Qed.

(** ** Datatypes *)
Lemma tag_map_err {A} k (a : A) s : pmap (fun _ => a) (ptag k) s = PErr -> ptag k s = PErr.
Proof. unfold pmap, pbind. destruct (ptag k s); try discriminate; auto. Qed.
Lemma no_begin k p t s : ptag k s = PErr -> s = p ++ t -> ~ begins k p.
Proof. intros H -> (x & ->). rewrite <- app_assoc in H. exact (tag_err _ _ _ H eq_refl). Qed.
Lemma dtname_inv : Reads DtName p_datatype_name.
Proof.
  intros s a r H. unfold p_datatype_name in H. apply or_inv in H as [H | [E1 H]]; [one H; by_ Dn_string|]. apply tag_map_err in E1.
  apply or_inv in H as [H | [E2 H]]; [one H; by_ Dn_token|]. apply tag_map_err in E2.
  apply map_inv in H as ([p l] & H & ->). apply cname_inv in H as (-> & Hp & Hl). by_ Dn_c. split; eapply no_begin; try eassumption; reflexivity.
Qed.
Lemma dtname_err s : p_datatype_name s = PErr -> ptag (lit "string") s = PErr /\ ptag (lit "token") s = PErr.
Proof.
  unfold p_datatype_name. intros H. unfold por at 1 in H. destruct (pmap _ (ptag (lit "string")) s) eqn:E1; try discriminate. apply tag_map_err in E1.
  unfold por at 1 in H. destruct (pmap _ (ptag (lit "token")) s) eqn:E2; try discriminate. apply tag_map_err in E2. auto.
Qed.
Lemma param_inv n : Reads Param (p_param n).
Proof.
  intros s a r H. unfold p_param in H. one H. rd. match goal with H : maybe_initial_annotation _ _ = _ |- _ => ap maybe_inv H end.
  by_ Pm. left; exact I.
Qed.
Lemma params_inv n s ps r : popt (params n) s = POk ps r -> exists t, s = t ++ r /\ Params ps t.
Proof.
  intros H. apply opt_inv in H as [(b & -> & H) | (-> & -> & _)]; [|by_ Ps_none]. unfold params in H. one H.
  match goal with H : psep0 sc1 _ _ = _ |- _ => ap (sep0_inv _ _ (param_inv n)) H end. by_ Ps_some.
Qed.
Lemma inherit_inv : Reads Inherit opt_inherit.
Proof.
  intros s a r H. unfold opt_inherit in H. apply opt_inv in H as [(b & -> & H) | (-> & -> & _)]; [|by_ Ih_none]. unfold inherit in H. one H. rd. by_ Ih_some.
Qed.
Lemma method_inv : Reads Method assign_method.
Proof.
  intros s a r H. unfold assign_method in H. apply or_inv in H as [H | [_ H]]; [|apply or_inv in H as [H | [_ H]]]; one H; [by_ Me_assign | by_ Me_choice | by_ Me_interleave].
Qed.

(** ** Patterns *)
(** where a pattern stops there is no operator *)
Definition Stop (s : str) : Prop := exists i, sc0 s = POk tt i /\
  looks_at (lit ",") i = false /\ looks_at (lit "&") i = false /\ looks_at (lit "|") i = false /\
  looks_at (lit "?") i = false /\ looks_at (lit "*") i = false /\ looks_at (lit "+") i = false.
Definition ReadsPat (p : parser spat) : Prop := forall s a r, p s = POk a r -> Stop r /\ exists t, s = t ++ r /\ Pat a t.
Lemma op_stop R m a s b r : Stop s -> op_loop R m a s = POk b r -> b = a /\ r = s.
Proof.
  intros (i & E & H1 & H2 & H3 & H4 & H5 & H6) H. destruct m as [|m]; [discriminate|]. cbn [op_loop] in H. rewrite E, H1, H2, H3, H4, H5, H6 in H.
  injection H as <- <-. auto.
Qed.
Lemma looks_inv k i : looks_at k i = true -> exists j, i = k ++ j.
Proof. unfold looks_at. destruct (ptag k i) eqn:E; try discriminate. intros _. apply tag_inv in E. eauto. Qed.
Definition Ops (a b : spat) (s r : str) : Prop :=
  exists q o, Postfixes a q o /\
    ((b = q /\ s = o ++ r) \/
     exists c op g1 g2 e t, InfixOp c op /\ Gap g1 /\ Gap g2 /\ Pat e t /\ b = c q e /\ s = o ++ g1 ++ op ++ g2 ++ t ++ r).
Lemma op_inv R : ReadsPat (r_pattern R) -> forall m a s b r, op_loop R m a s = POk b r -> Stop r /\ Ops a b s r.
Proof.
  intros HR. induction m as [|m IH]; intros a s b r H; [discriminate|]. cbn [op_loop] in H.
  destruct (sc0 s) as [u i | | | | |] eqn:E; try discriminate.
  assert (Hin : forall c op, InfixOp c op -> (let* p := infix R op c a in op_loop R m p) i = POk b r -> Stop r /\ Ops a b s r).
  { intros c op Hop H'. unfold infix in H'. apply bind_inv in H' as (p & r1 & H1 & H2). one H1.
    match goal with X : r_pattern R _ = POk _ _ |- _ => apply HR in X as (Hst & t & -> & Ht) end.
    destruct (op_stop _ _ _ _ _ _ Hst H2) as [-> ->]. split; [exact Hst|]. apply sc0_inv in E as (g' & -> & Hg'). exists a, []. split; [constructor|]. right.
    do 6 eexists. split; [exact Hop|]. split; [exact Hg'|]. split; [exact G|]. split; [exact Ht|]. split; [reflexivity|]. reflexivity. }
  assert (Hpo : forall c op, PostfixOp c op -> (let* p := postfix op c a in op_loop R m p) i = POk b r -> Stop r /\ Ops a b s r).
  { intros c op Hop H'. unfold postfix in H'. apply bind_inv in H' as (p & r1 & H1 & H2). one H1. apply IH in H2 as (Hst & q & o & Hq & Ho). split; [exact Hst|].
    apply sc0_inv in E as (g & -> & Hg). exists q, (g ++ op ++ o). split; [econstructor; eassumption|].
    destruct Ho as [[-> ->] | (c' & op' & g1 & g2 & e & t & H1 & H3 & H4 & H5 & -> & ->)].
    - left. split; [reflexivity|]. rewrite <- !app_assoc. reflexivity.
    - right. exists c', op', g1, g2, e, t. rewrite <- !app_assoc. auto 10. }
  destruct (looks_at (lit ",") i) eqn:E1; [exact (Hin _ _ Io_group H)|].
  destruct (looks_at (lit "&") i) eqn:E2; [exact (Hin _ _ Io_interleave H)|].
  destruct (looks_at (lit "|") i) eqn:E3; [exact (Hin _ _ Io_choice H)|].
  destruct (looks_at (lit "?") i) eqn:E4; [exact (Hpo _ _ Po_opt H)|].
  destruct (looks_at (lit "*") i) eqn:E5; [exact (Hpo _ _ Po_zero H)|].
  destruct (looks_at (lit "+") i) eqn:E6; [exact (Hpo _ _ Po_one H)|].
  injection H as <- <-. split.
  - exists i. destruct u. auto 10.
  - exists a, []. split; [constructor|]. left. auto.
Qed.

Section Bodies_.
Variables (n : nat) (R : rules).
Hypothesis HP : ReadsPat (r_pattern R).
Hypothesis HG : Reads GItem (r_grammar R).
Hypothesis HI : Reads IItem (r_include R).

Lemma HPt : Reads Pat (r_pattern R).
Proof. intros s a r H. apply HP in H as [_ H]. exact H. Qed.
Ltac rp := repeat match goal with
  | H : r_pattern R _ = _ |- _ => ap HPt H
  | H : name_class _ _ = _ |- _ => ap name_class_inv H
  | H : p_datatype_name _ = _ |- _ => ap dtname_inv H
  | H : opt_inherit _ = _ |- _ => ap inherit_inv H
  | H : popt (params _) _ = _ |- _ => ap params_inv H
  | H : assign_method _ = _ |- _ => ap method_inv H
  | H : psep0 sc1 (r_grammar R) _ = _ |- _ => ap (sep0_inv _ _ HG) H
  | H : psep0 sc1 (r_include R) _ = _ |- _ => ap (sep0_inv _ _ HI) H
  | H : maybe_initial_annotation _ _ = _ |- _ => ap maybe_inv H
  | H : annotation_element _ _ = _ |- _ => ap elem_inv H
  | H : identifier _ = POk _ _ |- _ => let I := fresh "I" in apply identifier_inv in H as [H I]; subst
  end.
Lemma named_inv c k : NamedKw c k -> Reads Prim (named_pattern n R k c).
Proof. intros Hk s a r H. unfold named_pattern in H. one H. rp. by_ Pr_named. Qed.
Lemma braced_inv c k : BracedKw c k -> Reads Prim (braced_pattern R k c).
Proof. intros Hk s a r H. unfold braced_pattern in H. one H. rp. by_ Pr_braced. Qed.
Lemma bind_err {A B} (p : parser A) (f : A -> parser B) x : pbind p f x = PErr -> p x = PErr \/ exists a r, p x = POk a r /\ f a r = PErr.
Proof. unfold pbind. destruct (p x); try discriminate; eauto. Qed.
Lemma opt_err {A} (p : parser A) x : popt p x <> PErr.
Proof. unfold popt. destruct (p x); discriminate. Qed.
Lemma param_pat_err s : datatype_param_pattern n R s = PErr -> p_datatype_name s = PErr.
Proof.
  unfold datatype_param_pattern. intros H. apply bind_err in H as [H | (a & r & _ & H)]; [exact H|].
  apply bind_err in H as [H | (b & r1 & _ & H)]; [destruct (opt_err _ _ H)|]. apply bind_err in H as [H | (c & r2 & _ & H)]; [destruct (opt_err _ _ H) | discriminate].
Qed.
Lemma value_inv : Reads Prim datatype_value_pattern.
Proof.
  intros s a r H. unfold datatype_value_pattern in H. one H. rd. match goal with H : popt _ _ = _ |- _ => apply opt_inv in H as [(b & -> & P9) | (-> & -> & _)] end.
  - rp. by_ Pr_value.
  - by_ Pr_value_plain. left; exact I.
Qed.
Lemma data_inv : Reads Prim (datatype_param_pattern n R).
Proof.
  intros s a r H. unfold datatype_param_pattern in H. one H. rp.
  match goal with H : popt _ _ = _ |- _ => apply opt_inv in H as [(b & -> & P9) | (-> & -> & _)] end.
  - unfold except_pattern in P9. one P9. rp. by_ Pr_except. exact I.
  - by_ Pr_data.
Qed.
Lemma prim_inv : Reads Prim (prim n R).
Proof.
  intros s a r H. unfold prim in H.
  apply or_inv in H as [H | [_ H]]; [eapply named_inv; [constructor | exact H]|].
  apply or_inv in H as [H | [_ H]]; [eapply named_inv; [constructor | exact H]|].
  apply or_inv in H as [H | [_ H]]; [eapply braced_inv; [constructor | exact H]|].
  apply or_inv in H as [H | [_ H]]; [eapply braced_inv; [constructor | exact H]|].
  apply or_inv in H as [H | [_ H]]; [eapply value_inv; exact H|].
  apply or_inv in H as [H | [Hd H]]; [eapply data_inv; exact H|].
  apply or_inv in H as [H | [_ H]].
  { apply param_pat_err, dtname_err in Hd as [E1 E2]. apply map_inv in H as (i & H & ->). apply identifier_inv in H as [-> Hi].
    by_ Pr_ident. split; eapply no_begin; try eassumption; reflexivity. }
  apply or_inv in H as [H | [_ H]]; [one H; rp; by_ Pr_parent|].
  apply or_inv in H as [H | [_ H]]; [one H; by_ Pr_plain; constructor|].
  apply or_inv in H as [H | [_ H]]; [one H; by_ Pr_plain; constructor|].
  apply or_inv in H as [H | [_ H]]; [one H; by_ Pr_plain; constructor|].
  apply or_inv in H as [H | [_ H]]; [unfold external_pattern in H; one H; rd; rp; by_ Pr_external|].
  apply or_inv in H as [H | [_ H]]; [unfold grammar_pattern in H; one H; rp; by_ Pr_grammar|].
  unfold group_pattern in H. one H. rp. by_ Pr_group.
Qed.
Lemma pattern_inv : ReadsPat (pattern_body n R).
Proof.
  intros s b r H. unfold pattern_body in H. apply bind_inv in H as (i & r1 & H1 & H). apply bind_inv in H as (p & r2 & H2 & H).
  apply bind_inv in H as (fl & r3 & H3 & H). apply maybe_inv in H1 as (an & -> & Ha). apply prim_inv in H2 as (t & -> & Ht). apply follows_inv in H3 as (f & -> & Hf & _).
  apply (op_inv R HP) in H as (Hst & q & o & Hq & [[-> ->] | (c & op & g1 & g2 & e & u & Hop & G1 & G2 & He & -> & ->)]); (split; [exact Hst|]).
  - by_ Pt_postfix.
  - by_ Pt_infix.
Qed.
Lemma grammar_inv : Reads GItem (grammar_body n R).
Proof.
  intros s a r H. unfold grammar_body in H.
  apply or_inv in H as [H | [_ H]]; [unfold assignment, start_name in H; one H; rp; by_ Gi_start|].
  apply or_inv in H as [H | [_ H]]; [unfold assignment in H; one H; rp; by_ Gi_define|].
  apply or_inv in H as [H | [_ H]]; [unfold div_content in H; one H; rp; by_ Gi_div|].
  apply or_inv in H as [H | [_ H]]; [|one H; rp; by_ Gi_annotation].
  unfold include_ in H. one H. rd. rp. match goal with H : popt _ _ = _ |- _ => apply opt_inv in H as [(b & -> & P9) | (-> & -> & _)] end.
  - unfold overrides in P9. one P9. rp. by_ Gi_include_over.
  - by_ Gi_include.
Qed.
Lemma include_inv : Reads IItem (include_body n R).
Proof.
  intros s a r H. unfold include_body in H. apply bind_inv in H as (i & r1 & H1 & H). apply maybe_inv in H1 as (an & -> & Ha).
  apply or_inv in H as [H | [_ H]]; [one H; rp; by_ Ii_annotation|].
  apply or_inv in H as [H | [_ H]]; [unfold assignment in H; one H; rp; by_ Ii_define|].
  apply or_inv in H as [H | [_ H]]; [unfold assignment, start_name in H; one H; rp; by_ Ii_start|].
  unfold div_content in H; one H; rp; by_ Ii_div.
Qed.
End Bodies_.
Lemma parsers_inv n : ReadsPat (r_pattern (parsers n)) /\ Reads GItem (r_grammar (parsers n)) /\ Reads IItem (r_include (parsers n)).
Proof.
  induction n as [|n (H1 & H2 & H3)]; [split; [|split]; intros s a r H; discriminate|].
  cbn [parsers]. cbn zeta. cbn [r_pattern r_grammar r_include]. split; [|split].
  - apply pattern_inv; assumption.
  - apply grammar_inv; assumption.
  - apply include_inv; assumption.
Qed.

(** ** Schemas *)
Lemma uri_inv : Reads UriLit namespace_uri_literal.
Proof. intros s a r H. unfold namespace_uri_literal in H. apply or_inv in H as [H | [_ H]]; one H; rd; [by_ Ul_inherit | by_ Ul_uri]. Qed.
Ltac ru := repeat match goal with H : namespace_uri_literal _ = _ |- _ => ap uri_inv H end.
Lemma decl_inv : Reads Decl p_decl.
Proof.
  intros s a r H. unfold p_decl in H. apply or_inv in H as [H | [_ H]]; [|apply or_inv in H as [H | [_ H]]].
  - unfold decl_namespace in H. one H. rd. ru. by_ De_namespace.
  - unfold decl_default_namespace in H. one H. ru. match goal with H : popt _ _ = _ |- _ => apply opt_inv in H as [(b & -> & P9) | (-> & -> & _)] end.
    + rd. by_ De_default_prefix.
    + match goal with |- context [lit "namespace" ++ ?g1 ++ ?g2 ++ lit "=" ++ _] => rewrite (app_assoc g1 g2) end.
      by_ De_default. match goal with H : Gap1 ?g1 |- Gap1 (?g1 ++ _) => destruct H as [Hx Hy] end. split; [apply gap_app; assumption|].
      intros [E _]%app_eq_nil. contradiction.
  - unfold decl_datatypes in H. one H. rd. by_ De_datatypes.
Qed.
Lemma top_inv n s x r : top_level n s = POk x r -> exists ds t s1 g u, x = Schema ds t /\ Seq Decl ds s1 /\ Gap g /\ Top t u /\ s = s1 ++ g ++ u ++ r.
Proof.
  intros H. unfold top_level in H. one H. match goal with H : psep0 sc1 _ _ = _ |- _ => ap (sep0_inv _ _ decl_inv) H end.
  destruct (parsers_inv n) as (H1 & H2 & _).
  match goal with H : (_ <|> _) _ = _ |- _ => apply or_inv in H as [P9 | [_ P9]]; apply map_inv in P9 as (y & P9 & ->) end.
  - apply (sep1_inv _ _ H2) in P9 as (Hn & v & -> & Hv). do 5 eexists. split; [reflexivity|]. split; [eassumption|]. split; [eassumption|]. split; [apply To_grammar; eassumption | reflexivity].
  - apply H1 in P9 as (_ & v & -> & Hv). do 5 eexists. split; [reflexivity|]. split; [eassumption|]. split; [eassumption|]. split; [apply To_pattern; [eassumption | left; exact I] | reflexivity].
Qed.
(** every accepted text is a text of the compact syntax *)
Theorem schema_sound x s : parse_compact s = Parsed x -> SchemaText x s.
Proof.
  unfold parse_compact. destruct (p_schema _ s) as [y r | | | | |] eqn:E; try discriminate. intros [= ->]. unfold p_schema, all_consuming in E.
  match type of E with match ?q with _ => _ end = _ => destruct q as [y r' | | | | |] eqn:E2; try discriminate end.
  destruct r' as [|? ?]; [|discriminate]. injection E as -> <-. apply bind_inv in E2 as (u & r1 & H1 & H). apply bind_inv in H as (y & r2 & H2 & H).
  apply bind_inv in H as (u2 & r3 & H3 & H). apply ret_inv in H as [-> ->]. apply sc0_inv in H1 as (g0 & -> & G0). apply top_inv in H2 as (ds & t & s1 & g & v & -> & Hd & Hg & Ht & ->).
  apply sc0_inv in H3 as (g2 & -> & G2). rewrite app_nil_r. econstructor; try eassumption. intros _. left. exact I.
Qed.
