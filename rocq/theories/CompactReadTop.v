(** * CompactReadTop: declarations, the top level, and the whole text. *)
From Coq Require Import String.
From Verif Require Import Base Datatype Syntax CompactParse CompactText CompactTotal CompactLex CompactRead CompactReadPat CompactReadMain.
#[local] Existing Instance strict_mode.

(** ** Declarations *)
Lemma uri_ok u t r : UriLit u t -> LitF r -> namespace_uri_literal (t ++ r) = POk u r.
Proof.
  intros [|l s Hs] Hr; unfold namespace_uri_literal; [reflexivity|]. rewrite por_err.
  - apply pmap_ok, lit_ok; assumption.
  - apply pmap_err, ptag_hd. eapply nohd_imp; [|eapply Lit_nonid; exact Hs]. intros c E. apply N.eqb_eq in E. subst; reflexivity.
Qed.
Lemma uri_nogap u t r : UriLit u t -> nohd gapc (t ++ r).
Proof. intros [|l s Hs]; [exact eq_refl | eapply Lit_nogap; exact Hs]. Qed.
Lemma idkw_nogap i s r : IdKw i s -> nohd gapc (s ++ r).
Proof. intros H. eapply starts_nohd; [eapply IdKw_starts; exact H | apply idstart_gapc]. Qed.
Lemma Decl_starts d s : Decl d s -> starts (among (lit "nd")) s.
Proof. intros []; eexists _, _; split; reflexivity. Qed.
Lemma eq_follow g t : Gap g -> nohd nc_char (g ++ lit "=" ++ t).
Proof. intros Hg. eapply F_nc. apply (F_str []); [exact Hg | reflexivity]. Qed.
Lemma decl_ok d s r : Decl d s -> LitF r -> p_decl (s ++ r) = POk d r.
Proof.
  intros [g1 p t g2 g3 u v G1 Hp G2 G3 Hu | g1 g2 g3 u v G1 G2 G3 Hu | g1 g2 p t g3 g4 u v G1 G2 Hp G3 G4 Hu | g1 p t g2 g3 l v G1 Hp G2 G3 Hu] Hr; flat; unfold p_decl.
  - apply por_ok. unfold decl_namespace. ok ltac:(apply ptag_app). ok ltac:(apply sc1_gap; [exact G1 | eapply idkw_nogap; exact Hp]).
    ok ltac:(apply idkw_ok; [exact Hp | apply eq_follow; exact G2]). ok ltac:(apply sc0_gap; [exact G2 | exact eq_refl]). ok ltac:(apply ptag_app).
    ok ltac:(apply sc0_gap; [exact G3 | eapply uri_nogap; exact Hu]). ok ltac:(apply uri_ok; eassumption). reflexivity.
  - rewrite por_err by (apply bind_err; exact eq_refl). apply por_ok. unfold decl_default_namespace. ok ltac:(apply ptag_app). ok ltac:(apply sc1_gap; [exact G1 | exact eq_refl]).
    ok ltac:(apply ptag_app). ok ltac:(apply sc1_gap; [exact G2 | exact eq_refl]). ok ltac:(apply opt_err, idkw_no; exact eq_refl).
    ok ltac:(apply sc0_nil; exact eq_refl). ok ltac:(apply ptag_app).
    ok ltac:(apply sc0_gap; [exact G3 | eapply uri_nogap; exact Hu]). ok ltac:(apply uri_ok; eassumption). reflexivity.
  - rewrite por_err by (apply bind_err; exact eq_refl). apply por_ok. unfold decl_default_namespace. ok ltac:(apply ptag_app). ok ltac:(apply sc1_gap; [exact G1 | exact eq_refl]).
    ok ltac:(apply ptag_app). ok ltac:(apply sc1_gap; [exact G2 | eapply idkw_nogap; exact Hp]). ok ltac:(apply opt_ok, idkw_ok; [exact Hp | apply eq_follow; exact G3]).
    ok ltac:(apply sc0_gap; [exact G3 | exact eq_refl]). ok ltac:(apply ptag_app).
    ok ltac:(apply sc0_gap; [exact G4 | eapply uri_nogap; exact Hu]). ok ltac:(apply uri_ok; eassumption). reflexivity.
  - rewrite por_err by (apply bind_err; exact eq_refl). rewrite por_err by (apply bind_err; exact eq_refl). unfold decl_datatypes. ok ltac:(apply ptag_app).
    ok ltac:(apply sc1_gap; [exact G1 | eapply idkw_nogap; exact Hp]).
    ok ltac:(apply idkw_ok; [exact Hp | apply eq_follow; exact G2]). ok ltac:(apply sc0_gap; [exact G2 | exact eq_refl]). ok ltac:(apply ptag_app).
    ok ltac:(apply sc0_gap; [exact G3 | eapply Lit_nogap; exact Hu]). ok ltac:(apply lit_ok; eassumption). reflexivity.
Qed.
(** what is not a declaration *)
Lemma decl_hd x : nohd idstart x -> p_decl x = PErr.
Proof.
  intros H. unfold p_decl. rewrite por_err by (apply bind_err, hd_no; [exact H | reflexivity]). rewrite por_err by (apply bind_err, hd_no; [exact H | reflexivity]).
  apply bind_err, hd_no; [exact H | reflexivity].
Qed.
Definition decl_kw : list str := map lit ["namespace"; "default"; "datatypes"]%string.
Lemma kw_sc1 {C} k w r (f : unit -> parser C) : In k Keywords -> Forall (fun c => nc_char c = true) w -> nohd nc_char r ->
  (w = k -> sc1 r = PErr \/ exists t, sc1 r = POk tt t /\ f tt t = PErr) -> (ptag k ;* pbind sc1 f) (w ++ r) = PErr.
Proof.
  intros Hk Hw Hr Hx. destruct (ptag_word k w r (word_forall _ (NCName_word _ (kw_word _ Hk))) Hr) as [(w' & E & H) | [_ H]]; [|apply bind_err; exact H].
  ok ltac:(exact H). destruct w' as [|d w'].
  - rewrite app_nil_r in E. cbn [app]. destruct (Hx E) as [H1 | (t & H1 & H2)]; [apply bind_err, H1|]. ok ltac:(exact H1). exact H2.
  - subst w. apply Forall_app in Hw as [_ Hw]. inversion Hw as [|? ? Hc _]; subst. apply bind_err, sc1_stop. cbn. apply nc_char_gapc, Hc.
Qed.
Lemma decl_word w r : NCName w -> nohd nc_char r -> (In w decl_kw -> sc1 r = PErr \/ exists t, sc1 r = POk tt t /\ nohd idstart t) -> p_decl (w ++ r) = PErr.
Proof.
  intros Hw Hr Hx. pose proof (word_forall _ (NCName_word _ Hw)) as Hf. unfold p_decl.
  assert (Hid : forall t, nohd idstart t -> identifier_or_keyword t = PErr).
  { intros t Ht. apply nogap_nostart in Ht as [H1 H2]. apply idkw_no; assumption. }
  rewrite por_err.
  2: { unfold decl_namespace. apply kw_sc1; [inkw | exact Hf | exact Hr |]. intros ->. destruct Hx as [Hx | (t & H1 & H2)]; [left; reflexivity | left; exact Hx|].
       right. exists t. split; [exact H1|]. apply bind_err, Hid, H2. }
  rewrite por_err.
  2: { unfold decl_default_namespace. apply kw_sc1; [inkw | exact Hf | exact Hr |]. intros ->. destruct Hx as [Hx | (t & H1 & H2)]; [right; left; reflexivity | left; exact Hx|].
       right. exists t. split; [exact H1|]. apply bind_err, hd_no; [exact H2 | reflexivity]. }
  unfold decl_datatypes. apply kw_sc1; [inkw | exact Hf | exact Hr |]. intros ->. destruct Hx as [Hx | (t & H1 & H2)]; [right; right; left; reflexivity | left; exact Hx|].
  right. exists t. split; [exact H1|]. apply bind_err, Hid, H2.
Qed.
Lemma decl_ident i r : Ident i -> nohd nc_char r -> p_decl (i ++ r) = PErr.
Proof.
  intros [[H1 H2] | (k & Hk & ->)] Hr; [|exact eq_refl]. apply decl_word; [exact H1 | exact Hr |]. intros H. exfalso. apply H2. clear - H. incases H inkw.
Qed.
Lemma decl_other k r : In k Keywords -> ~ In k decl_kw -> nohd nc_char r -> p_decl (k ++ r) = PErr.
Proof. intros Hk Hn Hr. apply decl_word; [apply kw_word, Hk | exact Hr | tauto]. Qed.
Lemma not_decl k : existsb (str_eqb k) decl_kw = false -> ~ In k decl_kw.
Proof.
  intros H Hi. assert (E : existsb (str_eqb k) decl_kw = true); [|congruence]. apply existsb_exists. exists k. split; [exact Hi | apply str_eqb_eq; reflexivity].
Qed.
Lemma decl_elem a s r : AnnElem a s -> p_decl (s ++ r) = PErr.
Proof.
  intros [nm s' g1 g2 atts t1 g3 kids t2 g4 Hn G1 _ _ _ _ _ _]. flat. set (x := g2 ++ t1 ++ g3 ++ t2 ++ g4 ++ lit "]" ++ r).
  assert (HF : nohd nc_char (g1 ++ lit "[" ++ x)) by (eapply F_nc; apply (F_str []); [exact G1 | reflexivity]).
  assert (H1 : sc1 (g1 ++ lit "[" ++ x) = PErr \/ exists t, sc1 (g1 ++ lit "[" ++ x) = POk tt t /\ nohd idstart t).
  { destruct (gap_sc1 g1 (lit "[" ++ x) G1) as [H | H]; [exact eq_refl | left; exact H | right; exists (lit "[" ++ x); split; [exact H | exact eq_refl]]. }
  destruct Hn as [i s0 [j Hj | j Hj] | p l Hp Hl].
  - apply decl_ident; assumption.
  - apply decl_word; [apply kw_word; exact Hj | exact HF | intros _; exact H1].
  - flat. apply decl_word; [exact Hp | exact eq_refl | intros _; left; apply sc1_stop; exact eq_refl].
Qed.
Lemma decl_gitem x s r : GItem x s -> p_decl (s ++ r) = PErr.
Proof.
  intros [h m g1 g2 p t G1 Hm | i h m g1 g2 p t Hi G1 Hm | g1 g2 l t g3 | g l t i u | g l t i u g1 g2 ov v g3 | a t Ha]; flat.
  - exact eq_refl.
  - apply decl_ident; [exact Hi | eapply F_nc, Method_F; eassumption].
  - exact eq_refl.
  - exact eq_refl.
  - exact eq_refl.
  - eapply decl_elem; exact Ha.
Qed.

(** ** A pattern is not a grammar content *)
Definition TF (y : str) : Prop := Follow (lit ":[") y /\ exists t, sc0 y = POk tt t /\ assign_method t = PErr.
Lemma TF_nc y : TF y -> nohd nc_char y. Proof. intros [H _]. eapply F_nc; exact H. Qed.
Lemma TF_str g k t : Gap g -> ok_head (lit ":[=|&") k = true -> TF (g ++ k ++ t).
Proof.
  intros Hg Hk. assert (HF : Follow (lit ":[=|&") (g ++ k ++ t)) by (apply F_str; assumption). split; [weak HF|].
  apply F_sc0 in HF as (u & H1 & H2 & _). exists u. split; [exact H1|]. apply method_no. eapply nohd_imp; [|exact H2].
  intros c E. apply among_in in E. apply among_in. cbn in *. tauto.
Qed.
Lemma TF_end g : Gap g -> TF g.
Proof. intros Hg. split; [apply F_end; exact Hg|]. exists []. split; [|reflexivity]. rewrite <- (app_nil_r g). apply sc0_gap; [exact Hg | exact I]. Qed.
Lemma TF_follows f r : Follows f -> TF r -> TF (f ++ r).
Proof. intros [|g1 g2 a s t G1 G2 Ha Hf] Hr; [exact Hr|]. flat. apply TF_str; [assumption | reflexivity]. Qed.
Lemma TF_post p q o r : Postfixes p q o -> TF r -> TF (o ++ r).
Proof. intros [p'|p' q' c op g s Hop Hg Hs] Hr; [exact Hr|]. flat. destruct Hop; (apply TF_str; [assumption | reflexivity]). Qed.
Lemma pat_eq p t r : Pat p t -> nohd (N.eqb 61) (t ++ r).
Proof. intros H. eapply starts_nohd; [eapply Pat_starts; exact H|]. intros c. apply start_not; [reflexivity | discriminate | reflexivity]. Qed.
Lemma TF_infix g1 c op g2 p t r : Gap g1 -> InfixOp c op -> Gap g2 -> Pat p t -> TF (g1 ++ op ++ g2 ++ t ++ r).
Proof.
  intros G1 Ho G2 Hp. assert (He : nohd (N.eqb 61) (g2 ++ t ++ r)).
  { apply nohd_gap; [exact G2 | intros c' Hc; apply gapc_neq; [exact Hc | reflexivity] | eapply pat_eq; exact Hp]. }
  destruct Ho.
  - apply TF_str; [exact G1 | reflexivity].
  - split; [apply F_str; [exact G1 | reflexivity]|]. eexists. split; [apply sc0_gap; [exact G1 | exact eq_refl]|]. unfold assign_method.
    rewrite por_err by reflexivity. rewrite por_err by reflexivity. apply pmap_err. cbn. destruct (g2 ++ t ++ r) as [|d y]; [reflexivity|]. cbn in He. cbn. rewrite He. reflexivity.
  - split; [apply F_str; [exact G1 | reflexivity]|]. eexists. split; [apply sc0_gap; [exact G1 | exact eq_refl]|]. unfold assign_method.
    rewrite por_err by reflexivity. rewrite por_err; [reflexivity|]. apply pmap_err. cbn. destruct (g2 ++ t ++ r) as [|d y]; [reflexivity|]. cbn in He. cbn. rewrite He. reflexivity.
Qed.
Lemma TF_lit g l t r : Gap g -> Lit l t -> TF (g ++ t ++ r).
Proof.
  intros Hg Hl. destruct (Lit_starts _ _ Hl) as (q & u & -> & Hq). cbn [app]. change (q :: u ++ r) with ([q] ++ (u ++ r)). apply TF_str; [exact Hg|].
  unfold quotec in Hq. rewrite orb_true_iff, !N.eqb_eq in Hq. destruct Hq as [-> | ->]; reflexivity.
Qed.
Lemma TF_params ps t r : Params ps t -> TF r -> TF (t ++ r).
Proof. intros [|g1 g2 l s g3 G1 _ _ _] Hr; [exact Hr|]. flat. apply TF_str; [exact G1 | reflexivity]. Qed.

(** the beginning of a pattern at the top level *)
Definition banned : list str := decl_kw ++ map lit ["start"; "div"; "include"]%string.
Inductive Shape (x : str) : Prop :=
| Sh_other : nohd idstart x -> Shape x
| Sh_word i w y : x = w ++ y -> IdKw i w -> ~ In w banned -> TF y -> Shape x
| Sh_cname p l y t : x = p ++ lit ":" ++ l ++ y -> NCName p -> NCName l -> nohd nc_char y -> sc0 y = POk tt t -> nohd (N.eqb 91) t -> Shape x.
Lemma shape_grammar n R x : Shape x -> grammar_body (S n) R x = PErr.
Proof.
  intros [H | i w y -> Hi Hb [HF (t & H1 & H2)] | p l y t -> Hp Hl H1 H2 H3]; [apply grammar_body_no; exact H | |].
  - assert (Hs : annotation_element (S n) (w ++ y) = PErr).
    { eapply (elem_no_name n (NmId i)); [constructor; exact Hi | eapply F_nc; exact HF | eapply F_hd; [exact HF | cbn; tauto | reflexivity] | exact H1 |].
      destruct (F_sc0_in _ _ 91%N HF) as (t' & H3 & H4); [cbn; tauto|]. rewrite H1 in H3. injection H3 as <-. exact H4. }
    assert (HN : not_item R (w ++ y)).
    { destruct Hi as [w [[Hw Hw'] | (k & Hk & ->)] | w Hw].
      - eapply not_item_word; [exact Hw | eapply F_nc; exact HF | exact H1 | exact H2 | |]; intros ->; exfalso; apply Hb; cbn; tauto.
      - eapply not_item_quoted; [exact Hk | eapply F_nc; exact HF | exact H1 | exact H2].
      - eapply not_item_word; [apply kw_word; exact Hw | eapply F_nc; exact HF | exact H1 | exact H2 | |]; intros ->; exfalso; apply Hb; cbn; tauto. }
    destruct HN as (N1 & N2 & N3 & N4). unfold grammar_body. rewrite !por_err by assumption. apply pmap_err, Hs.
  - assert (HN : not_item R (p ++ lit ":" ++ l ++ y)).
    { eapply not_item_word; [exact Hp | exact eq_refl | apply sc0_nil; exact eq_refl | exact eq_refl | intros _; exact eq_refl | intros _; left; apply sc1_stop; exact eq_refl]. }
    destruct HN as (N1 & N2 & N3 & N4). unfold grammar_body. rewrite !por_err by assumption. apply pmap_err.
    cbn [annotation_element]. assert (Hn : p_name (p ++ lit ":" ++ l ++ y) = POk (NmC p l) y).
    { unfold p_name. apply por_ok. erewrite pmap_ok; [|apply cname_ok; assumption]. reflexivity. }
    ok ltac:(exact Hn). ok ltac:(exact H2). apply bind_err, ptag_hd, H3.
Qed.
Lemma shape_decl x : Shape x -> p_decl x = PErr.
Proof.
  intros [H | i w y -> Hi Hb Hy | p l y t -> Hp Hl H1 H2 H3]; [apply decl_hd; exact H | |].
  - pose proof (TF_nc _ Hy) as Hnc. destruct Hi as [w Hw | w Hw]; [apply decl_ident; assumption|]. apply decl_other; [exact Hw | | exact Hnc].
    intros H. apply Hb. apply in_or_app. left; exact H.
  - apply decl_word; [exact Hp | exact eq_refl | intros _; left; apply sc1_stop; exact eq_refl].
Qed.
Lemma TF_starts (P : N -> bool) g s t : Gap1 g -> starts P s -> (forall c, P c = true -> gapc c = false /\ among (lit ":[=|&") c = false) -> TF (g ++ s ++ t).
Proof.
  intros Hg Hs HP. assert (HF : Follow (lit ":[=|&") (g ++ s ++ t)) by (eapply F_starts; eassumption). split; [weak HF|].
  apply F_sc0 in HF as (u & H1 & H2 & _). exists u. split; [exact H1|]. apply method_no. eapply nohd_imp; [|exact H2].
  intros c E. apply among_in in E. apply among_in. cbn in *. tauto.
Qed.
Lemma not_banned k : existsb (str_eqb k) banned = false -> ~ In k banned.
Proof.
  intros H Hi. assert (E : existsb (str_eqb k) banned = true); [|congruence]. apply existsb_exists. exists k. split; [exact Hi | apply str_eqb_eq; reflexivity].
Qed.
Lemma ident_not_banned i : Ident i -> ~ In i banned.
Proof.
  intros [[_ H2] | (k & Hk & ->)] H; [apply H2; clear - H; incases H inkw | inno H].
Qed.
Lemma sh_kw k y : In k Keywords -> existsb (str_eqb k) banned = false -> TF y -> Shape (k ++ y).
Proof. intros H1 H2 H3. eapply (Sh_word _ (IKKw k) k y); [reflexivity | constructor; exact H1 | apply not_banned; exact H2 | exact H3]. Qed.
Lemma sh_dt d s y t : DtName d s -> TF y \/ (nohd nc_char y /\ sc0 y = POk tt t /\ nohd (N.eqb 91) t /\ nohd (N.eqb 58) y /\ assign_method t = PErr /\ Follow (lit ":[") y) -> Shape (s ++ y).
Proof.
  intros Hd Hy. assert (HT : TF y).
  { destruct Hy as [H | (H1 & H2 & H3 & H4 & H5 & H6)]; [exact H|]. split; [exact H6 | eauto]. }
  destruct Hd as [| | p l Hp _ Hl].
  - apply sh_kw; [inkw | reflexivity | exact HT].
  - apply sh_kw; [inkw | reflexivity | exact HT].
  - flat. destruct HT as [HF (u & H1 & H2)]. destruct (F_sc0_in _ _ 91%N HF) as (t' & H3 & H4); [cbn; tauto|]. rewrite H1 in H3. injection H3 as <-.
    eapply Sh_cname; [reflexivity | exact Hp | exact Hl | eapply F_nc; exact HF | exact H1 | exact H4].
Qed.
Lemma idstart_tf c : idstart c = true -> gapc c = false /\ among (lit ":[=|&") c = false.
Proof.
  intros H. split; [apply idstart_gapc, H|]. unfold idstart in H. apply orb_prop in H as [H | H].
  - apply nc_start_among; [exact H | reflexivity].
  - apply N.eqb_eq in H. subst; reflexivity.
Qed.
Lemma ncp_tf c : (idstart c || among (lit "*(") c) = true -> gapc c = false /\ among (lit ":[=|&") c = false.
Proof.
  intros H. apply orb_prop in H as [H | H]; [apply idstart_tf, H|]. apply among_in in H. cbn in H. decompose [or] H; subst; try (split; reflexivity); tauto.
Qed.
Lemma nc_tf g s a t : Gap1 g -> Nc a s -> (forall u, s <> lit "[" ++ u) -> TF (g ++ s ++ t).
Proof.
  intros Hg Hs Hb. apply (TF_starts (fun c => idstart c || among (lit "*(") c)); [exact Hg | | apply ncp_tf].
  destruct (Nc_starts _ _ Hs) as (c & u & -> & Hc). exists c, u. split; [reflexivity|]. unfold ncstart in Hc. apply orb_prop in Hc as [-> | Hc]; [reflexivity|].
  apply among_in in Hc. cbn in Hc. destruct Hc as [<- | [<- | [<- | []]]]; try reflexivity. exfalso. apply (Hb u). reflexivity.
Qed.
Lemma annotated_app s r : annotated_name_class_first s -> annotated_name_class_first (s ++ r).
Proof. intros (c & k & g & t & Hk & Hg & ->). exists c, k, g, (t ++ r). split; [exact Hk|]. split; [exact Hg|]. flat. reflexivity. Qed.
Lemma prim_shape p s r : Prim p s -> TF r -> ~ annotated_name_class_first s -> Shape (s ++ r).
Proof.
  intros Hp Hr Hna. destruct Hp as [c k nc g1 s g2 g3 p t g4 Hk G1 Hn G2 G3 Hp G4 | c k g1 g2 p s g3 Hk G1 G2 Hp G3 | g l s _ [[] | ->] Hs | d s g l t Hd Hg Hs | d s ps t Hd Ht
    | i Hi Hn | g i Hg Hi | p k Hk | g l s i t Hg Hs Hi | g1 g2 l s g3 G1 G2 Hs G3 | g1 p s g2 G1 Hp G2 | d s ps t g1 g2 e u []]; flat.
  - apply sh_kw; [eapply NamedKw_in; exact Hk | destruct Hk; reflexivity |]. apply (nc_tf _ _ nc); [exact G1 | exact Hn|].
    intros u ->. apply Hna. eexists c, k, g1, (u ++ _). split; [exact Hk|]. split; [apply G1|]. flat. reflexivity.
  - apply sh_kw; [eapply BracedKw_in; exact Hk | destruct Hk; reflexivity |]. apply TF_str; [exact G1 | reflexivity].
  - apply Sh_other. cbn [app]. eapply Lit_nonid; exact Hs.
  - eapply (sh_dt d s _ []); [exact Hd|]. left. eapply TF_lit; eassumption.
  - eapply (sh_dt d s _ []); [exact Hd|]. left. eapply TF_params; eassumption.
  - eapply (Sh_word _ (IKId i) i r); [reflexivity | constructor; exact Hi | apply ident_not_banned, Hi | exact Hr].
  - apply sh_kw; [inkw | reflexivity|]. apply (TF_starts idstart); [exact Hg | apply Ident_starts, Hi | apply idstart_tf].
  - apply sh_kw; [eapply PlainKw_in; exact Hk | destruct Hk; reflexivity | exact Hr].
  - apply sh_kw; [inkw | reflexivity|]. eapply TF_lit; [apply Hg | exact Hs].
  - apply sh_kw; [inkw | reflexivity|]. apply TF_str; [exact G1 | reflexivity].
  - apply Sh_other. exact eq_refl.
Qed.
Lemma ann_shape i an s : Ann i an -> Shape s -> Shape (an ++ s).
Proof. intros [|i' t g Hi Hg] Hs; [exact Hs|]. destruct Hi. apply Sh_other. exact eq_refl. Qed.
Lemma pat_shape p s g : Pat p s -> Gap g -> ~ annotated_name_class_first s -> Shape (s ++ g).
Proof.
  intros Hp Hg Hna. pose proof (TF_end _ Hg) as Ht. destruct Hp as [i an p s f q o Ha Hp Hf Ho | i an p s f q o g1 g2 c op p2 t Ha Hp Hf Ho G1 Hop G2 Hp2 | i an d s ps t g1 g2 e u Ha Hd Hps G1 G1' G2 He];
    flat.
  - destruct Ha as [|i' t h Hi Hh]; [|destruct Hi; apply Sh_other; exact eq_refl]. cbn [app] in *. eapply prim_shape; [exact Hp | apply TF_follows; [exact Hf | eapply TF_post; [exact Ho | exact Ht]] | intros H; apply Hna, annotated_app, H].
  - destruct Ha as [|i' v h Hi Hh]; [|destruct Hi; apply Sh_other; exact eq_refl]. cbn [app] in *. eapply prim_shape; [exact Hp | apply TF_follows; [exact Hf | eapply TF_post; [exact Ho | eapply TF_infix; eassumption]] | intros H; apply Hna, annotated_app, H].
  - destruct Ha as [|i' v h Hi Hh]; [|destruct Hi; apply Sh_other; exact eq_refl]. cbn [app]. eapply (sh_dt d s _ []); [exact Hd|]. left.
    destruct Hps as [|h1 h2 l v h3 H1 H2 Hv H3].
    + apply (TF_starts (N.eqb 45) g1); [split; [exact G1 | destruct (G1' eq_refl) as [[] | X]; exact X] | eexists 45%N, []; split; reflexivity |].
      intros c Hc. apply N.eqb_eq in Hc. subst. split; reflexivity.
    + flat. apply TF_str; [exact H1 | reflexivity].
Qed.

(** ** The whole text *)
Lemma top_no_decl t u g : Top t u -> Gap g -> p_decl (u ++ g) = PErr.
Proof.
  intros [l s Hl Hs | p s Hp [[] | Hna]] Hg.
  - destruct Hs as [|x s Hx | x s h l t2 Hx Hh Hl' Ht]; [congruence | eapply decl_gitem; exact Hx | flat; eapply decl_gitem; exact Hx].
  - apply shape_decl. eapply pat_shape; eassumption.
Qed.
Lemma top_starts t u : Top t u -> starts patstart u.
Proof.
  intros [l s Hl Hs | p s Hp _]; [|eapply Pat_starts; exact Hp].
  eapply starts_imp; [|eapply (Seq_starts GItem idstart GItem_starts); eassumption]. intros c. apply idstart_any.
Qed.
Lemma patstart_tilde c : patstart c = true -> gapc c = false /\ among (lit "~") c = false.
Proof.
  intros H. split; [apply patstart_gapc, H|]. unfold patstart in H. apply orb_prop in H as [H | H]; [apply idstart_tilde, H|].
  apply among_in in H. cbn in H. decompose [or] H; subst; try reflexivity; tauto.
Qed.
Lemma top_ok n t u g : Top t u -> Gap g -> List.length (u ++ g) < n ->
  (pmap TGrammar (psep1 sc1 (grammar_content n)) <|> pmap TPattern (pattern n)) (u ++ g) = POk t g.
Proof.
  intros Ht Hg Hn. destruct n as [|n]; [lia|]. destruct Ht as [l s Hl Hs | p s Hp [[] | Hna]].
  - apply por_ok, pmap_ok. apply (seq_sep1 GItem _ PF (S n) idstart idstart_gapc (fun x s r => proj1 (proj2 (parsers_ok (S n))) x s r) GItem_starts
      (fun g y s t => gitem_next g y s t) l s g Hs Hl).
    + apply PF_end, Hg.
    + rewrite <- (app_nil_r g). apply Ends_gap; [exact Hg | exact I | apply grammar_body_no; exact I].
    + exact Hn.
  - rewrite por_err.
    + apply pmap_ok. apply parsers_ok; [exact Hp | apply PF_end, Hg | exact Hn].
    + apply pmap_err, bind_err. apply shape_grammar. eapply pat_shape; eassumption.
Qed.
Lemma top_level_ok n ds s g1 t u g2 : Seq Decl ds s -> Gap g1 -> (ds <> [] -> g1 <> []) -> (ds = [] -> g1 = []) -> Top t u -> Gap g2 ->
  List.length (u ++ g2) < n -> top_level n (s ++ g1 ++ u ++ g2) = POk (Schema ds t) g2.
Proof.
  intros Hs G1 Hx Hy Ht G2 Hn. unfold top_level. pose proof (top_no_decl t u g2 Ht G2) as Hd. pose proof (top_starts _ _ Ht) as Hst.
  assert (Hgap : nohd gapc (u ++ g2)) by (eapply starts_nohd; [exact Hst | apply patstart_gapc]).
  assert (Hds : psep0 sc1 p_decl (s ++ g1 ++ u ++ g2) = POk ds (g1 ++ u ++ g2)).
  { destruct ds as [|d ds].
    - inversion Hs; subst. rewrite (Hy eq_refl). cbn [app]. unfold psep0. rewrite Hd. reflexivity.
    - assert (Hg : Gap1 g1) by (split; [exact G1 | apply Hx; discriminate]).
      apply (seq_sep0 Decl p_decl LitF (S (List.length (s ++ g1 ++ u ++ g2))) (among (lit "nd"))).
      + intros c E. apply among_in in E. cbn in E. destruct E as [<- | [<- | []]]; reflexivity.
      + intros x s' r Hx' Hr _. apply decl_ok; assumption.
      + apply Decl_starts.
      + intros g y s' t' Hg' Hy'. apply (LitF_next (among (lit "nd"))); [exact Hg' | eapply Decl_starts; exact Hy' |].
        intros c E. apply among_in in E. cbn in E. destruct E as [<- | [<- | []]]; split; reflexivity.
      + exact Hs.
      + discriminate.
      + apply (LitF_next patstart); [exact Hg | exact Hst | apply patstart_tilde].
      + apply Ends_gap; [exact G1 | exact Hgap | exact Hd].
      + lia. }
  ok ltac:(exact Hds). ok ltac:(apply sc0_gap; [exact G1 | exact Hgap]). ok ltac:(apply top_ok; eassumption). reflexivity.
Qed.
Lemma gap_two g0 ds s g1 : Gap g0 -> Gap g1 -> @Seq decl Decl ds s -> exists h0 h1, Gap h0 /\ Gap h1 /\ (ds = [] -> h1 = []) /\ (ds <> [] -> g1 <> [] -> h1 <> []) /\ g0 ++ s ++ g1 = h0 ++ s ++ h1.
Proof.
  intros G0 G1 Hs. destruct ds as [|d ds].
  - inversion Hs; subst. exists (g0 ++ g1), []. repeat split; [apply gap_app; assumption | constructor | congruence | cbn; rewrite app_nil_r; reflexivity].
  - exists g0, g1. repeat split; try assumption; [discriminate | tauto].
Qed.
Lemma schema_read x s : SchemaText x s -> parse_compact s = Parsed x.
Proof.
  intros [g0 ds t g1 tp u g2 G0 Hds G1 Hx Ht G2]. unfold parse_compact.
  destruct (gap_two g0 ds t g1 G0 G1 Hds) as (h0 & h1 & H0 & H1 & H2 & H3 & E).
  replace (g0 ++ t ++ g1 ++ u ++ g2) with (h0 ++ t ++ h1 ++ u ++ g2).
  2: { transitivity ((h0 ++ t ++ h1) ++ u ++ g2); [flat; reflexivity|]. rewrite <- E. flat. reflexivity. }
  set (n := S (List.length (h0 ++ t ++ h1 ++ u ++ g2))). unfold p_schema, all_consuming.
  assert (Hgap : nohd gapc (t ++ h1 ++ u ++ g2)).
  { destruct ds as [|d ds].
    - inversion Hds; subst. rewrite (H2 eq_refl). cbn [app]. eapply starts_nohd; [eapply top_starts; exact Ht | apply patstart_gapc].
    - eapply starts_nohd; [eapply (Seq_starts Decl (among (lit "nd")) Decl_starts); [exact Hds | discriminate]|].
      intros c Ec. apply among_in in Ec. cbn in Ec. destruct Ec as [<- | [<- | []]]; reflexivity. }
  assert (Hall : (sc0 ;* let* x := top_level n in sc0 ;* pret x) (h0 ++ t ++ h1 ++ u ++ g2) = POk (Schema ds tp) []).
  { ok ltac:(apply sc0_gap; [exact H0 | exact Hgap]). ok ltac:(apply top_level_ok; try eassumption; [intros Hn; apply H3; [exact Hn | destruct (Hx Hn) as [[] | X]; exact X] | unfold n; lens]).
    rewrite <- (app_nil_r g2). ok ltac:(apply sc0_gap; [exact G2 | exact I]). reflexivity. }
  rewrite Hall. reflexivity.
Qed.
